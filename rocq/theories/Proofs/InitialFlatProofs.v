(* The flat initial bipartitioners: termination, memory safety, complete bipartitions with exact block weights. *)
From Verif Require Import Lib.Prelude Spec.Graph Spec.InitialSpec Model.InitialFmModel Model.InitialFlatModel Proofs.GraphFacts
  Proofs.InitialFmProofs.

(** ** Flags *)
Definition marks (m : list bool) : nat := length (filter (fun b => b) m).
Lemma marks_le m : marks m <= length m.
Proof. unfold marks. induction m as [|[|] m IH]; cbn [filter length]; lia. Qed.
Lemma marks_upd m u : u < length m -> nth u m false = false -> marks (upd u true m) = S (marks m).
Proof.
  unfold marks. revert u. induction m as [|x m IH]; intros u Hu E; [cbn in Hu; lia|]. destruct u as [|u]; cbn in E.
  - subst x. reflexivity.
  - specialize (IH u ltac:(cbn in Hu; lia) E). change (upd (S u) true (x :: m)) with (x :: upd u true m).
    destruct x; cbn [filter length]; rewrite IH; reflexivity.
Qed.
Lemma marks_lt m u : u < length m -> nth u m false = false -> marks m < length m.
Proof. intros H E. pose proof (marks_le (upd u true m)) as K. rewrite marks_upd, upd_length in K by auto. lia. Qed.
Lemma marks_full m u : marks m = length m -> u < length m -> nth u m false = true.
Proof. intros E H. destruct (nth u m false) eqn:F; auto. pose proof (marks_lt m u H F). lia. Qed.
Lemma marks_repeat n : marks (repeat false n) = 0.
Proof. unfold marks. induction n; auto. Qed.
Lemma first_false_ok m : first_false m < length m -> nth (first_false m) m false = false.
Proof. induction m as [|x m IH]; cbn [first_false length]; [lia|]. destruct x; intros H; cbn [nth]; [apply IH; lia|reflexivity]. Qed.
Lemma first_false_all m : length m <= first_false m -> forall u, u < length m -> nth u m false = true.
Proof.
  induction m as [|x m IH]; cbn [first_false length]; [lia|]. destruct x; intros H [|u] Hu; cbn [nth]; try lia; auto.
  apply IH; lia.
Qed.
Lemma mset_ok u m : u < length m -> mset u m = Some (upd u true m).
Proof. intros H. unfold mset. rewrite (proj2 (Nat.ltb_lt _ _) H). reflexivity. Qed.

Section Flat.
Variable g : graph.
Variables limit perfect : nat -> Z.
Hypothesis Hcl : closed_graph g.
Let n := gn g.

(** ** Partial partitions *)
Definition fweight (p : list (option nat)) (b : nat) : Z :=
  sumn n (fun u => match nth u p None with Some c => if c =? b then gvw g u else 0%Z | None => 0%Z end).
Definition flat_ok (fs : fstate) : Prop :=
  length (fst fs) = n /\ length (snd fs) = 2 /\ (forall u b, nth u (fst fs) None = Some b -> b < 2) /\
  forall b, b < 2 -> nth b (snd fs) 0%Z = fweight (fst fs) b.

Lemma fweight_upd p u b c : length p = n -> u < n ->
  fweight (upd u (Some b) p) c = (fweight p c - (match nth u p None with Some a => if Nat.eqb a c then gvw g u else 0 | None => 0 end)
                                  + (if Nat.eqb b c then gvw g u else 0))%Z.
Proof using All.
  intros L Hu. unfold fweight.
  rewrite (sumn_change n u (fun x => match nth x (upd u (Some b) p) None with Some d => if d =? c then gvw g x else 0%Z | None => 0%Z end)
             (fun x => match nth x p None with Some d => if d =? c then gvw g x else 0%Z | None => 0%Z end)); auto.
  - rewrite upd_nth_same by lia. lia.
  - intros i Hi Hne. rewrite upd_nth_other by congruence. reflexivity.
Qed.
Lemma fweight_none c : fweight (repeat None n) c = 0%Z.
Proof using All. unfold fweight. apply sumn_zero_ext. intros i _. rewrite nth_repeat. reflexivity. Qed.

Lemma flat_set_ok u b fs : flat_ok fs -> u < n -> b < 2 -> nth u (fst fs) None = None ->
  exists bw, flat_set g u b fs = Some (upd u (Some b) (fst fs), bw) /\ flat_ok (upd u (Some b) (fst fs), bw) /\
             (forall c, c < 2 -> nth c bw 0%Z = (nth c (snd fs) 0 + (if Nat.eqb b c then gvw g u else 0))%Z).
Proof using All.
  destruct fs as [p bw]. unfold flat_ok. cbn [fst snd]. intros (L & Lw & R & E) Hu Hb Hn. unfold flat_set.
  rewrite (nth_error_nth' p None) by (unfold n in *; lia). rewrite Hn. eexists. split; [reflexivity|].
  assert (W : forall c, c < 2 -> nth c (upd b (nth b bw 0 + gvw g u)%Z bw) 0%Z = (nth c bw 0 + (if Nat.eqb b c then gvw g u else 0))%Z).
  { intros c Hc. rewrite upd_nth. destruct (Nat.eqb_spec b c) as [->|]; cbn [andb]; [|lia].
    rewrite Lw, (proj2 (Nat.ltb_lt _ _) Hc). lia. }
  split; [|exact W]. split; [rewrite upd_length; exact L|]. split; [rewrite upd_length; exact Lw|]. split.
  - intros v c. rewrite upd_nth. destruct ((u =? v) && (u <? length p)); [intros [= <-]; exact Hb|apply R].
  - intros c Hc. rewrite W by exact Hc. rewrite fweight_upd by auto. rewrite Hn, E by exact Hc. lia.
Qed.

Lemma labels_ok p : (forall u, u < length p -> nth u p None <> None) ->
  exists l, labels p = Some l /\ length l = length p /\ forall u, u < length p -> nth u p None = Some (nth u l 0).
Proof using All.
  induction p as [|o p IH]; intros H; cbn [labels length].
  - exists []. split; auto. split; auto. lia.
  - destruct IH as (l & E & L & K); [intros u Hu; apply (H (S u)); cbn; lia|].
    destruct o as [b|]; [|destruct (H 0); [cbn; lia|reflexivity]]. rewrite E. exists (b :: l). split; auto.
    split; [cbn; lia|]. intros [|u] Hu; cbn [nth]; [reflexivity|apply K; lia].
Qed.
Lemma flat_complete fs : flat_ok fs -> (forall u, u < n -> nth u (fst fs) None <> None) ->
  exists l, labels (fst fs) = Some l /\ bipartition g l (snd fs) /\ forall u, u < n -> nth u (fst fs) None = Some (nth u l 0).
Proof using All.
  destruct fs as [p bw]. unfold flat_ok. cbn [fst snd]. intros (L & Lw & R & E) H.
  destruct (labels_ok p) as (l & El & Ll & K); [intros u Hu; apply H; lia|]. exists l. split; auto.
  rewrite L in K. split; [|exact K]. split; [exact Lw|]. split; [rewrite Ll; exact L|]. split.
  - intros u Hu. rewrite Lw. apply (R u). apply K. exact Hu.
  - intros b Hb. rewrite Lw in Hb. rewrite E by exact Hb. unfold fweight, block_weight. apply sumn_ext. intros u Hu.
    rewrite K by exact Hu. reflexivity.
Qed.
Lemma flat_init : flat_ok (repeat None n, [0; 0]%Z).
Proof using All.
  split; [apply repeat_length|]. split; [reflexivity|]. split; [intros u b; cbn [fst]; rewrite nth_repeat; discriminate|].
  intros b Hb. cbn [fst]. rewrite fweight_none. destruct b as [|[|b]]; [reflexivity|reflexivity|lia].
Qed.

(** ** Random *)
Lemma random_fill_ok rnd us : forall fs, flat_ok fs -> NoDup us -> (forall u, In u us -> u < n /\ nth u (fst fs) None = None) ->
  exists fs', random_fill g perfect rnd us fs = Some fs' /\ flat_ok fs' /\ (forall u, In u us -> nth u (fst fs') None <> None) /\
              (forall u, nth u (fst fs) None <> None -> nth u (fst fs') None <> None).
Proof using All.
  induction us as [|u us IH]; intros fs F Hd H; cbn [random_fill].
  - exists fs. split; auto.
  - inversion Hd as [|? ? Hni Hd']; subst. destruct (H u (or_introl eq_refl)) as [Hu Hn].
    assert (K : exists fs1 b, random_node g perfect rnd u fs = Some fs1 /\ flat_ok fs1 /\ fst fs1 = upd u (Some b) (fst fs)).
    { unfold random_node, add_to_smaller. destruct (_ <? _)%Z.
      - edestruct (flat_set_ok u (if rnd u then 1 else 0) fs F Hu) as (bw & E1 & F1 & _); auto; [destruct (rnd u); lia|].
        eexists _, _. split; [exact E1|]. split; [exact F1|reflexivity].
      - edestruct (flat_set_ok u (if (nth 0 (snd fs) 0 - perfect 0 <? nth 1 (snd fs) 0 - perfect 1)%Z then 0 else 1) fs F Hu)
          as (bw & E1 & F1 & _); auto; [destruct (_ <? _)%Z; lia|].
        eexists _, _. split; [exact E1|]. split; [exact F1|reflexivity]. }
    destruct K as (fs1 & b & E1 & F1 & Ep). rewrite E1.
    assert (Lp : u < length (fst fs)) by (destruct F; unfold n in *; lia).
    destruct (IH fs1 F1 Hd') as (fs' & E' & F' & A & M).
    { intros v Hv. split; [apply H; right; exact Hv|]. rewrite Ep, upd_nth_other by (intros ->; contradiction). apply H. right. exact Hv. }
    exists fs'. split; auto. split; auto. split.
    + intros v [<-|Hv]; [|apply A; exact Hv]. apply M. rewrite Ep, upd_nth_same by exact Lp. discriminate.
    + intros v Hv. apply M. rewrite Ep, upd_nth. destruct ((u =? v) && (u <? length (fst fs))); [discriminate|exact Hv].
Qed.

(** ** Queues *)
Definition qok (q : queue) (m : list bool) : Prop := length m = n /\ snd q = marks m /\ length (fst q) <= snd q.

Lemma queue_unmarked_ok skip l : (forall v w, In (v, w) l -> v < n) -> forall q m cnt, qok q m ->
  exists q' m' add, queue_unmarked g skip l q m cnt = Some (q', m', cnt + length add) /\ qok q' m' /\
    fst q' = fst q ++ add /\ snd q' = snd q + length add /\
    (forall v, nth v m' false = true <-> nth v m false = true \/ In v add) /\
    (forall v, In v add -> v < n /\ skip v = false) /\
    (forall v w, In (v, w) l -> skip v = true \/ nth v m' false = true).
Proof using All.
  induction l as [|[x w] l IH]; intros Hl q m cnt (Lm & Lq & Lf); cbn [queue_unmarked].
  - exists q, m, []. cbn [length]. rewrite !app_nil_r, !Nat.add_0_r. split; auto. split; [split; auto|]. split; auto. split; auto.
    split; [intros v; cbn; tauto|]. split; [intros v []|intros v z []].
  - assert (Hx : x < n) by (eapply Hl; left; reflexivity).
    assert (Hl' : forall v z, In (v, z) l -> v < n) by (intros; eapply Hl; right; eauto).
    destruct (skip x || nth x m false) eqn:E.
    + destruct (IH Hl' q m cnt (conj Lm (conj Lq Lf))) as (q' & m' & add & E' & Q' & F1 & F2 & F3 & F4 & F5). exists q', m', add.
      split; auto. split; auto. split; auto. split; auto. split; auto. split; auto.
      intros v z [[= <- <-]|Hv]; [|eapply F5; eauto]. apply orb_true_iff in E. destruct E as [E|E]; [left; exact E|right].
      apply F3. left. exact E.
    + apply orb_false_iff in E. destruct E as [Es Em]. rewrite <- Lm in Hx. pose proof (marks_lt m x Hx Em) as Hlt.
      unfold push_tail. fold n. rewrite Lq. rewrite (proj2 (Nat.ltb_lt (marks m) n)) by lia. rewrite mset_ok by exact Hx.
      set (q1 := (fst q ++ [x], S (marks m))). set (m1 := upd x true m).
      assert (Q1 : qok q1 m1).
      { split; [unfold m1; rewrite upd_length; exact Lm|]. unfold q1, m1. cbn [fst snd]. split; [rewrite marks_upd by auto; reflexivity|].
        rewrite app_length. cbn [length]. lia. }
      destruct (IH Hl' q1 m1 (S cnt) Q1) as (q' & m' & add & E' & Q' & F1 & F2 & F3 & F4 & F5).
      exists q', m', (x :: add). cbn [length]. rewrite Nat.add_succ_r. split; [exact E'|]. split; [exact Q'|].
      split; [rewrite F1; unfold q1; cbn [fst]; rewrite <- app_assoc; reflexivity|].
      split; [rewrite F2; unfold q1; cbn [snd]; lia|].
      assert (M1 : forall v, nth v m1 false = true <-> nth v m false = true \/ v = x).
      { intros v. unfold m1. rewrite upd_nth. destruct (Nat.eqb_spec x v) as [<-|Hne]; cbn [andb].
        - rewrite (proj2 (Nat.ltb_lt _ _) Hx). tauto.
        - split; [auto|]. intros [K|K]; [exact K|congruence]. }
      split; [|split].
      * intros v. rewrite F3, M1. cbn [In]. clear. split; [intros [[H|H]|H]; auto|intros [H|[H|H]]; auto].
      * intros v [<-|Hv]; [split; [lia|exact Es]|apply F4; exact Hv].
      * intros v z [[= <- <-]|Hv]; [|eapply F5; eauto]. right. apply F3. left. apply M1. right. reflexivity.
Qed.

(** ** Seed nodes *)
Lemma far_loop_ok fuel : forall q m dist last rem next, qok q m -> (forall v, In v (fst q) -> v < n) -> last < n ->
  length (fst q) = rem + next -> (fst q <> [] -> 1 <= rem) -> 1 <= dist + rem -> n - (snd q - length (fst q)) <= fuel ->
  exists last' d m', far_loop g fuel q m dist last rem next = Some (last', S d, m') /\ last' < n /\ length m' = n.
Proof using All.
  induction fuel as [|f IH]; intros q m dist last rem next Q Hq Hlast Hlen Hrem Hd Hf; destruct q as [[|u r] c];
    cbn [far_loop fst snd] in *.
  - cbn [length] in Hlen. destruct dist as [|d]; [lia|]. exists last, d, m. destruct Q as (Lm & _). auto.
  - destruct Q as (Lm & Lq & Lf). cbn [fst snd length] in *. pose proof (marks_le m). lia.
  - cbn [length] in Hlen. destruct dist as [|d]; [lia|]. exists last, d, m. destruct Q as (Lm & _). auto.
  - assert (Hu : u < n) by (apply Hq; left; reflexivity).
    assert (Q1 : qok (r, c) m). { destruct Q as (Lm & Lq & Lf). split; auto. cbn [fst snd length] in *. split; [exact Lq|lia]. }
    destruct (queue_unmarked_ok (fun _ => false) (gadj g u) (fun v w Hi => Hcl u v w Hu Hi) (r, c) m next Q1)
      as (q' & m' & add & E' & Q' & F1 & F2 & _ & F4 & _). rewrite E'. cbn [fst snd] in F1, F2.
    specialize (Hrem ltac:(discriminate)). destruct rem as [|rem]; [lia|]. cbn [length] in Hlen, Hf.
    assert (Hq' : forall v, In v (fst q') -> v < n).
    { rewrite F1. intros v Hv. apply in_app_or in Hv. destruct Hv as [Hv|Hv]; [apply Hq; right; exact Hv|apply F4; exact Hv]. }
    assert (Lq' : length (fst q') = length r + length add) by (rewrite F1, app_length; reflexivity).
    assert (Hf' : n - (snd q' - length (fst q')) <= f).
    { rewrite F2, Lq'. destruct Q as (_ & _ & Lf). cbn [fst snd length] in Lf. lia. }
    destruct (Nat.eqb_spec rem 0) as [->|Hr].
    + apply IH; auto; try lia. intros Hne. destruct (fst q'); [congruence|]. cbn [length] in Lq'. lia.
    + apply IH; auto; try lia.
Qed.
Lemma furthest_node_ok start : start < n -> exists v d, furthest_node g start = Some (v, d) /\ v < n.
Proof using All.
  intros Hs. unfold furthest_node, push_tail. cbn [fst snd app nilq]. fold n. rewrite (proj2 (Nat.ltb_lt 0 n)) by lia.
  rewrite mset_ok by (rewrite repeat_length; exact Hs).
  edestruct (far_loop_ok n ([start], 1) (upd start true (repeat false n)) 0 start 1 0) as (last & d & m' & E & Hl & Lm); auto.
  - split; [rewrite upd_length; apply repeat_length|]. cbn [fst snd]. rewrite marks_upd, marks_repeat; [auto|rewrite repeat_length; exact Hs|apply nth_repeat].
  - cbn [fst]. intros v [<-|[]]. exact Hs.
  - cbn [fst snd length]. lia.
  - rewrite E. destruct (Nat.ltb_spec (first_false m') n); eauto.
Qed.
Lemma far_away_ok rnd iters : 0 < n -> forall i best pair, fst pair < n -> snd pair < n ->
  exists a b, far_away g iters i rnd best pair = Some (a, b) /\ a < n /\ b < n.
Proof using All.
  intros Hn. induction iters as [|it IH]; intros i best pair H1 H2; cbn [far_away].
  - destruct pair as [a b]. eauto.
  - fold n. assert (Hu : fst (rnd i) mod n < n) by (apply Nat.mod_upper_bound; lia).
    destruct (furthest_node_ok _ Hu) as (v & d & E & Hv). rewrite E.
    destruct (dist_gt d best || dist_eq d best && snd (rnd i)); apply IH; auto.
Qed.

(** ** Breadth first search *)
Definition bok (s : bstate) : Prop :=
  flat_ok (b_fs s) /\ length (b_done s) = n /\ length (b_q s) = 2 /\ length (b_m s) = 2 /\ b_active s < 2 /\
  (forall v, v < n -> (nth v (b_done s) false = true <-> nth v (fst (b_fs s)) None <> None)) /\
  forall b, b < 2 ->
    qok (nth b (b_q s) nilq) (nth b (b_m s) []) /\ (forall v, In v (fst (nth b (b_q s) nilq)) -> v < n) /\
    forall v, v < n -> nth v (nth b (b_m s) []) false = true -> nth v (b_done s) false = true \/ In v (fst (nth b (b_q s) nilq)).
(** Number of elements that were not taken from a queue yet. *)
Definition todo (q : queue) : nat := n - (snd q - length (fst q)).
Definition measure (s : bstate) : nat := todo (nth 0 (b_q s) nilq) + todo (nth 1 (b_q s) nilq).

Lemma select_lt st a bw q0 q1 : a < 2 -> select_next perfect st a bw q0 q1 < 2.
Proof using All. intros H. destruct st; cbn [select_next]; try (destruct (_ <? _); lia); try (destruct (_ <? _)%Z; lia). lia. Qed.

Lemma measure_pos s : bok s -> first_false (b_done s) < n -> 1 <= measure s.
Proof using All.
  intros (_ & Ld & _ & _ & _ & _ & Q) Hf. unfold measure, todo.
  destruct (Q 0) as ((Lm & Lq & Lf) & _ & M); [lia|]. set (q := nth 0 (b_q s) nilq) in *. set (m := nth 0 (b_m s) []) in *.
  destruct (Nat.eq_dec (snd q - length (fst q)) n) as [E|]; [|pose proof (marks_le m); lia]. exfalso.
  pose proof (marks_le m) as Hm. assert (E1 : marks m = length m) by lia. assert (E2 : length (fst q) = 0) by lia.
  rewrite <- Ld in Hf. pose proof (first_false_ok _ Hf) as Hn. rewrite Ld in Hf.
  destruct (M (first_false (b_done s)) Hf) as [K|K].
  - apply marks_full; [exact E1|lia].
  - congruence.
  - destruct (fst q); [destruct K|discriminate].
Qed.

(** Taking the first element of the active queue. *)
Lemma bfs_take s u r c : bok s -> nth (b_active s) (b_q s) nilq = (u :: r, c) ->
  let qs' := upd (b_active s) (r, c) (b_q s) in
  let s1 := mkB (b_fs s) qs' (b_m s) (b_done s) (b_active s) in
  exists s', (if nth u (b_done s) false then Some s1 else bfs_assign g limit u (b_active s) qs' s1) = Some s' /\ bok s' /\
             S (measure s') = measure s.
Proof using All.
  intros (F & Ld & Lqs & Lms & Ha & D & Q) Eq qs' s1. set (a := b_active s) in *.
  destruct (Q a Ha) as ((Lm & Lq & Lf) & Hin & M). rewrite Eq in Lq, Lf, Hin, M. cbn [fst snd length] in Lq, Lf, Hin, M.
  assert (Hu : u < n) by (apply Hin; left; reflexivity).
  assert (HL : a < length (b_q s)) by lia.
  assert (Qa : nth a qs' nilq = (r, c)) by (apply upd_nth_same; exact HL).
  assert (Qo : forall b, b <> a -> nth b qs' nilq = nth b (b_q s) nilq) by (intros b Hb; apply upd_nth_other; congruence).
  assert (Hcn : c <= n) by (pose proof (marks_le (nth a (b_m s) [])); lia).
  assert (Meas : S (todo (nth 0 qs' nilq) + todo (nth 1 qs' nilq)) = measure s).
  { unfold measure. assert (Ta : S (todo (r, c)) = todo (u :: r, c)) by (unfold todo; cbn [fst snd length]; lia).
    assert (Hc : a = 0 \/ a = 1) by lia. destruct Hc as [Hc|Hc]; rewrite Hc in *.
    - rewrite Qa, (Qo 1), Eq by lia. lia.
    - rewrite Qa, (Qo 0), Eq by lia. lia. }
  destruct (nth u (b_done s) false) eqn:Eu.
  - exists s1. split; auto. split; [|exact Meas]. unfold s1. split; [exact F|]. cbn [b_fs b_q b_m b_done b_active].
    split; [exact Ld|]. split; [unfold qs'; rewrite upd_length; exact Lqs|]. split; [exact Lms|]. split; [exact Ha|]. split; [exact D|].
    intros b Hb. destruct (Nat.eq_dec b a) as [->|Hba].
    + rewrite Qa. cbn [fst snd]. split; [split; [exact Lm|cbn [fst snd]; split; [exact Lq|lia]]|]. split; [intros v Hv; apply Hin; right; exact Hv|].
      intros v Hv Hm. destruct (M v Hv Hm) as [K|[<-|K]]; auto.
    + rewrite Qo by exact Hba. apply Q. exact Hb.
  - unfold bfs_assign. unfold s1 at 1 2 3 4. cbn [b_fs b_q b_m b_done b_active].
    set (t := if (_ <=? _)%Z then a else 1 - a).
    assert (Ht : t < 2) by (unfold t; destruct (_ <=? _)%Z; lia). clearbody t.
    assert (Hnone : nth u (fst (b_fs s)) None = None).
    { destruct (nth u (fst (b_fs s)) None) eqn:E; auto. assert (nth u (b_done s) false = true) by (apply D; [exact Hu|congruence]). congruence. }
    destruct (flat_set_ok u t (b_fs s) F Hu Ht Hnone) as (bw & Es & F' & _). rewrite Es.
    rewrite mset_ok by lia. set (dn := upd u true (b_done s)).
    assert (Qt : qok (nth t qs' nilq) (nth t (b_m s) [])).
    { destruct (Nat.eq_dec t a) as [->|Hta]; [rewrite Qa; split; [exact Lm|cbn [fst snd]; split; [exact Lq|lia]]|]. rewrite Qo by exact Hta. apply Q. exact Ht. }
    destruct (queue_unmarked_ok (fun v => nth v dn false) (gadj g u) (fun v w Hi => Hcl u v w Hu Hi) _ _ 0 Qt)
      as (q' & m' & add & E' & Q' & F1 & F2 & F3 & F4 & _). unfold s1. cbn [b_m]. rewrite E'.
    eexists. split; [reflexivity|].
    assert (HLq : t < length qs') by (unfold qs'; rewrite upd_length; lia).
    assert (HLm : t < length (b_m s)) by lia.
    assert (Lp : u < length (fst (b_fs s))) by (destruct F; unfold n in *; lia).
    assert (Dn : forall v, nth v dn false = true <-> nth v (b_done s) false = true \/ v = u).
    { intros v. unfold dn. rewrite upd_nth. destruct (Nat.eqb_spec u v) as [<-|Hne]; cbn [andb].
      - rewrite (proj2 (Nat.ltb_lt u (length (b_done s)))) by lia. tauto.
      - split; [auto|]. intros [K|K]; [exact K|congruence]. }
    split.
    + split; [exact F'|]. cbn [b_fs b_q b_m b_done b_active fst].
      split; [unfold dn; rewrite upd_length; exact Ld|]. split; [rewrite upd_length; unfold qs'; rewrite upd_length; exact Lqs|].
      split; [rewrite upd_length; exact Lms|]. split; [exact Ht|]. split.
      * intros v Hv. rewrite Dn, upd_nth. destruct (Nat.eqb_spec u v) as [<-|Hne]; cbn [andb].
        -- rewrite (proj2 (Nat.ltb_lt _ _) Lp). split; [discriminate|auto].
        -- rewrite <- (D v Hv). split; [intros [K|K]; [exact K|congruence]|auto].
      * intros b Hb. destruct (Nat.eq_dec b t) as [->|Hbt].
        -- rewrite !upd_nth_same by auto. split; [exact Q'|]. rewrite F1. split.
           ++ intros v Hv. apply in_app_or in Hv. destruct Hv as [Hv|Hv]; [|apply F4; exact Hv].
              destruct (Nat.eq_dec t a) as [->|Hta]; [rewrite Qa in Hv; apply Hin; right; exact Hv|]. rewrite Qo in Hv by exact Hta. apply (Q t Ht). exact Hv.
           ++ intros v Hv Hm. apply F3 in Hm. destruct Hm as [Hm|Hm]; [|right; apply in_or_app; right; exact Hm].
              destruct (Nat.eq_dec t a) as [->|Hta].
              ** destruct (M v Hv Hm) as [K|[<-|K]]; [left; apply Dn; auto|left; apply Dn; auto|].
                 right. rewrite Qa. apply in_or_app. left. exact K.
              ** rewrite Qo by exact Hta. destruct (Q t Ht) as (_ & _ & M'). destruct (M' v Hv Hm) as [K|K]; [left; apply Dn; auto|].
                 right. apply in_or_app. left. exact K.
        -- rewrite !upd_nth_other by congruence. destruct (Nat.eq_dec b a) as [->|Hba].
           ++ rewrite Qa. cbn [fst snd]. split; [split; [exact Lm|cbn [fst snd]; split; [exact Lq|lia]]|]. split; [intros v Hv; apply Hin; right; exact Hv|].
              intros v Hv Hm. destruct (M v Hv Hm) as [K|[<-|K]]; [left; apply Dn; auto|left; apply Dn; auto|right; exact K].
           ++ rewrite Qo by exact Hba. destruct (Q b Hb) as (K1 & K2 & K3). split; [exact K1|]. split; [exact K2|].
              intros v Hv Hm. destruct (K3 v Hv Hm) as [K|K]; [left; apply Dn; auto|right; exact K].
    + rewrite <- Meas. unfold measure. cbn [b_q]. f_equal.
      assert (Tt : todo q' = todo (nth t qs' nilq)) by (unfold todo; rewrite F1, F2, app_length; f_equal; lia).
      assert (Hc : t = 0 \/ t = 1) by lia. destruct Hc as [Hc|Hc]; rewrite Hc in *.
      * rewrite upd_nth_same by exact HLq. rewrite upd_nth_other by lia. rewrite Tt. reflexivity.
      * rewrite (upd_nth_same 1) by exact HLq. rewrite (upd_nth_other 1 0) by lia. rewrite Tt. reflexivity.
Qed.

Lemma bok_active s a : bok s -> a < 2 -> bok (mkB (b_fs s) (b_q s) (b_m s) (b_done s) a).
Proof using All.
  intros (F & Ld & Lqs & Lms & _ & D & Q) Ha. exact (conj F (conj Ld (conj Lqs (conj Lms (conj Ha (conj D Q)))))).
Qed.

Lemma bfs_pop_ok st s : bok s -> fst (nth (b_active s) (b_q s) nilq) <> [] ->
  exists s', bfs_pop g limit perfect st s = Some s' /\ bok s' /\ S (measure s') = measure s.
Proof using All.
  intros B Hne. unfold bfs_pop. destruct (nth (b_active s) (b_q s) nilq) as [[|u r] c] eqn:Eq; [destruct (Hne eq_refl)|].
  destruct (bfs_take s u r c B Eq) as (s' & Es & B' & M'). cbv zeta in Es |- *. cbn [b_q]. rewrite Es.
  assert (Hact : b_active s' < 2) by (destruct B' as (_ & _ & _ & _ & K & _); exact K).
  eexists. split; [reflexivity|]. split; [apply bok_active; [exact B'|apply select_lt; exact Hact]|]. unfold measure in *. cbn [b_q]. lia.
Qed.

Lemma bfs_step_ok st s : bok s -> first_false (b_done s) < n ->
  exists s', bfs_step g limit perfect st s = Some s' /\ bok s' /\ S (measure s') = measure s.
Proof using All.
  intros B Hn. unfold bfs_step. destruct (fst (nth (b_active s) (b_q s) nilq)) as [|u0 r0] eqn:Eq.
  - destruct B as (F & Ld & Lqs & Lms & Ha & D & Q). set (a := b_active s) in *. set (v := first_false (b_done s)) in *.
    assert (Hv : nth v (b_done s) false = false) by (apply first_false_ok; lia).
    destruct (Q a Ha) as ((Lm & Lq & Lf) & Hin & M). rewrite Eq in M, Hin.
    destruct (nth v (nth a (b_m s) []) false) eqn:Em.
    { destruct (M v Hn Em) as [K|[]]. congruence. }
    assert (Hvl : v < length (nth a (b_m s) [])) by lia. pose proof (marks_lt _ v Hvl Em) as Hlt.
    unfold push_tail. fold n. rewrite (proj2 (Nat.ltb_lt (snd (nth a (b_q s) nilq)) n)) by lia. rewrite mset_ok by exact Hvl.
    set (q' := (fst (nth a (b_q s) nilq) ++ [v], S (snd (nth a (b_q s) nilq)))). set (m' := upd v true (nth a (b_m s) [])).
    assert (HLq : a < length (b_q s)) by lia. assert (HLm : a < length (b_m s)) by lia.
    set (s2 := mkB (b_fs s) (upd a q' (b_q s)) (upd a m' (b_m s)) (b_done s) a).
    assert (M2 : measure s2 = measure s).
    { unfold measure, s2. cbn [b_q].
      assert (Tq : todo q' = todo (nth a (b_q s) nilq)).
      { unfold todo, q'. cbn [fst snd]. rewrite app_length, Eq. cbn [length]. lia. }
      assert (Hc : a = 0 \/ a = 1) by lia. destruct Hc as [Hc|Hc]; rewrite Hc in *.
      - rewrite upd_nth_same by exact HLq. rewrite upd_nth_other by lia. rewrite Tq. reflexivity.
      - rewrite (upd_nth_same 1) by exact HLq. rewrite (upd_nth_other 1 0) by lia. rewrite Tq. reflexivity. }
    rewrite <- M2. apply bfs_pop_ok.
    + split; [exact F|]. cbn [b_fs b_q b_m b_done b_active]. unfold s2. cbn [b_fs b_q b_m b_done b_active].
      split; [exact Ld|]. rewrite !upd_length. split; [exact Lqs|]. split; [exact Lms|].
      split; [exact Ha|]. split; [exact D|]. intros b Hb. destruct (Nat.eq_dec b a) as [->|Hba].
      * rewrite !upd_nth_same by auto. split; [|split].
        -- split; [unfold m'; rewrite upd_length; exact Lm|]. unfold q', m'. cbn [fst snd]. rewrite marks_upd by auto.
           split; [congruence|]. rewrite app_length. cbn [length]. lia.
        -- unfold q'. cbn [fst]. rewrite Eq. intros x [<-|[]]. exact Hn.
        -- intros x Hx. unfold m', q'. cbn [fst]. rewrite Eq, upd_nth. destruct (Nat.eqb_spec v x) as [<-|Hne]; cbn [andb].
           ++ intros _. right. left. reflexivity.
           ++ intros Hm. destruct (M x Hx Hm) as [K|[]]. left. exact K.
      * rewrite !upd_nth_other by congruence. apply Q. exact Hb.
    + unfold s2. cbn [b_q b_active]. rewrite upd_nth_same by exact HLq. unfold q'. cbn [fst]. rewrite Eq. discriminate.
  - apply bfs_pop_ok; auto. rewrite Eq. discriminate.
Qed.

Lemma bfs_loop_ok st fuel : forall s, bok s -> measure s <= fuel ->
  exists fs, bfs_loop g limit perfect fuel st s = Some fs /\ flat_ok fs /\ forall u, u < n -> nth u (fst fs) None <> None.
Proof using All.
  induction fuel as [|f IH]; intros s B Hf; cbn [bfs_loop]; fold n; destruct (Nat.ltb_spec (first_false (b_done s)) n) as [Hn|Hn].
  - pose proof (measure_pos s B Hn). lia.
  - exists (b_fs s). split; auto. destruct B as (F & Ld & _ & _ & _ & D & _). split; auto. intros u Hu. apply D; [exact Hu|].
    apply first_false_all; lia.
  - destruct (bfs_step_ok st s B Hn) as (s' & E & B' & M'). rewrite E. apply IH; [exact B'|lia].
  - exists (b_fs s). split; auto. destruct B as (F & Ld & _ & _ & _ & D & _). split; auto. intros u Hu. apply D; [exact Hu|].
    apply first_false_all; lia.
Qed.

Definition bfs_init (a b : nat) : bstate :=
  mkB (repeat None n, [0; 0]%Z) [([a], 1); ([b], 1)] [upd a true (repeat false n); upd b true (repeat false n)] (repeat false n) 0.
Lemma bfs_fill_init st a b : a < n -> b < n ->
  bfs_fill g limit perfect st (a, b) (repeat None n, [0; 0]%Z) = bfs_loop g limit perfect (2 * n) st (bfs_init a b).
Proof using All.
  intros Ha Hb. unfold bfs_fill. cbn [fst snd]. unfold push_tail. cbn [fst snd app nilq]. fold n. rewrite (proj2 (Nat.ltb_lt 0 n)) by lia.
  rewrite !mset_ok by (rewrite repeat_length; assumption). reflexivity.
Qed.
Lemma bfs_init_ok a b : a < n -> b < n -> bok (bfs_init a b).
Proof using All.
  intros Ha Hb.
  assert (K : forall x, x < n -> qok ([x], 1) (upd x true (repeat false n))).
  { intros x Hx. split; [rewrite upd_length; apply repeat_length|]. cbn [fst snd]. rewrite marks_upd, marks_repeat; [auto|rewrite repeat_length; exact Hx|apply nth_repeat]. }
  assert (K2 : forall x v, nth v (upd x true (repeat false n)) false = true -> v = x).
  { intros x v. rewrite upd_nth, nth_repeat. destruct (Nat.eqb_spec x v); cbn [andb]; [auto|discriminate]. }
  unfold bfs_init.
  split; [apply flat_init|]. cbn [b_fs b_q b_m b_done b_active fst]. split; [apply repeat_length|]. split; [reflexivity|]. split; [reflexivity|]. split; [lia|].
  split; [intros v _; rewrite !nth_repeat; split; [discriminate|congruence]|].
  intros [|[|c]] Hc; [| |lia]; cbn [nth fst]; (split; [apply K; assumption|]); (split; [intros v [<-|[]]; assumption|]); intros v _ Hm; right; left; symmetry; eapply K2; eauto.
Qed.
Lemma bfs_fill_ok st a b : a < n -> b < n ->
  exists fs, bfs_fill g limit perfect st (a, b) (repeat None n, [0; 0]%Z) = Some fs /\ flat_ok fs /\ forall u, u < n -> nth u (fst fs) None <> None.
Proof using All.
  intros Ha Hb. rewrite bfs_fill_init by auto. apply bfs_loop_ok; [apply bfs_init_ok; auto|].
  unfold measure, todo, bfs_init. cbn [b_q nth fst snd length]. lia.
Qed.

(** ** Balance of breadth-first growing *)
Lemma fweight_rest fs u c : (forall v, v < n -> (0 <= gvw g v)%Z) -> flat_ok fs -> u < n -> nth u (fst fs) None = None -> c < 2 ->
  (nth c (snd fs) 0 + nth (1 - c) (snd fs) 0 + gvw g u <= total_weight g)%Z.
Proof using All.
  intros Hw (L & Lw & R & E) Hu Hn Hc. rewrite !E by lia. unfold fweight, total_weight. fold n.
  assert (Hs : (gvw g u = sumn n (fun v => if Nat.eqb v u then gvw g u else 0))%Z).
  { rewrite (sumn_single n u) by (auto; intros i _ Hi; rewrite (proj2 (Nat.eqb_neq _ _) Hi); reflexivity). rewrite Nat.eqb_refl. reflexivity. }
  rewrite Hs at 1. rewrite <- !sumn_add. apply sumn_le. intros v Hv. specialize (Hw v Hv).
  destruct (Nat.eqb_spec v u) as [->|Hne].
  - rewrite Hn. lia.
  - destruct (nth v (fst fs) None) as [b|]; [|lia].
    destruct (Nat.eqb_spec b c), (Nat.eqb_spec b (1 - c)); try lia.
Qed.

Definition below (M : Z) (fs : fstate) : Prop := forall b, b < 2 -> (nth b (snd fs) 0 < limit b + M)%Z.

Lemma bfs_assign_below M u a qs s s' : (forall v, v < n -> (0 <= gvw g v <= M)%Z) -> (0 < M)%Z -> (total_weight g <= limit 0 + limit 1)%Z ->
  flat_ok (b_fs s) -> a < 2 -> u < n -> nth u (fst (b_fs s)) None = None ->
  below M (b_fs s) -> bfs_assign g limit u a qs s = Some s' -> below M (b_fs s').
Proof using All.
  intros Hw HM Ht F Ha Hu Hn B. unfold bfs_assign. cbv zeta.
  set (c := if (nth a (snd (b_fs s)) 0 + gvw g u <=? limit a)%Z then a else 1 - a).
  assert (Hc : c < 2) by (unfold c; destruct (_ <=? _)%Z; lia).
  destruct (flat_set_ok u c (b_fs s) F Hu Hc Hn) as (bw & E1 & F1 & W). rewrite E1.
  destruct (mset u (b_done s)) as [dn|]; [|discriminate]. destruct (queue_unmarked _ _ _ _ _ _) as [[[q' m'] x]|]; [|discriminate].
  intros [= <-]. intros b Hb. cbn [b_fs snd]. rewrite W by exact Hb. destruct (Hw u Hu) as [W1 W2].
  destruct (Nat.eqb_spec c b) as [Eb|Eb]; [|pose proof (B b Hb); lia]. subst b.
  pose proof (fweight_rest (b_fs s) u a (fun v H => proj1 (Hw v H)) F Hu Hn Ha) as T.
  unfold c in *. destruct (Z.leb_spec (nth a (snd (b_fs s)) 0 + gvw g u)%Z (limit a)) as [K|K]; [lia|].
  assert (Hl : (limit 0 + limit 1 = limit a + limit (1 - a))%Z) by (destruct a as [|[|a]]; cbn [Nat.sub]; lia). lia.
Qed.

Lemma bfs_step_below M st s s' : (forall v, v < n -> (0 <= gvw g v <= M)%Z) -> (0 < M)%Z -> (total_weight g <= limit 0 + limit 1)%Z ->
  bok s -> first_false (b_done s) < n -> below M (b_fs s) -> bfs_step g limit perfect st s = Some s' -> below M (b_fs s').
Proof using All.
  intros Hw HM Ht B Hf Bl.
  assert (P : forall t, b_fs t = b_fs s -> b_done t = b_done s -> b_active t = b_active s ->
                (forall u, In u (fst (nth (b_active t) (b_q t) nilq)) -> u < n) ->
                bfs_pop g limit perfect st t = Some s' -> below M (b_fs s')).
  { intros t E1 E2 E3 Hin. unfold bfs_pop. cbv zeta. destruct (nth (b_active t) (b_q t) nilq) as [[|u r] c] eqn:Eq; [discriminate|].
    destruct B as (F & Ld & _ & _ & Ha & D & _).
    destruct (nth u (b_done t) false) eqn:Ed.
    - intros [= <-]. cbn [b_fs]. rewrite E1. exact Bl.
    - match goal with |- context [bfs_assign g limit u (b_active t) ?q ?x] => destruct (bfs_assign g limit u (b_active t) q x) as [s1|] eqn:Ea end; [|discriminate].
      intros [= <-]. cbn [b_fs]. assert (Hu : u < n) by (apply Hin; left; reflexivity).
      eapply (bfs_assign_below M); try exact Ea; auto; cbn [b_fs]; rewrite ?E1, ?E3; auto.
      destruct (nth u (fst (b_fs s)) None) eqn:K; auto. rewrite E2 in Ed. assert (Q : nth u (b_done s) false = true) by (apply D; [exact Hu|congruence]).
      congruence. }
  pose proof B as (_ & _ & Lqs & Lms & Ha & _ & Q). destruct (Q _ Ha) as (_ & Hin & _).
  unfold bfs_step. cbv zeta. destruct (fst (nth (b_active s) (b_q s) nilq)) as [|u0 r0] eqn:Eq.
  - destruct (nth (first_false (b_done s)) _ false); [intros [= <-]; exact Bl|].
    unfold push_tail. destruct (snd _ <? gn g); [|discriminate]. destruct (mset _ _) as [m'|]; [|discriminate].
    apply P; auto. cbn [b_active b_q]. rewrite upd_nth_same by lia. cbn [fst]. rewrite Eq. intros u [<-|[]]. exact Hf.
  - apply P; auto. rewrite Eq. exact Hin.
Qed.

Lemma bfs_loop_below M st fuel : (forall v, v < n -> (0 <= gvw g v <= M)%Z) -> (0 < M)%Z -> (total_weight g <= limit 0 + limit 1)%Z ->
  forall s fs, bok s -> below M (b_fs s) -> bfs_loop g limit perfect fuel st s = Some fs -> below M fs.
Proof using All.
  intros Hw HM Ht. induction fuel as [|f IH]; intros s fs B Bl; cbn [bfs_loop]; fold n; destruct (Nat.ltb_spec (first_false (b_done s)) n) as [Hn|Hn];
    try discriminate; try (intros [= <-]; exact Bl).
  destruct (bfs_step_ok st s B Hn) as (s' & E & B' & M'). rewrite E. apply IH; auto. apply (bfs_step_below M st s); auto.
Qed.

Lemma bfs_fill_below M st a b fs : (forall v, v < n -> (0 <= gvw g v <= M)%Z) -> (0 < M)%Z -> (total_weight g <= limit 0 + limit 1)%Z ->
  a < n -> b < n -> below M (repeat None n, [0; 0]%Z) ->
  bfs_fill g limit perfect st (a, b) (repeat None n, [0; 0]%Z) = Some fs -> below M fs.
Proof using All.
  intros Hw HM Ht Ha Hb B. rewrite bfs_fill_init by auto. apply bfs_loop_below; auto. apply bfs_init_ok; auto.
Qed.

(** ** Balance of the random bipartition *)
Lemma random_fill_balance M rnd us : (forall v, v < n -> (0 <= gvw g v <= M)%Z) -> (0 <= M)%Z -> (total_weight g <= perfect 0 + perfect 1)%Z ->
  forall fs fs', flat_ok fs -> NoDup us -> (forall u, In u us -> u < n /\ nth u (fst fs) None = None) ->
  (forall b, b < 2 -> (2 * (nth b (snd fs) 0 - perfect b) <= M)%Z) ->
  random_fill g perfect rnd us fs = Some fs' -> forall b, b < 2 -> (2 * (nth b (snd fs') 0 - perfect b) <= M)%Z.
Proof using All.
  intros Hw HM Ht. induction us as [|u us IH]; intros fs fs' F Hd H B; cbn [random_fill]; [intros [= <-]; exact B|].
  inversion Hd as [|? ? Hni Hd']; subst. destruct (H u (or_introl eq_refl)) as [Hu Hn]. destruct (Hw u Hu) as [W1 W2].
  assert (K : forall c, c < 2 -> (2 * (nth c (snd fs) 0 + gvw g u - perfect c) <= M)%Z ->
            match flat_set g u c fs with Some s' => random_fill g perfect rnd us s' | None => None end = Some fs' ->
            forall b, b < 2 -> (2 * (nth b (snd fs') 0 - perfect b) <= M)%Z).
  { intros c Hc Hb. destruct (flat_set_ok u c fs F Hu Hc Hn) as (bw & E1 & F1 & W). rewrite E1. apply IH; auto.
    - intros v Hv. split; [apply H; right; exact Hv|]. cbn [fst]. rewrite upd_nth_other by (intros ->; contradiction). apply H. right. exact Hv.
    - intros b Hb2. cbn [snd]. rewrite W by exact Hb2. specialize (B b Hb2). destruct (Nat.eqb_spec c b) as [<-|]; lia. }
  unfold random_node, add_to_smaller. cbv zeta. destruct (Z.ltb_spec (nth (if rnd u then 1 else 0) (snd fs) 0 + gvw g u)%Z (perfect (if rnd u then 1 else 0))) as [E|E].
  - apply K; [destruct (rnd u); lia|lia].
  - pose proof (fweight_rest fs u 0 (fun v Hv => proj1 (Hw v Hv)) F Hu Hn ltac:(lia)) as T. cbn [Nat.sub] in T.
    destruct (Z.ltb_spec (nth 0 (snd fs) 0 - perfect 0)%Z (nth 1 (snd fs) 0 - perfect 1)%Z); apply K; lia.
Qed.

(** ** Greedy graph growing *)
Lemma flat_change_ok u fs : flat_ok fs -> u < n -> nth u (fst fs) None = Some 0 ->
  exists bw, flat_change g u 1 fs = Some (upd u (Some 1) (fst fs), bw) /\ flat_ok (upd u (Some 1) (fst fs), bw) /\
             nth 1 bw 0%Z = (nth 1 (snd fs) 0 + gvw g u)%Z.
Proof using All.
  destruct fs as [p bw]. unfold flat_ok. cbn [fst snd]. intros (L & Lw & R & E) Hu Hn. unfold flat_change.
  rewrite (nth_error_nth' p None) by (unfold n in *; lia). rewrite Hn. cbv zeta. cbn [Nat.sub].
  eexists. split; [reflexivity|].
  assert (W : (nth 1 (upd 0 (nth 0 (upd 1 (nth 1 bw 0 + gvw g u) bw) 0 - gvw g u) (upd 1 (nth 1 bw 0 + gvw g u) bw)) 0 = nth 1 bw 0 + gvw g u)%Z).
  { rewrite upd_nth_other by lia. apply upd_nth_same. lia. }
  split; [|exact W]. split; [rewrite upd_length; exact L|]. split; [rewrite !upd_length; exact Lw|]. split.
  - intros v c. rewrite upd_nth. destruct ((u =? v) && (u <? length p)); [intros [= <-]; lia|apply R].
  - intros c Hc. rewrite fweight_upd by auto. rewrite Hn. assert (Hc2 : c = 0 \/ c = 1) by lia. destruct Hc2 as [-> | ->].
    + rewrite upd_nth_same by (rewrite upd_length; lia). rewrite upd_nth_other by lia. rewrite E by lia. cbn [Nat.eqb]. lia.
    + rewrite W, E by lia. cbn [Nat.eqb]. lia.
Qed.

(** The state of greedy graph growing between two iterations. *)
Definition gok (q : heap) (m : list bool) (fs : fstate) : Prop :=
  flat_ok fs /\ q = repeat None n /\ length m = n /\
  forall u, u < n -> nth u (fst fs) None = Some (if nth u m false then 1 else 0).

Lemma upd_repeat {A} u (x : A) k : upd u x (repeat x k) = repeat x k.
Proof using All.
  clear. apply (list_ext x); [apply upd_length|]. intros i _. rewrite upd_nth, nth_repeat. destruct (_ && _); reflexivity.
Qed.
Lemma repeat_empty k : is_empty (repeat None k) = true.
Proof using All. clear. unfold is_empty. rewrite (proj2 (top_key_none (repeat None k))); auto. intros u. apply nth_repeat. Qed.

Lemma ggg_start_ok rnd m : 0 < n -> length m = n -> forall t i, ggg_start g t rnd i m < n -> nth (ggg_start g t rnd i m) m false = false.
Proof using All.
  intros Hn L. induction t as [|t IH]; intros i; cbn [ggg_start]; fold n; destruct (nth (rnd i mod n) m false) eqn:E; auto.
  intros H. apply first_false_ok. lia.
Qed.
Lemma ggg_start_all rnd m : 0 < n -> length m = n -> forall t i, n <= ggg_start g t rnd i m -> forall u, u < n -> nth u m false = true.
Proof using All.
  intros Hn L. induction t as [|t IH]; intros i; cbn [ggg_start]; fold n;
    (destruct (nth (rnd i mod n) m false) eqn:E; [|intros H; pose proof (Nat.mod_upper_bound (rnd i) n); lia]).
  - intros H u Hu. apply first_false_all; lia.
  - apply IH.
Qed.

Lemma ggg_neighbors_v2 u p qm l : in_v2 p u = true -> ggg_neighbors g u p qm l = Some qm.
Proof using All. intros E. induction l as [|[v w] l IH]; cbn [ggg_neighbors]; auto. unfold ggg_neighbor. destruct qm. rewrite E. exact IH. Qed.

(** One iteration of the outer loop moves exactly its start node. *)
Lemma ggg_one x s m fs tie : gok (repeat None n) m fs -> s < n -> nth s m false = false ->
  exists fs', flat_change g s 1 fs = Some fs' /\ gok (repeat None n) (upd s true m) fs' /\
    nth 1 (snd fs') 0%Z = (nth 1 (snd fs) 0 + gvw g s)%Z /\ fst fs' = upd s (Some 1) (fst fs) /\
    push s x (repeat None n) = Some (upd s (Some x) (repeat None n)) /\ mset s m = Some (upd s true m) /\
    ggg_inner g perfect n tie (upd s (Some x) (repeat None n)) (upd s true m) fs = Some (repeat None n, upd s true m, fs').
Proof using All.
  intros (F & _ & L & C) Hs Hm.
  destruct (flat_change_ok s fs F Hs) as (bw & E & F' & W); [rewrite C, Hm by exact Hs; reflexivity|].
  eexists. split; [exact E|]. cbn [fst snd]. set (q1 := upd s (Some x) (repeat None n)).
  assert (Lp : length (fst fs) = n) by (destruct F; auto).
  split; [|split; [exact W|split; [reflexivity|split; [|split; [apply mset_ok; lia|]]]]].
  - split; [exact F'|]. split; [reflexivity|]. split; [rewrite upd_length; exact L|]. intros u Hu. cbn [fst]. rewrite !upd_nth, Lp, L.
    destruct (Nat.eqb_spec s u) as [->|Hne]; cbn [andb]; [rewrite (proj2 (Nat.ltb_lt u n)) by exact Hu; reflexivity|apply C; exact Hu].
  - unfold push. rewrite (nth_error_nth' _ None) by (rewrite repeat_length; exact Hs). rewrite nth_repeat. reflexivity.
  - assert (Q : nth s q1 None = Some x) by (apply upd_nth_same; rewrite repeat_length; exact Hs).
    assert (Ne : is_empty q1 = false).
    { unfold is_empty. destruct (top_key q1) eqn:K; auto. rewrite (proj1 (top_key_none q1) K s) in Q. discriminate. }
    destruct (peek_ok tie q1 Ne) as (u & k & Ep & _ & Hk).
    assert (Eu : u = s).
    { destruct (Nat.eq_dec u s) as [|Hne]; auto. unfold q1 in Hk. rewrite upd_nth_other in Hk by congruence. rewrite nth_repeat in Hk. discriminate. }
    rewrite Eu in Ep. clear Eu. destruct n as [|f] eqn:En; [lia|]. cbn [ggg_inner]. rewrite Ne, Ep, E.
    assert (Er : remove s q1 = repeat None (S f)) by (unfold remove, q1; rewrite upd_upd; apply upd_repeat). rewrite Er.
    destruct (_ <=? _)%Z; [reflexivity|]. rewrite ggg_neighbors_v2.
    + cbn [fst]. destruct f; cbn [ggg_inner]; rewrite repeat_empty; reflexivity.
    + unfold in_v2. cbn [fst]. rewrite upd_nth_same by lia. reflexivity.
Qed.

(** What the outer loop does: move start nodes until block 1 has its perfectly balanced weight. *)
Fixpoint grow (fuel : nat) (rnd : nat -> (nat -> nat) * nat) (i : nat) (m : list bool) (fs : fstate) : option fstate :=
  match fuel with
  | 0 => None
  | S f => let s := ggg_start g 4 (fst (rnd i)) 0 m in
           if n <=? s then Some fs
           else match flat_change g s 1 fs with
                | Some fs' => if (nth 1 (snd fs') 0 <? perfect 1)%Z then grow f rnd (S i) (upd s true m) fs' else Some fs'
                | None => None
                end
  end.
Lemma ggg_outer_grow rnd fuel : 0 < n -> forall i m fs, gok (repeat None n) m fs ->
  ggg_outer g perfect fuel rnd i (repeat None n) m fs = grow fuel rnd i m fs.
Proof using All.
  intros Hn. induction fuel as [|f IH]; intros i m fs G; cbn [ggg_outer grow]; auto. fold n.
  set (s := ggg_start g 4 (fst (rnd i)) 0 m). destruct (Nat.leb_spec n s) as [Hs|Hs]; auto.
  assert (Hm : nth s m false = false) by (apply ggg_start_ok; auto; apply G).
  destruct (ggg_one (ggg_gain g (fst fs) s) s m fs (snd (rnd i)) G Hs Hm) as (fs' & E & G' & W & _ & E1 & E2 & E3).
  rewrite E, E1, E2, E3. destruct (_ <? _)%Z; auto.
Qed.
Lemma ggg_init : gok (repeat None n) (repeat false n) (repeat (Some 0) n, upd 0 (sumn n (gvw g)) [0; 0]%Z).
Proof using All.
  assert (N : forall u, u < n -> nth u (repeat (Some 0) n) None = Some 0).
  { intros u Hu. rewrite (nth_indep _ None (Some 0)) by (rewrite repeat_length; exact Hu). apply nth_repeat. }
  split; [|split; [reflexivity|split; [apply repeat_length|]]].
  - split; [apply repeat_length|]. split; [reflexivity|]. cbn [fst snd]. split.
    + intros u b H. assert (Hu : u < n).
      { destruct (Nat.lt_ge_cases u n); auto. rewrite nth_overflow in H by (rewrite repeat_length; exact H0). discriminate. }
      rewrite N in H by exact Hu. injection H as <-. lia.
    + intros b Hb. unfold fweight. destruct b as [|[|b]]; [| |lia]; cbn [upd nth].
      * apply sumn_ext. intros u Hu. rewrite N by exact Hu. reflexivity.
      * symmetry. apply sumn_zero_ext. intros u Hu. rewrite N by exact Hu. reflexivity.
  - intros u Hu. cbn [fst]. rewrite N, nth_repeat by exact Hu. reflexivity.
Qed.
Lemma ggg_fill_grow rnd : 0 < n ->
  ggg_fill g perfect rnd (repeat None n, [0; 0]%Z) = grow (S n) rnd 0 (repeat false n) (repeat (Some 0) n, upd 0 (sumn n (gvw g)) [0; 0]%Z).
Proof using All. intros Hn. unfold ggg_fill. fold n. cbn [snd]. apply ggg_outer_grow; [exact Hn|apply ggg_init]. Qed.

Definition two (fs : fstate) (u : nat) : Prop := nth u (fst fs) None = Some 1.
Lemma grow_ok rnd fuel : 0 < n -> forall i m fs, gok (repeat None n) m fs -> n - marks m < fuel ->
  (forall u, u < n -> (0 <= gvw g u)%Z) ->
  (i = 0 /\ (forall u, ~ two fs u)) \/ ((nth 1 (snd fs) 0 < perfect 1)%Z /\ exists u, u < n /\ two fs u) ->
  exists fs' m', grow fuel rnd i m fs = Some fs' /\ gok (repeat None n) m' fs' /\
    ((perfect 1 <= nth 1 (snd fs') 0)%Z \/ forall u, u < n -> two fs' u) /\
    exists u, u < n /\ two fs' u /\ ((nth 1 (snd fs') 0 - gvw g u < perfect 1)%Z \/ forall v, v < n -> two fs' v -> v = u).
Proof using All.
  intros Hn. induction fuel as [|f IH]; intros i m fs G Hf Hw I; [lia|]. cbn [grow].
  set (s := ggg_start g 4 (fst (rnd i)) 0 m). pose proof G as (F & _ & L & C).
  destruct (Nat.leb_spec n s) as [Hs|Hs].
  - exists fs, m. assert (A : forall u, u < n -> two fs u).
    { intros u Hu. unfold two. rewrite C by exact Hu. rewrite (ggg_start_all (fst (rnd i)) m Hn L 4 0 Hs u Hu). reflexivity. }
    split; auto. split; auto. split; auto. destruct I as [[_ I]|[I (u & Hu & Tu)]].
    + destruct (I 0 (A 0 Hn)).
    + exists u. split; auto. split; auto. left. pose proof (Hw u Hu). lia.
  - assert (Hm : nth s m false = false) by (apply ggg_start_ok; auto).
    destruct (ggg_one 0 s m fs 0 G Hs Hm) as (fs' & E & G' & W & P & _). rewrite E.
    assert (Lp : length (fst fs) = n) by (destruct F; auto).
    assert (Ts : two fs' s) by (unfold two; rewrite P; apply upd_nth_same; lia).
    destruct (Z.ltb_spec (nth 1 (snd fs') 0%Z) (perfect 1)) as [Hb|Hb].
    + apply IH; auto.
      * rewrite marks_upd by (auto; lia). pose proof (marks_lt m s ltac:(lia) Hm). lia.
      * right. split; auto. exists s. auto.
    + exists fs', (upd s true m). split; auto. split; auto. split; auto. exists s. split; auto. split; auto.
      destruct I as [[_ I]|[I _]]; [right|left; lia]. intros v Hv. unfold two. rewrite P, upd_nth.
      destruct (Nat.eqb_spec s v) as [->|]; auto. cbn [andb]. intros K. destruct (I v K).
Qed.
Lemma two_empty u : ~ two (repeat (Some 0) n, upd 0 (sumn n (gvw g)) [0; 0]%Z) u.
Proof using All.
  unfold two. cbn [fst]. intros H. destruct (Nat.lt_ge_cases u n) as [K|K].
  - rewrite (nth_indep _ None (Some 0)) in H by (rewrite repeat_length; exact K). rewrite nth_repeat in H. discriminate.
  - rewrite nth_overflow in H by (rewrite repeat_length; exact K). discriminate.
Qed.
Lemma grow_ok0 rnd fuel : 0 < n -> forall i m fs, gok (repeat None n) m fs -> n - marks m < fuel ->
  exists fs' m', grow fuel rnd i m fs = Some fs' /\ gok (repeat None n) m' fs'.
Proof using All.
  intros Hn. induction fuel as [|f IH]; intros i m fs G Hf; [lia|]. cbn [grow].
  set (s := ggg_start g 4 (fst (rnd i)) 0 m). pose proof G as (F & _ & L & C).
  destruct (Nat.leb_spec n s) as [Hs|Hs]; [eauto|].
  assert (Hm : nth s m false = false) by (apply ggg_start_ok; auto).
  destruct (ggg_one 0 s m fs 0 G Hs Hm) as (fs' & E & G' & W & P & _). rewrite E.
  destruct (_ <? _)%Z; [|eauto]. apply IH; auto.
  rewrite marks_upd by (auto; lia). pose proof (marks_lt m s ltac:(lia) Hm). lia.
Qed.
Lemma fweight_all p b : (forall u, u < n -> nth u p None = Some b) -> fweight p b = total_weight g.
Proof using All. intros H. unfold fweight, total_weight. apply sumn_ext. intros u Hu. rewrite H, Nat.eqb_refl by exact Hu. reflexivity. Qed.
End Flat.
