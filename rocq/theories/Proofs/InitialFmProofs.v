(* Correctness of the rounds of the 2-way FM refinement. *)
From Verif Require Import Lib.Prelude Spec.Graph Spec.Gain Spec.InitialSpec Model.InitialFmModel Proofs.GraphFacts Proofs.GainBase
  Proofs.RatingMapProofs Proofs.InitialFmBase.

(** ** The queues as priority queues *)
Lemma top_key_none q : top_key q = None <-> forall u, nth u q None = None.
Proof.
  induction q as [|o q IH]; cbn [top_key fold_right].
  - split; auto. intros _ u. destruct u; reflexivity.
  - fold (top_key q). destruct o as [x|].
    + split; [destruct (top_key q); discriminate|]. intros H. specialize (H 0). discriminate.
    + rewrite IH. split; intros H u; [destruct u; [reflexivity|apply H]|exact (H (S u))].
Qed.
Lemma top_key_min q m : top_key q = Some m ->
  (exists u, u < length q /\ nth u q None = Some m) /\ forall u x, nth u q None = Some x -> (m <= x)%Z.
Proof.
  revert m. induction q as [|o q IH]; intros m; cbn [top_key fold_right]; [discriminate|]. fold (top_key q).
  destruct o as [x|].
  - destruct (top_key q) as [y|] eqn:E; intros [= <-].
    + destruct (IH y eq_refl) as [(u & H1 & H2) H3]. split.
      * destruct (Z.le_ge_cases x y); [exists 0; rewrite Z.min_l by lia; split; [cbn; lia|reflexivity]|].
        exists (S u). rewrite Z.min_r by lia. split; [cbn; lia|exact H2].
      * intros [|v] z Hz; cbn in Hz; [injection Hz as <-; lia|]. specialize (H3 v z Hz). lia.
    + split; [exists 0; split; [cbn; lia|reflexivity]|]. intros [|v] z Hz; cbn in Hz; [injection Hz as <-; lia|].
      rewrite (proj1 (top_key_none q) E v) in Hz. discriminate.
  - intros E. destruct (IH m E) as [(u & H1 & H2) H3]. split.
    + exists (S u). split; [cbn; lia|exact H2].
    + intros [|v] z Hz; cbn in Hz; [discriminate|eauto].
Qed.
Lemma peek_ok tie q : is_empty q = false ->
  exists u m, peek tie q = Some (u, m) /\ u < length q /\ nth u q None = Some m.
Proof.
  unfold is_empty, peek. destruct (top_key q) as [m|] eqn:E; [|discriminate]. intros _.
  destruct (top_key_min q m E) as [(u0 & H1 & H2) _].
  assert (Hi : In u0 (filter (is_top q) (seq 0 (length q)))).
  { apply filter_In. split; [apply in_seq; lia|]. unfold is_top. rewrite H2, E. apply Z.eqb_refl. }
  destruct (filter (is_top q) (seq 0 (length q))) as [|t ts] eqn:F; [destruct Hi|].
  set (u := nth (tie mod length (t :: ts)) (t :: ts) 0).
  assert (Hu : In u (filter (is_top q) (seq 0 (length q)))).
  { rewrite F. apply nth_In. apply Nat.mod_upper_bound. discriminate. }
  apply filter_In in Hu. destruct Hu as [Hs Ht]. apply in_seq in Hs. exists u, m. split; [reflexivity|].
  split; [lia|]. unfold is_top in Ht. rewrite E in Ht. destruct (nth u q None) as [x|]; [|discriminate].
  apply Z.eqb_eq in Ht. congruence.
Qed.

(** ** Moves *)
Section Rounds.
Variable g : graph.
Variables limit perfect : nat -> Z.
Hypothesis Hcl : closed_graph g.
Hypothesis Hund : undirected g.
Hypothesis Hnn : nonneg_edges g.
Hypothesis Hloop : loop_free g.
Let n := gn g.
Let lb (lab : list nat) : nat -> nat := fun v => nth v lab 0.

Lemma bip_len lab bw : bipartition g lab bw -> length lab = n /\ forall v, v < n -> nth v lab 0 < 2.
Proof using All. intros (L & E1 & E2 & _). rewrite L in E2. auto. Qed.

Lemma lb_upd lab u b v : length lab = n -> u < n -> lb (upd u b lab) v = relabel (lb lab) u b v.
Proof using All.
  intros L Hu. unfold lb, relabel. destruct (Nat.eqb_spec v u) as [->|Hne].
  - apply upd_nth_same. unfold n in *. lia.
  - apply upd_nth_other. congruence.
Qed.

Lemma block_weight_relabel p u b c : u < n ->
  block_weight g (relabel p u b) c = (block_weight g p c + (if Nat.eqb b c then gvw g u else 0) - (if Nat.eqb (p u) c then gvw g u else 0))%Z.
Proof using All.
  intros Hu. unfold block_weight.
  rewrite (sumn_change (gn g) u (fun x => if relabel p u b x =? c then gvw g x else 0%Z)
             (fun x => if p x =? c then gvw g x else 0%Z)); auto.
  - unfold relabel. rewrite Nat.eqb_refl. lia.
  - intros i Hi Hne. unfold relabel. destruct (Nat.eqb_spec i u); [contradiction|reflexivity].
Qed.

Lemma set_block_ok lab bw u to : bipartition g lab bw -> u < n -> to < 2 ->
  exists bw', set_block g u to lab bw = (upd u to lab, bw') /\ bipartition g (upd u to lab) bw'.
Proof using All.
  intros B Hu Hto. destruct (bip_len _ _ B) as [L Hb]. destruct B as (Lw & E1 & E2 & E3).
  unfold set_block. eexists. split; [reflexivity|].
  set (from := nth u lab 0). assert (Hf : from < 2) by (apply Hb; exact Hu).
  split; [rewrite !upd_length; exact Lw|]. split; [rewrite upd_length; exact L|]. rewrite !upd_length. split.
  - intros v Hv. rewrite upd_nth. destruct ((u =? v) && (u <? length lab)); [lia|]. apply E2. exact Hv.
  - intros b Hb2. rewrite (block_weight_ext g _ (relabel (lb lab) u to)).
    2:{ intros v _. apply (lb_upd lab u to v L Hu). }
    rewrite block_weight_relabel by exact Hu. change (lb lab u) with from.
    change (block_weight g (lb lab) b) with (block_weight g (fun u => nth u lab 0) b).
    rewrite !upd_nth, !upd_length, Lw. assert (T1 : (to <? 2) = true) by (apply Nat.ltb_lt; exact Hto).
    assert (T2 : (from <? 2) = true) by (apply Nat.ltb_lt; exact Hf). rewrite T1, T2, !andb_true_r.
    rewrite (E3 to), (E3 from), (E3 b) by lia.
    destruct (Nat.eqb_spec to b) as [->|], (Nat.eqb_spec from b) as [->|]; try lia.
Qed.

Lemma total_overload_ok lab bw : bipartition g lab bw -> total_overload limit bw = overload limit g lab.
Proof using All.
  intros (Lw & _ & _ & E3). unfold total_overload, overload. cbn [seq map zsum]. rewrite !E3 by lia. lia.
Qed.

Lemma cut_flip lab u : length lab = n -> (forall v, v < n -> nth v lab 0 < 2) -> u < n ->
  cut_of g (upd u (1 - nth u lab 0) lab) = (cut_of g lab + (zsum (map snd (gadj g u)) - 2 * ext g (lb lab) u))%Z.
Proof using All.
  intros L Hb Hu. unfold cut_of.
  rewrite (cut_weight_ext g _ (relabel (lb lab) u (1 - lb lab u))) by (intros v _; apply (lb_upd lab u (1 - lb lab u) v L Hu)).
  rewrite move_cut by auto. reflexivity.
Qed.

(** ** Rollback *)
Definition flip (moves : list nat) (lab : list nat) : list nat :=
  map (fun v => if existsb (Nat.eqb v) moves then 1 - nth v lab 0 else nth v lab 0) (seq 0 n).
Lemma flip_nil lab : length lab = n -> flip [] lab = lab.
Proof using All. intros L. unfold flip. cbn [existsb]. rewrite <- L. apply map_nth_seq. Qed.
Lemma existsb_eqb v l : existsb (Nat.eqb v) l = true <-> In v l.
Proof using All.
  rewrite existsb_exists. split; [intros (x & Hx & E); apply Nat.eqb_eq in E; subst; auto|].
  intros H. exists v. split; auto. apply Nat.eqb_refl.
Qed.
Lemma flip_cons u moves lab : length lab = n -> u < n -> ~ In u moves ->
  flip (u :: moves) lab = flip moves (upd u (1 - nth u lab 0) lab).
Proof using All.
  intros L Hu Hn. unfold flip. apply map_ext_in. intros v Hv. apply in_seq in Hv. cbn [existsb].
  destruct (Nat.eqb_spec v u) as [->|Hne]; cbn [orb].
  - destruct (existsb (Nat.eqb u) moves) eqn:E; [apply existsb_eqb in E; contradiction|].
    rewrite upd_nth_same by lia. reflexivity.
  - rewrite !(upd_nth_other u v) by congruence. reflexivity.
Qed.
Lemma flip_snoc u moves lab : length lab = n -> u < n -> ~ In u moves -> nth u lab 0 < 2 ->
  flip (moves ++ [u]) (upd u (1 - nth u lab 0) lab) = flip moves lab.
Proof using All.
  intros L Hu Hn Hb. unfold flip. apply map_ext_in. intros v Hv. apply in_seq in Hv. rewrite existsb_app. cbn [existsb].
  destruct (Nat.eqb_spec v u) as [->|Hne]; rewrite ?orb_true_r, ?orb_false_r; cbn [orb].
  - destruct (existsb (Nat.eqb u) moves) eqn:E; [apply existsb_eqb in E; contradiction|].
    rewrite upd_nth_same by lia. lia.
  - rewrite !(upd_nth_other u v) by congruence. reflexivity.
Qed.
Lemma rollback_ok moves : forall lab bw, bipartition g lab bw -> NoDup moves -> (forall u, In u moves -> u < n) ->
  exists bw', rollback g moves lab bw = (flip moves lab, bw') /\ bipartition g (flip moves lab) bw'.
Proof using All.
  induction moves as [|u moves IH]; intros lab bw B Hd Hm; cbn [rollback].
  - destruct (bip_len _ _ B) as [L _]. rewrite flip_nil by exact L. eauto.
  - destruct (bip_len _ _ B) as [L Hb]. assert (Hu : u < n) by (apply Hm; left; reflexivity).
    inversion Hd as [|? ? Hni Hd']; subst.
    destruct (set_block_ok lab bw u (1 - nth u lab 0) B Hu) as (bw1 & E & B1); [lia|].
    rewrite E. rewrite flip_cons by auto. apply IH; auto. intros v Hv. apply Hm. right. exact Hv.
Qed.

(** ** Initialisation of the queues *)
Lemma order_chunks chunks : forall perms, length perms = length chunks -> (forall p, In p perms -> Permutation p (seq 0 64)) ->
  Permutation (visit_order g chunks perms)
    (flat_map (fun c => filter (fun u => u <? n) (map (fun i => c * 64 + i) (seq 0 64))) chunks).
Proof using All.
  unfold visit_order, kChunkSize. induction chunks as [|c cs IH]; intros [|p ps] L H; try discriminate; [reflexivity|].
  cbn [combine map concat flat_map fst snd]. apply Permutation_app; [|apply IH; [injection L; auto|intros; apply H; right; auto]].
  assert (Hp : Permutation (map (fun i => c * 64 + i) p) (map (fun i => c * 64 + i) (seq 0 64))) by (apply Permutation_map, H; left; reflexivity).
  clear - Hp. revert Hp. generalize (map (fun i => c * 64 + i) p), (map (fun i => c * 64 + i) (seq 0 64)). intros a b Hp.
  induction Hp; cbn [filter]; auto; repeat destruct (_ <? _); auto; try constructor; try (etransitivity; eauto).
Qed.
Lemma filter_below N : n <= N -> filter (fun u => u <? n) (seq 0 N) = seq 0 n.
Proof using All.
  intros H. replace N with (n + (N - n)) by lia. rewrite seq_app, filter_app.
  assert (A : forall l, (forall x, In x l -> x < n) -> filter (fun u => u <? n) l = l).
  { induction l as [|x l IH]; intros K; auto. cbn [filter]. rewrite (proj2 (Nat.ltb_lt x n)) by (apply K; left; auto).
    f_equal. apply IH. intros; apply K; right; auto. }
  assert (B : forall l, (forall x, In x l -> n <= x) -> filter (fun u => u <? n) l = []).
  { induction l as [|x l IH]; intros K; auto. cbn [filter]. rewrite (proj2 (Nat.ltb_ge x n)) by (apply K; left; auto).
    apply IH. intros; apply K; right; auto. }
  rewrite A, B, app_nil_r; auto; intros x Hx; apply in_seq in Hx; lia.
Qed.
Lemma chunks_seq K k : flat_map (fun c => filter (fun u => u <? n) (map (fun i => c * K + i) (seq 0 K))) (seq 0 k) =
  filter (fun u => u <? n) (seq 0 (k * K)).
Proof using All.
  induction k as [|k IH]; [reflexivity|]. rewrite (seq_S k 0), flat_map_app, IH. cbn [flat_map]. rewrite app_nil_r.
  replace (S k * K) with (k * K + K) by lia. rewrite seq_app, filter_app.
  change (0 + k) with k. change (0 + k * K) with (k * K). generalize (k * K) as a. intros a.
  assert (E : map (fun i => a + i) (seq 0 K) = seq a K); [|rewrite E; reflexivity].
  apply (list_ext 0); [rewrite map_length, !seq_length; reflexivity|]. intros i Hi. rewrite map_length, seq_length in Hi.
  rewrite nth_map_seq by exact Hi. rewrite seq_nth by exact Hi. reflexivity.
Qed.
Lemma order_ok chunks perms : legal_order n chunks perms -> Permutation (visit_order g chunks perms) (seq 0 n).
Proof using All.
  intros (P1 & L & P2). rewrite order_chunks by auto.
  rewrite (Permutation_flat_map _ P1). rewrite chunks_seq, filter_below; [reflexivity|].
  pose proof (Nat.div_mod n 64 ltac:(lia)). pose proof (Nat.mod_upper_bound n 64 ltac:(lia)). lia.
Qed.

Lemma insert_all_ok lab : length lab = n -> (forall v, v < n -> nth v lab 0 < 2) ->
  forall ord qs, NoDup ord -> (forall v, In v ord -> v < n) ->
  length qs = 2 -> (forall b, b < 2 -> length (nth b qs []) = n) ->
  (forall v, v < n ->
     if existsb (Nat.eqb v) ord then forall b, b < 2 -> nth v (nth b qs []) None = None
     else nth v (nth (1 - nth v lab 0) qs []) None = None /\
          match nth v (nth (nth v lab 0) qs []) None with
          | Some key => key = (zsum (map snd (gadj g v)) - 2 * ext g (lb lab) v)%Z
          | None => ext g (lb lab) v = 0%Z
          end) ->
  exists qs', insert_all g (init_weighted_degrees g) lab ord qs = Some qs' /\
              qinv g lab (repeat false n) qs' (ext g (lb lab)).
Proof using All.
  intros L Hb. induction ord as [|u ord IH]; intros qs Hd Ho L1 L2 Q; cbn [insert_all].
  - exists qs. split; auto. split; auto. split; auto. intros v Hv. specialize (Q v Hv). cbn [existsb] in Q.
    rewrite nth_repeat. exact Q.
  - inversion Hd as [|? ? Hni Hd']; subst. assert (Hu : u < n) by (apply Ho; left; reflexivity).
    unfold insert_node.
    assert (Eg : gain_from_scratch g (init_weighted_degrees g) lab u = (zsum (map snd (gadj g u)) - 2 * ext g (lb lab) u)%Z).
    { unfold gain_from_scratch. rewrite wd_nth by auto. unfold ext, lb. lia. }
    rewrite Eg, wd_nth by auto.
    pose proof (Q u Hu) as Qu. cbn [existsb] in Qu. rewrite Nat.eqb_refl in Qu. cbn [orb] in Qu.
    assert (Hnu : existsb (Nat.eqb u) ord = false).
    { destruct (existsb (Nat.eqb u) ord) eqn:E; auto. apply existsb_eqb in E. contradiction. }
    destruct (Z.eqb_spec (zsum (map snd (gadj g u))) (zsum (map snd (gadj g u)) - 2 * ext g (lb lab) u)%Z) as [E0|E0].
    + apply IH; auto; [intros; apply Ho; right; auto|]. intros v Hv. specialize (Q v Hv). cbn [existsb] in Q.
      destruct (Nat.eqb_spec v u) as [Evu|Hne]; cbn [orb] in Q; [|exact Q]. rewrite Evu, Hnu.
      pose proof (Hb u Hu). rewrite !Qu by lia. split; auto. lia.
    + set (b := nth u lab 0). assert (Hb2 : b < 2) by (apply Hb; exact Hu). pose proof (L2 b Hb2) as Lq.
      unfold push. rewrite (nth_error_nth' (nth b qs []) None) by (unfold heap in *; lia). rewrite Qu by exact Hb2.
      set (key := (zsum (map snd (gadj g u)) - 2 * ext g (lb lab) u)%Z).
      assert (HL : b < length qs) by lia.
      assert (Other : forall v c, c < 2 -> v <> u \/ c <> b ->
                nth v (nth c (upd b (upd u (Some key) (nth b qs [])) qs) []) None = nth v (nth c qs []) None).
      { intros v c Hc Hdd. destruct (Nat.eq_dec b c) as [<-|Hne]; [|rewrite upd_nth_other by exact Hne; reflexivity].
        rewrite upd_nth_same by exact HL. apply upd_nth_other. intros ->. destruct Hdd; congruence. }
      apply IH; auto; [intros; apply Ho; right; auto|rewrite upd_length; exact L1| |].
      * intros c Hc. rewrite upd_nth. destruct ((b =? c) && (b <? length qs)); [rewrite upd_length|]; auto.
      * intros v Hv. specialize (Q v Hv). cbn [existsb] in Q.
        destruct (Nat.eqb_spec v u) as [Evu|Hne]; cbn [orb] in Q.
        -- rewrite Evu, Hnu. fold b. rewrite Other by lia. rewrite Qu by lia. split; auto.
           rewrite upd_nth_same by exact HL. rewrite upd_nth_same by (unfold heap in *; lia). reflexivity.
        -- pose proof (Hb v Hv). destruct (existsb (Nat.eqb v) ord).
           ++ intros c Hc. rewrite Other by auto. apply Q. exact Hc.
           ++ rewrite !Other by lia. exact Q.
Qed.

Lemma init_pq_ok lab chunks perms : length lab = n -> (forall v, v < n -> nth v lab 0 < 2) -> legal_order n chunks perms ->
  exists qs, init_pq g (init_weighted_degrees g) lab chunks perms = Some qs /\ qinv g lab (repeat false n) qs (ext g (lb lab)).
Proof using All.
  intros L Hb Ho. pose proof (order_ok chunks perms Ho) as P. unfold init_pq, empty_queues. apply insert_all_ok; auto.
  - eapply Permutation_NoDup; [symmetry; exact P|apply seq_NoDup].
  - intros v Hv. apply (Permutation_in _ P) in Hv. apply in_seq in Hv. lia.
  - intros [|[|b]] Hb2; [apply repeat_length|apply repeat_length|lia].
  - intros v Hv. assert (E : existsb (Nat.eqb v) (visit_order g chunks perms) = true).
    { apply existsb_eqb. apply (Permutation_in _ (Permutation_sym P)). apply in_seq. unfold n in *. lia. }
    rewrite E. intros [|[|b]] Hb2; [apply nth_repeat|apply nth_repeat|lia].
Qed.

(** ** One round *)
Variables (lab0 : list nat).
Definition linv (s : rstate) : Prop :=
  bipartition g (r_lab s) (r_bw s) /\ length (r_mark s) = n /\ qinv g (r_lab s) (r_mark s) (r_qs s) (ext g (lb (r_lab s))) /\
  cut_of g (r_lab s) = (cut_of g lab0 + r_cur s)%Z /\
  NoDup (r_moves s) /\ (forall u, In u (r_moves s) -> u < n /\ nth u (r_mark s) false = true) /\
  cut_of g (flip (r_moves s) (r_lab s)) = (cut_of g lab0 + r_acc s)%Z /\
  overload limit g (flip (r_moves s) (r_lab s)) = r_acco s /\ (r_acco s <= overload limit g lab0)%Z /\
  (r_acc s <= 0)%Z /\ (r_acc s = 0%Z -> flip (r_moves s) (r_lab s) = lab0).

Definition left_over (m : list bool) : nat := length (filter negb m).
Lemma left_over_upd m u : u < length m -> nth u m false = false -> S (left_over (upd u true m)) = left_over m.
Proof using All.
  unfold left_over. revert u. induction m as [|x m IH]; intros u Hu E; [cbn in Hu; lia|]. destruct u as [|u]; cbn in E.
  - subst x. reflexivity.
  - specialize (IH u ltac:(cbn in Hu; lia) E). cbn [upd filter].
    destruct x; cbn [negb length]; rewrite <- IH; [reflexivity|]. cbn [length]. reflexivity.
Qed.

Lemma policy_lt bw qs c : max_overload_policy limit perfect bw qs c < 2.
Proof using All.
  unfold max_overload_policy, max_gain_policy, max_weight_policy.
  repeat match goal with
         | |- context [if ?b then _ else _] => destruct b
         | |- context [match ?o with Some _ => _ | None => _ end] => destruct o
         end; lia.
Qed.

Lemma fm_step_ok c s : linv s -> is_empty (nth 0 (r_qs s) []) && is_empty (nth 1 (r_qs s) []) = false ->
  exists s', fm_step g limit perfect (init_weighted_degrees g) c s = Some s' /\ linv s' /\
             S (left_over (r_mark s')) = left_over (r_mark s).
Proof using All.
  intros (B & Lm & Q & C & Nd & Mv & CA & OA & OA0 & A0 & AE) He.
  destruct (bip_len _ _ B) as [L Hb]. destruct Q as (Q1 & Q2 & Q3).
  unfold fm_step. set (a0 := max_overload_policy _ _ _ _ _).
  assert (Ha0 : a0 < 2) by apply policy_lt. clearbody a0.
  set (a := if is_empty (nth a0 (r_qs s) []) then 1 - a0 else a0).
  assert (Ha : a < 2) by (subst a; clear - Ha0; destruct (is_empty (nth a0 (r_qs s) [])); lia).
  assert (Hne : is_empty (nth a (r_qs s) []) = false).
  { unfold a. destruct (is_empty (nth a0 (r_qs s) [])) eqn:E; auto.
    assert (Hc : a0 = 0 \/ a0 = 1) by lia. destruct Hc as [Hc|Hc]; rewrite Hc in E |- *; cbn [Nat.sub]; rewrite E in He.
    - exact He.
    - rewrite andb_true_r in He. exact He. }
  destruct (peek_ok (ch_tie c) _ Hne) as (u & delta & Ep & Hu & Ek). rewrite Ep.
  rewrite (Q2 a Ha) in Hu.
  (* u is unmarked and in block a *)
  pose proof (Q3 u Hu) as Qu. destruct (nth u (r_mark s) false) eqn:Em; [rewrite (Qu a Ha) in Ek; discriminate|].
  assert (Eb : nth u (r_lab s) 0 = a).
  { pose proof (Hb u Hu). destruct (Nat.eq_dec (nth u (r_lab s) 0) a) as [|Hd]; auto.
    replace (1 - nth u (r_lab s) 0) with a in Qu by lia. rewrite Ek in Qu. destruct Qu; discriminate. }
  rewrite Eb, Ek in Qu. destruct Qu as [Qo Qk].
  destruct (set_block_ok (r_lab s) (r_bw s) u (1 - a) B Hu) as (bw' & Es & B'); [lia|]. rewrite Es.
  set (lab' := upd u (1 - a) (r_lab s)) in *. set (mark' := upd u true (r_mark s)).
  set (qs1 := upd a (remove u (nth a (r_qs s) [])) (r_qs s)).
  destruct (bip_len _ _ B') as [L' Hb'].
  assert (Elu : nth u lab' 0 = 1 - a) by (unfold lab'; apply upd_nth_same; unfold n in *; lia).
  assert (Elo : forall v, v <> u -> nth v lab' 0 = nth v (r_lab s) 0) by (intros v Hv; apply upd_nth_other; congruence).
  assert (Emu : nth u mark' false = true) by (apply upd_nth_same; unfold n in *; lia).
  assert (Emo : forall v, v <> u -> nth v mark' false = nth v (r_mark s) false) by (intros v Hv; apply upd_nth_other; congruence).
  assert (HL : a < length (r_qs s)) by lia.
  assert (Qn : qinv g lab' mark' qs1
            (fun v => ext g (lb lab') v + (if Nat.eqb (1 - a) (lb lab' v) then restw (gadj g u) v else - restw (gadj g u) v))%Z).
  { split; [unfold qs1; rewrite upd_length; exact Q1|]. split.
    - intros b Hb2. unfold qs1. rewrite upd_nth. destruct ((a =? b) && (a <? length (r_qs s))); [unfold remove; rewrite upd_length|]; auto.
    - intros v Hv.
      assert (Other : forall b, b < 2 -> v <> u \/ b <> a -> nth v (nth b qs1 []) None = nth v (nth b (r_qs s) []) None).
      { intros b Hb2 Hd. unfold qs1. destruct (Nat.eq_dec a b) as [<-|Hn2]; [|rewrite upd_nth_other by exact Hn2; reflexivity].
        rewrite upd_nth_same by exact HL. unfold remove. apply upd_nth_other. intros ->. destruct Hd; congruence. }
      destruct (Nat.eq_dec v u) as [->|Hvu].
      + rewrite Emu. intros b Hb2. destruct (Nat.eq_dec b a) as [->|Hba].
        * unfold qs1. rewrite upd_nth_same by exact HL. unfold remove. apply upd_nth_same. specialize (Q2 a Ha). unfold heap in *. lia.
        * rewrite Other by auto. replace b with (1 - a) by lia. exact Qo.
      + rewrite Emo by exact Hvu. specialize (Q3 v Hv). destruct (nth v (r_mark s) false).
        * intros b Hb2. rewrite Other by auto. apply Q3. exact Hb2.
        * rewrite Elo by exact Hvu. pose proof (Hb v Hv). rewrite !Other by lia.
          cbv beta.
          replace (ext g (lb lab') v + (if Nat.eqb (1 - a) (lb lab' v) then restw (gadj g u) v else - restw (gadj g u) v))%Z
            with (ext g (lb (r_lab s)) v); [exact Q3|].
          rewrite (ext_ext g Hcl Hund Hnn Hloop (lb lab') (relabel (lb (r_lab s)) u (1 - lb (r_lab s) u)) v Hv).
          2:{ intros x Hx. unfold lab'. rewrite <- Eb. apply lb_upd; auto. }
          rewrite ext_move by (auto; congruence).
          change (lb (r_lab s) u) with (nth u (r_lab s) 0). rewrite Eb.
          replace (lb lab' v) with (lb (r_lab s) v) by (unfold lb; symmetry; apply Elo; exact Hvu).
          destruct (Nat.eqb (1 - a) (lb (r_lab s) v)); lia. }
  destruct (update_neighbors_ok g Hcl Hund Hnn Hloop lab' mark' (1 - a) u Hu Emu Hb' Elu (gadj g u) [] qs1 eq_refl Qn)
    as (qs2 & En & Q').
  rewrite En.
  assert (C' : cut_of g lab' = (cut_of g lab0 + (r_cur s + delta))%Z).
  { unfold lab'. rewrite <- Eb. rewrite cut_flip by auto. rewrite C, Qk. change (fun v => nth v (r_lab s) 0) with (lb (r_lab s)). lia. }
  assert (Hni : ~ In u (r_moves s)).
  { intros Hi. destruct (Mv u Hi) as [_ Ht]. congruence. }
  assert (Lo : S (left_over mark') = left_over (r_mark s)) by (apply left_over_upd; [unfold n in *; lia|exact Em]).
  assert (Lm' : length mark' = n) by (unfold mark'; rewrite upd_length; exact Lm).
  rewrite (total_overload_ok lab' bw' B').
  destruct ((overload limit g lab' <=? r_acco s)%Z && (r_cur s + delta <? r_acc s)%Z) eqn:Ea.
  - apply andb_true_iff in Ea. destruct Ea as [Ea1 Ea2]. apply Z.leb_le in Ea1. apply Z.ltb_lt in Ea2.
    eexists. split; [reflexivity|]. split; [|exact Lo]. unfold linv. cbn [r_lab r_bw r_qs r_mark r_moves r_cur r_curo r_acc r_acco].
    rewrite flip_nil by exact L'. split; [exact B'|]. split; [exact Lm'|]. split; [exact Q'|]. split; [exact C'|].
    split; [constructor|]. split; [intros x []|]. split; [exact C'|]. split; [reflexivity|]. split; [lia|]. split; lia.
  - eexists. split; [reflexivity|]. split; [|exact Lo]. unfold linv. cbn [r_lab r_bw r_qs r_mark r_moves r_cur r_curo r_acc r_acco].
    assert (Ef : flip (r_moves s ++ [u]) lab' = flip (r_moves s) (r_lab s)).
    { unfold lab'. rewrite <- Eb. apply flip_snoc; auto. }
    rewrite Ef. split; [exact B'|]. split; [exact Lm'|]. split; [exact Q'|]. split; [exact C'|].
    split; [|split; [|auto]].
    + apply nodup_snoc; auto.
    + intros x Hx. apply in_app_or in Hx. destruct Hx as [Hx|[<-|[]]]; [|split; auto].
      destruct (Mv x Hx) as [H1 H2]. split; auto. rewrite Emo; auto. intros ->. contradiction.
Qed.

Lemma no_unmarked m v : v < length m -> left_over m = 0 -> nth v m false = true.
Proof using All.
  unfold left_over. revert v. induction m as [|x m IH]; intros v Hv E; [cbn in Hv; lia|]. cbn [filter] in E.
  destruct x; cbn [negb length] in E; [|discriminate]. destruct v as [|v]; [reflexivity|]. apply IH; [cbn in Hv; lia|exact E].
Qed.

Lemma fm_loop_ok orc fuel : forall i s, linv s -> left_over (r_mark s) <= fuel ->
  exists s', fm_loop g limit perfect fuel (init_weighted_degrees g) orc i s = Some s' /\ linv s'.
Proof using All.
  induction fuel as [|f IH]; intros i s I Hf; cbn [fm_loop].
  - assert (E : is_empty (nth 0 (r_qs s) []) && is_empty (nth 1 (r_qs s) []) = true).
    { destruct I as (_ & Lm & (Q1 & Q2 & Q3) & _).
      assert (K : forall b, b < 2 -> is_empty (nth b (r_qs s) []) = true).
      { intros b Hb. unfold is_empty. rewrite (proj2 (top_key_none _)); auto. intros v.
        destruct (Nat.lt_ge_cases v n) as [Hv|Hv].
        - specialize (Q3 v Hv). rewrite no_unmarked in Q3 by (try lia; unfold n in *; lia). apply Q3. exact Hb.
        - apply nth_overflow. specialize (Q2 b Hb). unfold heap, n in *. lia. }
      rewrite !K by lia. reflexivity. }
    rewrite E. cbn [orb]. eauto.
  - destruct (is_empty (nth 0 (r_qs s) []) && is_empty (nth 1 (r_qs s) [])) eqn:E; cbn [orb]; eauto.
    destruct (ch_stop (orc i)); eauto.
    destruct (fm_step_ok (orc i) s I E) as (s' & Es & I' & Hl). rewrite Es. apply IH; [exact I'|lia].
Qed.
End Rounds.

Section Refine.
Variable g : graph.
Variables limit perfect : nat -> Z.
Hypothesis Hcl : closed_graph g.
Hypothesis Hund : undirected g.
Hypothesis Hnn : nonneg_edges g.
Hypothesis Hloop : loop_free g.

Lemma round_ok rc lab bw : bipartition g lab bw -> legal_order (gn g) (rc_chunks rc) (rc_perms rc) ->
  exists lab' bw' d, fm_round g limit perfect (init_weighted_degrees g) rc lab bw = Some (lab', bw', d) /\
    bipartition g lab' bw' /\ cut_of g lab' = (cut_of g lab + d)%Z /\ (d <= 0)%Z /\
    (overload limit g lab' <= overload limit g lab)%Z /\ (d = 0%Z -> lab' = lab).
Proof using All.
  intros B Ho. destruct (bip_len g limit perfect Hcl Hund Hnn Hloop _ _ B) as [L Hb]. unfold fm_round.
  destruct (init_pq_ok g limit perfect Hcl Hund Hnn Hloop lab _ _ L Hb Ho) as (qs & Eq & Q). rewrite Eq.
  rewrite (total_overload_ok g limit perfect Hcl Hund Hnn Hloop lab bw B).
  set (s0 := mkR _ _ _ _ _ _ _ _ _).
  assert (I0 : linv g limit lab s0).
  { unfold linv, s0. cbn [r_lab r_bw r_qs r_mark r_moves r_cur r_curo r_acc r_acco].
    rewrite (flip_nil g limit perfect Hcl Hund Hnn Hloop lab L). split; [exact B|]. split; [apply repeat_length|]. split; [exact Q|].
    split; [lia|]. split; [constructor|]. split; [intros u []|]. split; [lia|]. split; [reflexivity|]. split; [lia|]. split; [lia|auto]. }
  destruct (fm_loop_ok g limit perfect Hcl Hund Hnn Hloop lab (rc_orc rc) (gn g) 0 s0 I0) as (s & Es & I).
  { unfold s0. cbn [r_mark]. unfold left_over. clear. induction (gn g) as [|k IH]; cbn [repeat filter negb length]; lia. }
  rewrite Es. destruct I as (B1 & Lm & _ & C & Nd & Mv & CA & OA & OA0 & A0 & AE).
  destruct (rollback_ok g limit perfect Hcl Hund Hnn Hloop (r_moves s) (r_lab s) (r_bw s) B1 Nd) as (bw' & Er & B').
  { intros u Hu. apply (Mv u Hu). }
  rewrite Er. exists (flip g (r_moves s) (r_lab s)), bw', (r_acc s). split; [reflexivity|].
  split; [exact B'|]. split; [exact CA|]. split; [exact A0|]. split; [lia|exact AE].
Qed.

Lemma edge_cut_seq_ok lab : edge_cut_seq g lab = cut_of g lab.
Proof using All.
  unfold edge_cut_seq, cut_of. pose proof (dcut_cut g (fun u => nth u lab 0) Hcl Hund) as E.
  unfold dcut, sumn in E. rewrite E. rewrite Z.mul_comm. apply Z.div_mul. lia.
Qed.

Definition no_worse (lab lab' : list nat) (bw' : list Z) : Prop :=
  bipartition g lab' bw' /\ (overload limit g lab' <= overload limit g lab)%Z  /\
  (lab' = lab \/ (cut_of g lab' < cut_of g lab)%Z).

Lemma more_rounds_ok rcs abt : (forall i, legal_order (gn g) (rc_chunks (rcs i)) (rc_perms (rcs i))) ->
  forall left it lab bw, bipartition g lab bw ->
  exists lab' bw', more_rounds g limit perfect (init_weighted_degrees g) rcs abt left it lab bw (cut_of g lab) =
                     Some (lab', bw', cut_of g lab') /\ no_worse lab lab' bw'.
Proof using All.
  intros Ho. induction left as [|l IH]; intros it lab bw B; cbn [more_rounds].
  - exists lab, bw. split; auto. split; auto. split; [lia|auto].
  - destruct ((0 <? cut_of g lab)%Z && negb (abt it)).
    + destruct (round_ok (rcs it) lab bw B (Ho it)) as (lab1 & bw1 & d & E & B1 & C1 & D1 & O1 & S1). rewrite E, <- C1.
      destruct (IH (S it) lab1 bw1 B1) as (lab' & bw' & E' & B' & O' & S'). exists lab', bw'. split; [exact E'|].
      split; [exact B'|]. split; [lia|].
      assert (K : lab1 = lab \/ (cut_of g lab1 < cut_of g lab)%Z).
      { destruct (Z.eq_dec d 0) as [Hd|Hd]; [left; auto|right; lia]. }
      destruct S' as [->|S']; [exact K|]. destruct K as [->|K]; [right; exact S'|right; lia].
    + exists lab, bw. split; auto. split; auto. split; [lia|auto].
Qed.

Lemma refine_ok iters rcs abt lab bw : bipartition g lab bw ->
  (forall i, legal_order (gn g) (rc_chunks (rcs i)) (rc_perms (rcs i))) ->
  exists lab' bw' improved, fm_refine g limit perfect iters rcs abt lab bw = Some (lab', bw', improved) /\
    bipartition g lab' bw' /\ (overload limit g lab' <= overload limit g lab)%Z /\
    (lab' = lab \/ (cut_of g lab' < cut_of g lab)%Z)  /\
  (improved = true -> (cut_of g lab' < cut_of g lab)%Z) /\ (iters <> 1 -> improved = false -> lab' = lab).
Proof using All.
  intros B Ho. unfold fm_refine. destruct (Nat.eqb_spec iters 1) as [->|Hi].
  - destruct (round_ok (rcs 0) lab bw B (Ho 0)) as (lab1 & bw1 & d & E & B1 & C1 & D1 & O1 & S1). rewrite E.
    exists lab1, bw1, false. split; auto. split; auto. split; auto.
    split; [|split; [discriminate|congruence]].
    destruct (Z.eq_dec d 0) as [Hd|Hd]; [left; auto|right; lia].
  - rewrite edge_cut_seq_ok. destruct (Z.eqb_spec (cut_of g lab) 0) as [E0|E0].
    + exists lab, bw, false. split; auto. split; auto. split; [lia|]. split; [auto|]. split; [discriminate|auto].
    + destruct (round_ok (rcs 0) lab bw B (Ho 0)) as (lab1 & bw1 & d & E & B1 & C1 & D1 & O1 & S1). rewrite E, <- C1.
      destruct (more_rounds_ok rcs abt Ho (iters - 1) 1 lab1 bw1 B1) as (lab' & bw' & E' & B' & O' & S'). rewrite E'.
      exists lab', bw', (cut_of g lab' <? cut_of g lab)%Z. split; auto. split; auto. split; [lia|].
      assert (K : lab' = lab \/ (cut_of g lab' < cut_of g lab)%Z).
      { destruct (Z.eq_dec d 0) as [Hd|Hd].
        - rewrite <- (S1 Hd). rewrite (S1 Hd) in S' |- *. exact S'.
        - destruct S' as [->|S']; right; lia. }
      split; [exact K|]. split; [apply Z.ltb_lt|]. intros _ Hf. apply Z.ltb_ge in Hf. destruct K as [K|K]; [exact K|lia].
Qed.
End Refine.
