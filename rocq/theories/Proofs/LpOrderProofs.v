(* Proofs about Model/LpOrderModel.v. *)
From Verif Require Import Lib.Prelude Model.MathModel Model.LpOrderModel Spec.LpOrderSpec Proofs.MathProofs.

Lemma NoDup_app_intro {A} (l1 l2 : list A) : NoDup l1 -> NoDup l2 -> (forall x, In x l1 -> ~ In x l2) -> NoDup (l1 ++ l2).
Proof.
  induction l1 as [|a l1 IH]; intros H1 H2 D; [exact H2|]. cbn. inversion H1; subst. constructor.
  - intros I. apply in_app_or in I as [I|I]; [auto|exact (D a (or_introl eq_refl) I)].
  - apply IH; auto. intros x I. apply D. right. exact I.
Qed.

Lemma ceil_bounds size m : 1 <= m -> let j := N.to_nat (div_ceil (N.of_nat size) (N.of_nat m)) in size <= j * m /\ j * m < size + m.
Proof.
  intros H j. destruct (div_ceil_spec (N.of_nat size) (N.of_nat m) ltac:(lia)) as (A & B).
  assert (Ej : N.of_nat j = div_ceil (N.of_nat size) (N.of_nat m)) by (unfold j; lia). rewrite <- Ej in A, B. split; [nia|].
  destruct j as [|j]; [lia|]. destruct (Nat.lt_ge_cases (S j * m) (size + m)) as [L|G]; [exact L|]. exfalso.
  assert (Q : (N.of_nat (S j) <= N.of_nat j)%N) by (apply B; nia). lia.
Qed.

Definition chunk_nodes (c : chunk) : list nat := seq (fst c) (snd c - fst c).
Definition nodes_of (cs : list chunk) : list nat := flat_map chunk_nodes cs.

Lemma nodes_of_app a b : nodes_of (a ++ b) = nodes_of a ++ nodes_of b.
Proof. unfold nodes_of. apply flat_map_app. Qed.

Lemma nodes_of_perm a b : Permutation a b -> Permutation (nodes_of a) (nodes_of b).
Proof. intros P. unfold nodes_of. apply Permutation_flat_map. exact P. Qed.

(** ** Coverage of an interval *)
Section Cov.
Variable degs : list nat.

Definition cov (a b : nat) (l : list nat) : Prop :=
  NoDup l /\ (forall u, In u l -> a <= u < b) /\ (forall u, a <= u < b -> 0 < nth u degs 0 -> In u l).

Lemma cov_perm a b l l' : Permutation l l' -> cov a b l -> cov a b l'.
Proof.
  intros P (N & I & C). split; [exact (Permutation_NoDup P N)|]. split.
  - intros u H. apply I. exact (Permutation_in _ (Permutation_sym P) H).
  - intros u H D. exact (Permutation_in _ P (C u H D)).
Qed.

Lemma cov_nil a b : (forall u, a <= u < b -> nth u degs 0 = 0) -> cov a b [].
Proof. intros Z. split; [constructor|]. split; [intros u []|]. intros u H D. specialize (Z u H). lia. Qed.

Lemma cov_app a b c l1 l2 : a <= b -> b <= c -> cov a b l1 -> cov b c l2 -> cov a c (l1 ++ l2).
Proof.
  intros A B (N1 & I1 & C1) (N2 & I2 & C2). split; [|split].
  - apply NoDup_app_intro; [exact N1|exact N2|]. intros u H1 H2. specialize (I1 u H1). specialize (I2 u H2). lia.
  - intros u H. apply in_app_or in H as [H|H]; [specialize (I1 u H)|specialize (I2 u H)]; lia.
  - intros u H D. apply in_or_app. destruct (Nat.lt_ge_cases u b); [left; apply C1|right; apply C2]; lia.
Qed.

Lemma cov_seq a k b : a + k <= b -> (forall u, a + k <= u < b -> nth u degs 0 = 0) -> cov a b (seq a k).
Proof.
  intros L Z. split; [apply seq_NoDup|]. split.
  - intros u H. apply in_seq in H. lia.
  - intros u H D. apply in_seq. destruct (Nat.lt_ge_cases u (a + k)); [lia|]. rewrite Z in D by lia. lia.
Qed.
(** ** Chunks of a block of nodes *)
Lemma cut_chunks_ok maxe : forall cnt u cs cur stop, stop = u + cnt -> cs <= u ->
  (cur = 0 -> forall v, cs <= v < u -> nth v degs 0 = 0) ->
  exists k, nodes_of (cut_chunks degs maxe cnt u cs cur stop) = seq cs k /\ cs + k <= stop /\ forall v, cs + k <= v < stop -> nth v degs 0 = 0.
Proof.
  induction cnt as [|cnt IH]; intros u cs cur stop Es Hc Z; cbn [cut_chunks].
  - destruct (Nat.ltb_spec 0 cur) as [P|P].
    + exists (stop - cs). split; [cbn; rewrite app_nil_r; reflexivity|]. split; [lia|]. intros v H. lia.
    + exists 0. split; [reflexivity|]. split; [lia|]. intros v H. apply Z; lia.
  - destruct (Nat.leb_spec maxe (cur + deg degs u)) as [P|P].
    + destruct (IH (S u) (S u) 0 stop ltac:(lia) ltac:(lia) ltac:(intros; lia)) as (k & E & L & Zk).
      exists (S u - cs + k). change (nodes_of ((cs, S u) :: cut_chunks degs maxe cnt (S u) (S u) 0 stop))
        with (seq cs (S u - cs) ++ nodes_of (cut_chunks degs maxe cnt (S u) (S u) 0 stop)).
      rewrite E, seq_app. split; [f_equal; f_equal; lia|]. split; [lia|]. intros v H. apply Zk. lia.
    + apply IH; [lia|lia|]. intros E0 v H. destruct (Nat.eq_dec v u) as [->|N]; [unfold deg in E0; lia|apply Z; lia].
Qed.

Lemma cut_chunks_cov maxe b e start : b <= e -> cov (start + b) (start + e) (nodes_of (cut_chunks degs maxe (e - b) (start + b) (start + b) 0 (start + e))).
Proof.
  intros L. destruct (cut_chunks_ok maxe (e - b) (start + b) (start + b) 0 (start + e) ltac:(lia) ltac:(lia) ltac:(intros; lia)) as (k & E & B & Z).
  rewrite E. apply cov_seq; assumption.
Qed.

Lemma node_blocks_cov maxe maxn start size : 1 <= maxn -> cov start (start + size) (nodes_of (concat (node_blocks degs maxe maxn start size))).
Proof.
  intros Hm. unfold node_blocks. destruct (ceil_bounds size maxn Hm) as (B1 & B2). set (j := N.to_nat _) in *. clearbody j.
  set (f := fun j => _). 
  assert (A : forall i, i <= j -> cov start (start + Nat.min (i * maxn) size) (nodes_of (concat (map f (seq 0 i))))).
  { induction i as [|i IH]; intros Hi.
    - cbn [seq map concat]. apply cov_nil. intros u H. lia.
    - rewrite seq_S, map_app, concat_app, nodes_of_app. cbn [map concat plus]. rewrite app_nil_r.
      assert (Ei : S i * maxn = i * maxn + maxn) by lia.
      assert (Hlt : i * maxn <= size) by nia.
      apply (cov_app start (start + Nat.min (i * maxn) size)); [lia|lia|apply IH; lia|].
      unfold f. rewrite Ei, (Nat.min_l (i * maxn) size) by lia. apply cut_chunks_cov. lia. }
  specialize (A j (le_n j)). rewrite (Nat.min_r (j * maxn) size) in A by lia. exact A.
Qed.

(** ** Distribution to workers *)
Lemma insert_task {A} (f : nat -> list A) (t : nat) (x : list A) (order : list nat) : NoDup order -> In t order ->
  Permutation (flat_map (fun t' => if t =? t' then x ++ f t' else f t') order) (x ++ flat_map f order).
Proof.
  induction order as [|t' order IH]; intros N I; [destruct I|]. inversion N as [|? ? N1 N2]; subst. cbn [flat_map].
  destruct (Nat.eqb_spec t t') as [E|D].
  - assert (Eq : flat_map (fun t'0 => if t =? t'0 then x ++ f t'0 else f t'0) order = flat_map f order).
    { clear IH N2 I N. induction order as [|y order IH]; [reflexivity|]. cbn [flat_map]. rewrite IH by (intros H; apply N1; right; exact H).
      destruct (Nat.eqb_spec t y) as [E2|_]; [exfalso; apply N1; left; congruence|reflexivity]. }
    rewrite Eq, app_assoc. apply Permutation_refl.
  - destruct I as [I|I]; [congruence|]. specialize (IH N2 I).
    eapply Permutation_trans; [apply Permutation_app_head; exact IH|]. rewrite !app_assoc. apply Permutation_app_tail, Permutation_app_comm.
Qed.

Lemma deal_pairs {A} (order : list nat) : NoDup order -> forall ps : list (nat * list A), (forall p, In p ps -> In (fst p) order) ->
  Permutation (flat_map (fun t => concat (map snd (filter (fun p => fst p =? t) ps))) order) (concat (map snd ps)).
Proof.
  intros N. induction ps as [|[t x] ps IH]; intros H.
  - cbn. clear. induction order; [constructor|]. cbn. exact IHorder.
  - cbn [map concat snd]. eapply Permutation_trans; [|apply Permutation_app_head, IH; intros p I; apply H; right; exact I].
    eapply Permutation_trans; [|apply (insert_task _ t x order N (H (t, x) (or_introl eq_refl)))].
    apply Permutation_refl'. apply flat_map_ext. intros t'. cbn [filter fst]. destruct (t =? t'); reflexivity.
Qed.

Lemma deal_perm who order blocks : distribution_ok (length blocks) (who, order) -> Permutation (deal who order blocks) (concat blocks).
Proof.
  intros (L & N & I). cbn in L, N, I. unfold deal.
  eapply Permutation_trans; [apply deal_pairs; [exact N|]|].
  - intros [t x] H. apply in_combine_l in H. exact (I t H).
  - apply Permutation_refl'. f_equal. clear - L. revert blocks L. induction who as [|w who IH]; intros [|b blocks] L; try discriminate L; [reflexivity|].
    cbn. f_equal. apply IH. cbn in L. lia.
Qed.
End Cov.

(** ** Buckets *)
Section Buckets.
Variables (degs bk : list nat) (nb maxe maxn : nat).
Hypothesis HB : buckets_ok (length degs) bk nb.

Lemma first_mono a b : a <= b -> b <= nb -> nth a bk 0 <= nth b bk 0.
Proof using HB.
  destruct HB as (_ & _ & H). intros L. induction L as [|b L IH]; intros Hb; [lia|]. specialize (IH ltac:(lia)). specialize (H b ltac:(lia)). lia.
Qed.

Definition within (from to x : nat) : nat := Nat.max from (Nat.min to x).

(** Nodes of smaller buckets come first. *)
Definition bucket_le (u v : nat) : Prop := forall b, b <= nb -> nth b bk 0 <= u -> nth b bk 0 <= v.

Fixpoint groups (b : nat) (ls : list (list nat)) : Prop :=
  match ls with
  | [] => True
  | l :: rest => exists b', b <= b' < nb /\ (forall u, In u l -> nth b' bk 0 <= u < nth (S b') bk 0) /\ groups (S b') rest
  end.

Lemma groups_perm : forall ls ls' b, Forall2 (@Permutation nat) ls ls' -> groups b ls -> groups b ls'.
Proof.
  intros ls ls' b F. revert b. induction F as [|l l' ls ls' P F IH]; intros b H; [exact I|].
  destruct H as (b' & H1 & H2 & H3). exists b'. split; [exact H1|]. split; [|exact (IH _ H3)].
  intros u Iu. apply H2. exact (Permutation_in _ (Permutation_sym P) Iu).
Qed.

Lemma groups_ordered : forall ls b, groups b ls -> ForallOrdPairs bucket_le (concat ls) /\ (b <= nb -> forall u, In u (concat ls) -> nth b bk 0 <= u).
Proof using HB.
  induction ls as [|l ls IH]; intros b H; [split; [constructor|intros _ u []]|].
  destruct H as (b' & (H1 & H2) & H3 & H4). destruct (IH _ H4) as (O & Lo). cbn [concat].
  assert (M : forall x u, x <= nb -> nth x bk 0 <= u -> u < nth (S b') bk 0 -> nth x bk 0 <= nth b' bk 0).
  { intros x u Hx A B. apply first_mono; [|lia]. destruct (Nat.le_gt_cases x b') as [C|C]; [exact C|].
    pose proof (first_mono (S b') x ltac:(lia) Hx). lia. }
  split.
  - clear IH. induction l as [|u l IHl]; [exact O|]. cbn [app]. constructor; [|apply IHl; intros v I; apply H3; right; exact I].
    apply Forall_forall. intros v Iv x Hx Hu. destruct (H3 u (or_introl eq_refl)) as (U1 & U2). specialize (M x u Hx Hu U2).
    apply in_app_or in Iv as [Iv|Iv]; [destruct (H3 v (or_intror Iv)); lia|].
    specialize (Lo ltac:(lia) v Iv). pose proof (first_mono b' (S b') ltac:(lia) ltac:(lia)). lia.
  - intros Hb u Iu. pose proof (first_mono b b' H1 ltac:(lia)). apply in_app_or in Iu as [Iu|Iu]; [destruct (H3 u Iu); lia|].
    specialize (Lo ltac:(lia) u Iu). pose proof (first_mono b' (S b') ltac:(lia) ltac:(lia)). lia.
Qed.
Hypothesis Hm : 1 <= maxn.

Lemma bucket_loop_cov from to dist : from <= to -> (forall b m, distribution_ok m (dist b m)) -> forall cnt b, b + cnt <= nb ->
  cov degs (within from to (nth b bk 0)) (within from to (nth (b + cnt) bk 0))
    (nodes_of (concat (bucket_loop degs bk maxe maxn from to dist cnt b (nth b bk 0)))).
Proof using HB Hm.
  intros Hft Hd. induction cnt as [|cnt IH]; intros b Hb.
  - cbn [bucket_loop concat]. rewrite Nat.add_0_r. apply cov_nil. intros u H. lia.
  - cbn [bucket_loop]. unfold bucket_size, first_in. pose proof (first_mono b (S b) ltac:(lia) ltac:(lia)) as M1.
    pose proof (first_mono (S b) (b + S cnt) ltac:(lia) ltac:(lia)) as M2.
    replace (nth b bk 0 + (nth (S b) bk 0 - nth b bk 0)) with (nth (S b) bk 0) by lia.
    specialize (IH (S b) ltac:(lia)). replace (S b + cnt) with (b + S cnt) in IH by lia.
    destruct ((nth (S b) bk 0 <? from) || (nth (S b) bk 0 - nth b bk 0 =? 0)) eqn:Sk.
    + assert (E : within from to (nth b bk 0) = within from to (nth (S b) bk 0)).
      { apply orb_prop in Sk as [Sk|Sk]; [apply Nat.ltb_lt in Sk|apply Nat.eqb_eq in Sk]; unfold within; lia. }
      rewrite E. exact IH.
    + apply orb_false_iff in Sk as (S1 & S2). apply Nat.ltb_ge in S1. apply Nat.eqb_neq in S2.
      destruct (Nat.leb_spec to (nth b bk 0)) as [T|T].
      * cbn [concat]. apply cov_nil. intros u H. unfold within in H. lia.
      * cbn [concat]. rewrite nodes_of_app. apply (cov_app degs _ (within from to (nth (S b) bk 0))); [unfold within; lia|unfold within; lia| |exact IH].
        set (blocks := node_blocks _ _ _ _ _).
        apply (cov_perm degs _ _ (nodes_of (concat blocks))).
        { apply nodes_of_perm, Permutation_sym, deal_perm. specialize (Hd b (length blocks)). destruct (dist b (length blocks)). exact Hd. }
        assert (E1 : within from to (nth b bk 0) = Nat.max (nth b bk 0) from) by (unfold within; lia).
        set (size := Nat.min (if nth b bk 0 <? from then _ else _) _) in blocks.
        assert (E2 : within from to (nth (S b) bk 0) = Nat.max (nth b bk 0) from + size).
        { unfold size, within. destruct (Nat.ltb_spec (nth b bk 0) from); lia. }
        rewrite E1, E2. apply node_blocks_cov. exact Hm.
Qed.

Lemma bucket_loop_groups from to dist : from <= to -> (forall b m, distribution_ok m (dist b m)) -> forall cnt b, b + cnt <= nb ->
  groups b (map nodes_of (bucket_loop degs bk maxe maxn from to dist cnt b (nth b bk 0))).
Proof using HB Hm.
  intros Hft Hd. induction cnt as [|cnt IH]; intros b Hb; [exact I|].
  cbn [bucket_loop]. unfold bucket_size, first_in. pose proof (first_mono b (S b) ltac:(lia) ltac:(lia)) as M1.
  replace (nth b bk 0 + (nth (S b) bk 0 - nth b bk 0)) with (nth (S b) bk 0) by lia.
  specialize (IH (S b) ltac:(lia)).
  assert (W : forall ls, groups (S b) ls -> groups b ls).
  { intros [|l rest] H; [exact I|]. destruct H as (b' & H1 & H2). exists b'. split; [lia|exact H2]. }
  destruct ((nth (S b) bk 0 <? from) || (nth (S b) bk 0 - nth b bk 0 =? 0)) eqn:Sk; [apply W; exact IH|].
  destruct (Nat.leb_spec to (nth b bk 0)) as [T|T]; [exact I|].
  apply orb_false_iff in Sk as (S1 & S2). apply Nat.ltb_ge in S1. apply Nat.eqb_neq in S2.
  cbn [map groups]. exists b. split; [lia|]. split; [|exact IH].
  intros u Iu. set (blocks := node_blocks _ _ _ _ _) in *.
  assert (P : Permutation (nodes_of (deal (fst (dist b (length blocks))) (snd (dist b (length blocks))) blocks)) (nodes_of (concat blocks))).
  { apply nodes_of_perm, deal_perm. specialize (Hd b (length blocks)). destruct (dist b (length blocks)). exact Hd. }
  apply (Permutation_in _ P) in Iu.
  set (size := Nat.min (if nth b bk 0 <? from then _ else _) _) in blocks.
  destruct (node_blocks_cov degs maxe maxn (Nat.max (nth b bk 0) from) size Hm) as (_ & R & _). specialize (R u Iu).
  assert (E2 : size <= nth (S b) bk 0 - Nat.max (nth b bk 0) from) by (unfold size; destruct (Nat.ltb_spec (nth b bk 0) from); lia). lia.
Qed.

End Buckets.

(** ** The visits of a chunk *)
Lemma flat_map_seq_blocks a m : forall k, flat_map (fun j => map (fun p => a + m * j + p) (seq 0 m)) (seq 0 k) = seq a (k * m).
Proof.
  induction k as [|k IH]; [reflexivity|]. rewrite seq_S, flat_map_app, IH. cbn [flat_map plus]. rewrite app_nil_r.
  replace (S k * m) with (k * m + m) by lia. rewrite seq_app. f_equal.
  replace (a + k * m) with (a + m * k + 0) by lia. set (b := a + m * k). clearbody b. generalize 0. clear.
  induction m as [|m IH]; intros s; [reflexivity|]. cbn. f_equal. rewrite IH. f_equal. lia.
Qed.

Lemma filter_lt_seq hi : forall len a, filter (fun u => u <? hi) (seq a len) = seq a (Nat.min len (hi - a)).
Proof.
  induction len as [|len IH]; intros a; [reflexivity|]. cbn [seq filter]. rewrite IH. destruct (Nat.ltb_spec a hi) as [L|G].
  - replace (Nat.min (S len) (hi - a)) with (S (Nat.min len (hi - S a))) by lia. reflexivity.
  - replace (Nat.min len (hi - S a)) with 0 by lia. replace (Nat.min (S len) (hi - a)) with 0 by lia. reflexivity.
Qed.

Lemma perm_filter {A} (f : A -> bool) l l' : Permutation l l' -> Permutation (filter f l) (filter f l').
Proof.
  induction 1 as [|x l l' P IH|x y l|l l1 l2 P1 IH1 P2 IH2]; cbn; [constructor| | |eapply Permutation_trans; eauto].
  - destruct (f x); [constructor; exact IH|exact IH].
  - destruct (f x), (f y); try apply Permutation_refl. apply perm_swap.
Qed.

Lemma flat_map_perm_pointwise {A B} (f g : A -> list B) (l : list A) : (forall x, In x l -> Permutation (f x) (g x)) -> Permutation (flat_map f l) (flat_map g l).
Proof.
  induction l as [|a l IH]; intros H; [constructor|]. cbn. apply Permutation_app; [apply H; left; reflexivity|apply IH; intros x I; apply H; right; exact I].
Qed.

Lemma chunk_visits_perm psize range perm subs c : 1 <= psize -> (fst c < snd c -> snd c + psize <= range) ->
  Permutation perm (seq 0 psize) -> Permutation subs (seq 0 (num_sub_chunks psize c)) ->
  Permutation (chunk_visits psize range perm subs c) (chunk_nodes c).
Proof.
  intros Hp Hr P1 P2. unfold chunk_visits, chunk_nodes.
  destruct (ceil_bounds (snd c - fst c) psize Hp) as (B1 & B2). fold (num_sub_chunks psize c) in B1, B2. set (k := num_sub_chunks psize c) in *.
  assert (E : Permutation (flat_map (fun j => map (fun p => (fst c + psize * j + p) mod range) perm) subs) (seq (fst c) (k * psize))).
  { eapply Permutation_trans; [apply Permutation_flat_map; exact P2|]. rewrite <- flat_map_seq_blocks. apply flat_map_perm_pointwise.
    intros j Ij. apply in_seq in Ij. eapply Permutation_trans; [apply Permutation_map; exact P1|]. apply Permutation_refl'.
    apply map_ext_in. intros p Ip. apply in_seq in Ip. apply Nat.mod_small.
    destruct (Nat.lt_ge_cases (fst c) (snd c)) as [L|G]; [specialize (Hr L); nia|]. nia. }
  eapply Permutation_trans; [apply perm_filter; exact E|]. rewrite filter_lt_seq. apply Permutation_refl'. f_equal. lia.
Qed.

(** ** A pass *)
Section Pass.
Variables (degs bk : list nat) (nb psize range max_degree : nat).
Variables (perms : nat -> chunk -> list nat * list nat).
Hypothesis Hp : 1 <= psize.
Hypothesis Hr : length degs + psize <= range.
Hypothesis HP : forall i c, Permutation (fst (perms i c)) (seq 0 psize) /\ Permutation (snd (perms i c)) (seq 0 (num_sub_chunks psize c)).

Let V (ic : nat * chunk) : list nat := chunk_visits psize range (fst (perms (fst ic) (snd ic))) (snd (perms (fst ic) (snd ic))) (snd ic).

Lemma visits_of_chunk i c : (forall u, In u (chunk_nodes c) -> u < length degs) -> Permutation (V (i, c)) (chunk_nodes c).
Proof using Hp Hr HP.
  intros H. unfold V. cbn [fst snd]. destruct (HP i c) as (P1 & P2). apply chunk_visits_perm; [exact Hp| |exact P1|exact P2].
  intros L. specialize (H (snd c - 1)). unfold chunk_nodes in H. rewrite in_seq in H. lia.
Qed.

Lemma visits_of_chunks : forall cs s, (forall u, In u (nodes_of cs) -> u < length degs) ->
  Permutation (flat_map V (combine (seq s (length cs)) cs)) (nodes_of cs).
Proof using Hp Hr HP.
  induction cs as [|c cs IH]; intros s H; [constructor|]. cbn [length seq combine flat_map nodes_of].
  apply Permutation_app; [apply visits_of_chunk|apply IH]; intros u I; apply H; apply in_or_app; [left|right]; exact I.
Qed.

Lemma visits_grouped : forall cs s, (forall u, In u (nodes_of (concat cs)) -> u < length degs) ->
  exists ls, flat_map V (combine (seq s (length (concat cs))) (concat cs)) = concat ls /\ Forall2 (@Permutation nat) (map nodes_of cs) ls.
Proof using Hp Hr HP.
  induction cs as [|l cs IH]; intros s H; [exists []; split; [reflexivity|constructor]|].
  cbn [concat] in H |- *. rewrite nodes_of_app in H.
  destruct (IH (s + length l)) as (ls & E & F); [intros u I; apply H; apply in_or_app; right; exact I|].
  exists (flat_map V (combine (seq s (length l)) l) :: ls). split.
  - cbn [concat]. rewrite <- E, app_length, seq_app. rewrite <- flat_map_app. f_equal.
    clear. generalize (concat cs). intros r. revert s. induction l as [|c l IH]; intros s; cbn; [rewrite Nat.add_0_r; reflexivity|].
    f_equal. rewrite <- Nat.add_succ_comm. apply IH.
  - cbn [map]. constructor; [|exact F]. apply Permutation_sym, visits_of_chunks. intros u I. apply H. apply in_or_app. left. exact I.
Qed.

Variable active : nat -> bool.

Lemma perform_split passed cs : exists rest, filter (fun u => active u && (deg degs u <? max_degree)) (flat_map V (combine (seq 0 (length cs)) cs)) =
  perform degs psize range max_degree perms active passed cs ++ rest /\ (passed = None -> rest = []).
Proof.
  unfold perform. destruct passed as [p|].
  - set (tasks := combine _ _). exists (filter (fun u => active u && (deg degs u <? max_degree)) (flat_map V (skipn p tasks))). split; [|discriminate].
    rewrite <- (firstn_skipn p tasks) at 1. rewrite flat_map_app, filter_app. reflexivity.
  - exists []. rewrite app_nil_r. split; reflexivity.
Qed.

Lemma pass_ok passed cs lo hi : hi <= length degs -> cov degs lo hi (nodes_of cs) ->
  let vs := perform degs psize range max_degree perms active passed cs in
  visits_at_most_once degs max_degree lo hi active vs /\ (passed = None -> visits_all degs max_degree lo hi active vs).
Proof using Hp Hr HP.
  intros Hh (N & I & C) vs. assert (P : Permutation (flat_map V (combine (seq 0 (length cs)) cs)) (nodes_of cs)).
  { apply visits_of_chunks. intros u Iu. specialize (I u Iu). lia. }
  destruct (perform_split passed cs) as (rest & E & Er). fold vs in E. set (all := flat_map V _) in *.
  assert (Na : NoDup (vs ++ rest)) by (rewrite <- E; apply NoDup_filter; exact (Permutation_NoDup (Permutation_sym P) N)).
  split; [split|].
  - clear - Na. induction vs as [|x vs IH]; [constructor|]. cbn in Na. inversion Na; subst. constructor; [intros X; apply H1; apply in_or_app; left; exact X|auto].
  - intros u Iu. assert (Iu2 : In u (vs ++ rest)) by (apply in_or_app; left; exact Iu). rewrite <- E in Iu2.
    apply filter_In in Iu2 as (Ia & B). apply andb_true_iff in B as (B1 & B2). apply Nat.ltb_lt in B2.
    split; [apply I; exact (Permutation_in _ P Ia)|]. split; [exact B2|exact B1].
  - intros Hn u Hu Hd Ha. rewrite (Er Hn), app_nil_r in E. rewrite <- E. apply filter_In. split.
    + apply (Permutation_in _ (Permutation_sym P)). apply C; [exact Hu|lia].
    + apply andb_true_iff. split; [exact Ha|]. apply Nat.ltb_lt. unfold deg. lia.
Qed.

Lemma ord_filter {A} (R : A -> A -> Prop) f l : ForallOrdPairs R l -> ForallOrdPairs R (filter f l).
Proof.
  induction 1 as [|a l F O IH]; [constructor|]. cbn. destruct (f a); [|exact IH]. constructor; [|exact IH].
  apply Forall_forall. intros x I. apply filter_In in I as (I & _). rewrite Forall_forall in F. exact (F x I).
Qed.
Lemma ord_prefix {A} (R : A -> A -> Prop) l r : ForallOrdPairs R (l ++ r) -> ForallOrdPairs R l.
Proof.
  induction l as [|a l IH]; intros H; [constructor|]. cbn in H. inversion H as [|? ? F O]; subst. constructor; [|exact (IH O)].
  apply Forall_forall. intros x I. rewrite Forall_forall in F. apply F. apply in_or_app. left. exact I.
Qed.

Lemma pass_ordered passed cs : buckets_ok (length degs) bk nb -> (forall u, In u (nodes_of (concat cs)) -> u < length degs) ->
  groups bk nb 0 (map nodes_of cs) -> smaller_buckets_first bk nb (perform degs psize range max_degree perms active passed (concat cs)).
Proof using Hp Hr HP.
  intros HB I G. destruct (visits_grouped cs 0 I) as (ls & E & F).
  destruct (perform_split passed (concat cs)) as (rest & E2 & _).
  apply ord_prefix with (r := rest). rewrite <- E2. apply ord_filter. rewrite E.
  exact (proj1 (groups_ordered degs bk nb HB ls 0 (groups_perm bk nb _ _ 0 F G))).
Qed.
End Pass.

(** ** Iterations *)
Lemma shuffle_perm (sh : nat -> list chunk -> list chunk) : (forall b cs, Permutation (sh b cs) cs) -> forall cs s,
  Forall2 (@Permutation chunk) cs (map (fun bc => sh (fst bc) (snd bc)) (combine (seq s (length cs)) cs)).
Proof.
  intros H. induction cs as [|c cs IH]; intros s; [constructor|]. cbn. constructor; [apply Permutation_sym, H|apply IH].
Qed.

Lemma perm_concat {A} (l l' : list (list A)) : Forall2 (@Permutation A) l l' -> Permutation (concat l) (concat l').
Proof. induction 1; cbn; [constructor|]. apply Permutation_app; assumption. Qed.

Lemma perm_map_nodes l l' : Forall2 (@Permutation chunk) l l' -> Forall2 (@Permutation nat) (map nodes_of l) (map nodes_of l').
Proof. induction 1; cbn; constructor; [apply nodes_of_perm; assumption|assumption]. Qed.

Lemma log2_nat_N n : N.to_nat (N.log2 (N.of_nat n)) = Nat.log2 n.
Proof.
  destruct n as [|n]; [reflexivity|]. pose proof (N.log2_spec (N.of_nat (S n)) ltac:(lia)) as (A & B).
  symmetry. apply Nat.log2_unique; [lia|]. set (k := N.log2 (N.of_nat (S n))) in *.
  assert (E1 : N.to_nat (2 ^ k) = 2 ^ N.to_nat k) by (rewrite N2Nat.inj_pow; reflexivity).
  assert (E2 : N.to_nat (2 ^ N.succ k) = 2 ^ S (N.to_nat k)) by (rewrite N2Nat.inj_pow, N2Nat.inj_succ; reflexivity).
  split; [rewrite <- E1|rewrite <- E2]; lia.
Qed.

Section Iter.
Variables (degs bk : list nat) (nb maxe maxn psize range max_degree : nat).
Hypothesis HB : buckets_ok (length degs) bk nb.
Hypothesis Hm : 1 <= maxn.
Hypothesis Hp : 1 <= psize.
Hypothesis Hr : length degs + psize <= range.
Hypothesis Hd : 1 <= max_degree.
Hypothesis Hw : (N.of_nat max_degree < 2 ^ 32)%N.

Lemma max_bucket_some : max_bucket nb max_degree = Some (Nat.min (Nat.log2 max_degree) nb).
Proof. unfold max_bucket. rewrite floor_log2_some by lia. cbn [option_map]. rewrite log2_nat_N. reflexivity. Qed.

Let hi := visited_end bk nb max_degree.
Lemma hi_le : hi <= length degs.
Proof. destruct HB as (_ & E & _). rewrite <- E. apply (first_mono degs bk nb HB); lia. Qed.

Lemma clamp_le to : clamp_to degs to <= length degs.
Proof. unfold clamp_to. destruct to; lia. Qed.

Lemma init_chunks_ok from to dist : from <= clamp_to degs to -> (forall b m, distribution_ok m (dist b m)) ->
  exists cs, init_chunks degs bk nb maxe maxn max_degree from to dist = Some cs /\
    cov degs from (Nat.min (clamp_to degs to) hi) (nodes_of (concat cs)) /\ groups bk nb 0 (map nodes_of cs).
Proof.
  intros Hf D. unfold init_chunks. rewrite max_bucket_some. cbn [option_map]. eexists. split; [reflexivity|].
  set (mb := Nat.min (Nat.log2 max_degree) nb). assert (E0 : nth 0 bk 0 = 0) by (apply HB).
  split.
  - pose proof (bucket_loop_cov degs bk nb maxe maxn HB Hm from (clamp_to degs to) dist Hf D mb 0 ltac:(lia)) as C.
    rewrite E0 in C. cbn [plus] in C. fold mb in hi. change (nth mb bk 0) with hi in C. unfold within in C.
    destruct C as (C1 & C2 & C3). split; [exact C1|]. split; [intros u I; specialize (C2 u I); lia|]. intros u I P. apply C3; [lia|exact P].
  - pose proof (bucket_loop_groups degs bk nb maxe maxn HB Hm from (clamp_to degs to) dist Hf D mb 0 ltac:(lia)) as C. rewrite E0 in C. exact C.
Qed.

(** The pass over shuffled chunks. *)
Lemma shuffled_pass it cs lo e : iteration_ok psize it -> e <= length degs -> cov degs lo e (nodes_of (concat cs)) -> groups bk nb 0 (map nodes_of cs) ->
  let cs' := map (fun bc => it_shuffle it (fst bc) (snd bc)) (combine (seq 0 (length cs)) cs) in
  cov degs lo e (nodes_of (concat cs')) /\ groups bk nb 0 (map nodes_of cs') /\
  iteration_visits degs bk nb max_degree lo e it (perform degs psize range max_degree (it_perms it) (it_active it) (it_passed it) (concat cs')).
Proof.
  intros (_ & Sh & P) He C G cs'. pose proof (shuffle_perm (it_shuffle it) Sh cs 0) as F. fold cs' in F.
  assert (C' : cov degs lo e (nodes_of (concat cs'))) by (apply (cov_perm degs _ _ (nodes_of (concat cs))); [apply nodes_of_perm, perm_concat; exact F|exact C]).
  assert (G' : groups bk nb 0 (map nodes_of cs')) by (apply (groups_perm bk nb (map nodes_of cs)); [apply perm_map_nodes; exact F|exact G]).
  split; [exact C'|]. split; [exact G'|]. split.
  - intros ws Pw. destruct (pass_ok degs psize range max_degree (it_perms it) Hp Hr P (it_active it) (it_passed it) (concat cs') lo e He C') as ((N & I) & A).
    split; [split|].
    + exact (Permutation_NoDup (Permutation_sym Pw) N).
    + intros u Iu. apply I. exact (Permutation_in _ Pw Iu).
    + intros Hn u Hu Hg Ha. apply (Permutation_in _ (Permutation_sym Pw)). exact (A Hn u Hu Hg Ha).
  - apply pass_ordered; [exact Hp|exact Hr|exact P|exact HB| |exact G'].
    intros u Iu. destruct C' as (_ & I & _). specialize (I u Iu). lia.
Qed.

Definition kept (cs : list (list chunk)) : Prop := concat cs = [] \/ (cov degs 0 hi (nodes_of (concat cs)) /\ groups bk nb 0 (map nodes_of cs)).

Lemma full_iteration it cs : iteration_ok psize it -> it_from it = 0 -> it_to it = None -> kept cs ->
  exists cs' vs, perform_iteration degs bk nb maxe maxn psize range max_degree it cs = Some (cs', vs) /\ kept cs' /\
    iteration_visits degs bk nb max_degree 0 hi it vs.
Proof.
  intros K Ef Et Kc. unfold perform_iteration. rewrite Ef, Et. cbn [negb orb Nat.eqb].
  assert (Q : exists cs2, (match concat cs with [] => init_chunks degs bk nb maxe maxn max_degree 0 None (it_dist it) | _ => Some cs end) = Some cs2 /\
    cov degs 0 hi (nodes_of (concat cs2)) /\ groups bk nb 0 (map nodes_of cs2)).
  { destruct (init_chunks_ok 0 None (it_dist it) ltac:(lia) (proj1 K)) as (cs0 & E0 & C0 & G0).
    cbn [clamp_to] in C0. rewrite Nat.min_r in C0 by apply hi_le.
    destruct Kc as [E|(C & G)]; [rewrite E; exists cs0; split; [exact E0|split; assumption]|].
    destruct (concat cs) eqn:Ec; [exists cs0; split; [exact E0|split; assumption]|]. exists cs. rewrite Ec. split; [reflexivity|split; assumption]. }
  destruct Q as (cs2 & -> & C & G). cbn [option_map].
  destruct (shuffled_pass it cs2 0 hi K hi_le C G) as (C' & G' & V).
  eexists _, _. split; [reflexivity|]. split; [right; split; assumption|exact V].
Qed.

Lemma full_iterations its : forall cs, kept cs -> Forall (fun it => iteration_ok psize it /\ it_from it = 0 /\ it_to it = None) its ->
  exists vss, iterations degs bk nb maxe maxn psize range max_degree its cs = Some vss /\
    Forall2 (iteration_visits degs bk nb max_degree 0 hi) its vss.
Proof.
  induction its as [|it its IH]; intros cs K F; [exists []; split; [reflexivity|constructor]|].
  inversion F as [|? ? (F1 & F2 & F3) F4]; subst. cbn [iterations].
  destruct (full_iteration it cs F1 F2 F3 K) as (cs' & vs & E & K' & V). rewrite E.
  destruct (IH cs' K' F4) as (vss & E2 & V2). rewrite E2. exists (vs :: vss). split; [reflexivity|]. constructor; assumption.
Qed.

Lemma ranged_iteration it cs : iteration_ok psize it -> it_from it <> 0 \/ it_to it <> None -> it_from it <= clamp_to degs (it_to it) ->
  exists cs' vs, perform_iteration degs bk nb maxe maxn psize range max_degree it cs = Some (cs', vs) /\
    iteration_visits degs bk nb max_degree (it_from it) (Nat.min (clamp_to degs (it_to it)) hi) it vs.
Proof.
  intros K Hc Hf. unfold perform_iteration.
  assert (E : (negb (it_from it =? 0) || match it_to it with Some _ => true | None => false end) = true).
  { destruct Hc as [N|N]; [apply Nat.eqb_neq in N; rewrite N; reflexivity|]. destruct (it_to it); [apply orb_true_r|contradiction]. }
  rewrite E. cbn [concat]. destruct (init_chunks_ok (it_from it) (it_to it) (it_dist it) Hf (proj1 K)) as (cs2 & -> & C & G). cbn [option_map].
  pose proof hi_le as HL.
  destruct (shuffled_pass it cs2 _ (Nat.min (clamp_to degs (it_to it)) hi) K ltac:(lia) C G) as (C' & G' & V).
  eexists _, _. split; [reflexivity|exact V].
Qed.
End Iter.

Lemma iterations_ok degs bk nb maxe maxn psize range max_degree its : buckets_ok (length degs) bk nb -> 1 <= maxn -> 1 <= psize ->
  length degs + psize <= range -> 1 <= max_degree -> (N.of_nat max_degree < 2 ^ 32)%N ->
  Forall (fun it => iteration_ok psize it /\ it_from it = 0 /\ it_to it = None) its ->
  exists vss, iterations degs bk nb maxe maxn psize range max_degree its [] = Some vss /\
    Forall2 (iteration_visits degs bk nb max_degree 0 (visited_end bk nb max_degree)) its vss.
Proof.
  intros HB Hm Hp Hr Hd Hw F. apply full_iterations; auto. left. reflexivity.
Qed.

(** ** Unsorted graphs: one bucket *)
Lemma unsorted_ok degs maxe maxn psize range max_degree its : 1 <= maxn -> 1 <= psize ->
  length degs + psize <= range -> 1 <= max_degree -> (N.of_nat max_degree < 2 ^ 32)%N ->
  Forall (fun it => iteration_ok psize it /\ it_from it = 0 /\ it_to it = None) its ->
  exists vss, iterations degs [0; length degs] 1 maxe maxn psize range max_degree its [] = Some vss /\
    Forall2 (iteration_visits degs [0; length degs] 1 max_degree 0 (length degs)) its vss.
Proof.
  intros Hm Hp Hr Hd Hw F.
  assert (HB : buckets_ok (length degs) [0; length degs] 1).
  { split; [reflexivity|]. split; [reflexivity|]. intros b Hb. assert (b = 0) by lia. subst. cbn. lia. }
  destruct (iterations_ok degs _ 1 maxe maxn psize range max_degree its HB Hm Hp Hr Hd Hw F) as (vss & E & V).
  exists vss. split; [exact E|]. revert V. clear - Hd. intros V. induction V as [|it vs its vss H V IH]; [constructor|]. constructor; [|exact IH].
  destruct H as (H & O). split; [|exact O]. intros ws P. destruct (H ws P) as ((N & I) & A).
  assert (B : visited_end [0; length degs] 1 max_degree <= length degs).
  { unfold visited_end. destruct (Nat.min (Nat.log2 max_degree) 1) as [|[|x]] eqn:Em; cbn; lia. }
  split; [split; [exact N|]|].
  - intros u Iu. destruct (I u Iu) as (X & Y). split; [lia|exact Y].
  - intros Hn u Hu Hg Ha. apply (A Hn u); [|exact Hg|exact Ha]. split; [lia|].
    unfold visited_end. assert (L : 1 <= Nat.log2 max_degree) by (change 1 with (Nat.log2 2); apply Nat.log2_le_mono; lia).
    rewrite Nat.min_r by lia. cbn. lia.
Qed.

(** ** Degree-sorted graphs *)
Lemma sorted_end degs bk nb max_degree u : degree_buckets_ok degs bk nb -> u < length degs -> 0 < nth u degs 0 ->
  (u < visited_end bk nb max_degree <-> S (Nat.log2 (nth u degs 0)) < Nat.log2 max_degree).
Proof.
  intros (HB & D) Hu Hg. specialize (D u Hu). cbn zeta in D.
  assert (E : (match nth u degs 0 with 0 => 0 | d => S (Nat.log2 d) end) = S (Nat.log2 (nth u degs 0))) by (destruct (nth u degs 0); [lia|reflexivity]).
  rewrite E in D. clear E. destruct D as (D1 & D2). set (b := S (Nat.log2 (nth u degs 0))) in *. unfold visited_end. set (mb := Nat.log2 max_degree).
  split; intros H.
  - destruct (Nat.lt_ge_cases b mb) as [L|G]; [exact L|]. pose proof (first_mono degs bk nb HB (Nat.min mb nb) b ltac:(lia) ltac:(lia)). lia.
  - pose proof (first_mono degs bk nb HB (S b) (Nat.min mb nb) ltac:(lia) ltac:(lia)). lia.
Qed.

Lemma log2_lt_threshold d m : 0 < d -> 2 <= m -> (S (Nat.log2 d) < Nat.log2 m <-> d < 2 ^ (Nat.log2 m - 1)).
Proof.
  intros Hd Hm. assert (L : 1 <= Nat.log2 m) by (change 1 with (Nat.log2 2); apply Nat.log2_le_mono; lia).
  rewrite (Nat.log2_lt_pow2 d (Nat.log2 m - 1) Hd). lia.
Qed.

Lemma sorted_ok degs bk nb maxe maxn psize range max_degree its : degree_buckets_ok degs bk nb -> 1 <= maxn -> 1 <= psize ->
  length degs + psize <= range -> 2 <= max_degree -> (N.of_nat max_degree < 2 ^ 32)%N ->
  Forall (fun it => iteration_ok psize it /\ it_from it = 0 /\ it_to it = None) its ->
  exists vss, iterations degs bk nb maxe maxn psize range max_degree its [] = Some vss /\
    Forall2 (fun it vs => forall ws, Permutation ws vs -> NoDup ws /\
      forall u, u < length degs -> 0 < nth u degs 0 ->
        (In u ws -> nth u degs 0 < 2 ^ (Nat.log2 max_degree - 1) /\ it_active it u = true) /\
        (it_passed it = None -> nth u degs 0 < 2 ^ (Nat.log2 max_degree - 1) -> it_active it u = true -> In u ws)) its vss.
Proof.
  intros HD Hm Hp Hr Hd Hw F. destruct (iterations_ok degs bk nb maxe maxn psize range max_degree its (proj1 HD) Hm Hp Hr ltac:(lia) Hw F) as (vss & E & V).
  exists vss. split; [exact E|]. revert V. clear - HD Hd. intros V. induction V as [|it vs its vss (H & _) V IH]; constructor; [|exact IH].
  intros ws P. destruct (H ws P) as ((N & I) & A). split; [exact N|]. intros u Hu Hg.
  pose proof (sorted_end degs bk nb max_degree u HD Hu Hg) as S1. pose proof (log2_lt_threshold _ max_degree Hg Hd) as S2.
  split.
  - intros Iu. destruct (I u Iu) as ((_ & X) & _ & Ha). split; [apply S2, S1; exact X|exact Ha].
  - intros Hn Hl Ha. apply (A Hn u); [split; [lia|apply S1, S2; exact Hl]| |exact Ha]. split; [exact Hg|].
    eapply Nat.lt_le_trans; [exact Hl|]. eapply Nat.le_trans; [|apply (Nat.log2_spec max_degree); lia]. apply Nat.pow_le_mono_r; lia.
Qed.

(** ** The order of initial bipartitioning *)
Lemma combine_seq_flat {A} (f : A -> list nat) (g : nat * A -> list nat) : (forall i c, Permutation (g (i, c)) (f c)) -> forall l s,
  Permutation (concat (map g (combine (seq s (length l)) l))) (flat_map f l).
Proof.
  intros H. induction l as [|a l IH]; intros s; [constructor|]. cbn [length seq combine map concat flat_map]. apply Permutation_app; [apply H|apply IH].
Qed.

Lemma initial_bucket_perm bk csize shuf perms b : 1 <= csize -> nth b bk 0 <= nth (S b) bk 0 ->
  Permutation (shuf b) (seq 0 ((nth (S b) bk 0 - nth b bk 0) / csize)) -> (forall i, Permutation (perms b i) (seq 0 csize)) ->
  Permutation (initial_bucket bk csize shuf perms b) (seq (nth b bk 0) (nth (S b) bk 0 - nth b bk 0)).
Proof.
  intros Hc Hb P1 P2. unfold initial_bucket. set (first := nth b bk 0). set (size := nth (S b) bk 0 - first).
  change (Permutation (shuf b) (seq 0 (size / csize))) in P1.
  pose proof (Nat.div_mod size csize ltac:(lia)) as DM. set (q := size / csize) in *. set (r := size mod csize) in *.
  eapply Permutation_trans.
  { apply Permutation_app; [|apply Permutation_refl].
    apply (combine_seq_flat (fun c => map (fun p => first + csize * c + p) (seq 0 csize))).
    intros i c. cbn [fst snd]. rewrite (Nat.mul_comm c csize). apply Permutation_map, P2. }
  eapply Permutation_trans; [apply Permutation_app; [apply Permutation_flat_map; exact P1|apply Permutation_refl]|].
  rewrite flat_map_seq_blocks.
  assert (E : forall k x s, map (fun p => x + p) (seq s k) = seq (x + s) k).
  { clear. induction k as [|k IH]; intros x s; [reflexivity|]. cbn [seq map]. rewrite IH, Nat.add_succ_r. reflexivity. }
  rewrite E, Nat.add_0_r. replace (first + size - r) with (first + q * csize) by lia. rewrite <- seq_app.
  replace (q * csize + r) with size by lia. apply Permutation_refl.
Qed.

Lemma initial_order_ok n bk nb csize threshold shuf perms : buckets_ok n bk nb -> 1 <= csize -> 1 <= threshold -> (N.of_nat threshold < 2 ^ 32)%N ->
  (forall b, b < nb -> Permutation (shuf b) (seq 0 ((nth (S b) bk 0 - nth b bk 0) / csize))) -> (forall b i, Permutation (perms b i) (seq 0 csize)) ->
  exists vs, initial_order bk nb csize threshold shuf perms = Some vs /\
    Permutation vs (seq 0 (visited_end bk nb threshold)) /\ smaller_buckets_first bk nb vs.
Proof.
  intros HB Hc Ht Hw P1 P2. unfold initial_order. rewrite floor_log2_some by lia. cbn [option_map]. rewrite log2_nat_N.
  eexists. split; [reflexivity|]. unfold visited_end. set (mb := Nat.min (Nat.log2 threshold) nb). assert (Hmb : mb <= nb) by lia. clearbody mb.
  set (degs := repeat 0 n). assert (Ln : length degs = n) by apply repeat_length. rewrite <- Ln in HB. clearbody degs.
  assert (B : forall b, b < nb -> Permutation (initial_bucket bk csize shuf perms b) (seq (nth b bk 0) (nth (S b) bk 0 - nth b bk 0))).
  { intros b Hb. apply initial_bucket_perm; [exact Hc| |apply P1; exact Hb|apply P2]. apply (first_mono degs bk nb HB); lia. }
  split.
  - assert (Q : forall m, m <= nb -> Permutation (flat_map (initial_bucket bk csize shuf perms) (seq 0 m)) (seq 0 (nth m bk 0))); [|exact (Q mb Hmb)].
    induction m as [|m IH]; intros Lm.
    + destruct HB as (E & _). rewrite E. constructor.
    + rewrite seq_S, flat_map_app. cbn [flat_map plus]. rewrite app_nil_r.
      eapply Permutation_trans; [apply Permutation_app; [apply IH; lia|apply B; lia]|].
      apply Permutation_refl'. pose proof (first_mono degs bk nb HB m (S m) ltac:(lia) ltac:(lia)).
      replace (nth (S m) bk 0) with (nth m bk 0 + (nth (S m) bk 0 - nth m bk 0)) at 2 by lia. rewrite seq_app. reflexivity.
  - rewrite flat_map_concat_map. apply (groups_ordered degs bk nb HB _ 0).
    assert (Q : forall k b, b + k <= nb -> groups bk nb b (map (initial_bucket bk csize shuf perms) (seq b k))); [|apply Q; exact Hmb].
    induction k as [|k IH]; intros b Hb; [exact I|]. cbn [seq map groups]. exists b. split; [lia|]. split; [|apply IH; lia].
    intros u Iu. apply (Permutation_in _ (B b ltac:(lia))) in Iu. apply in_seq in Iu. lia.
Qed.

Lemma nth_repeat_lt {A} (x y : A) n i : i < n -> nth i (repeat x n) y = x.
Proof. revert i. induction n as [|n IH]; intros [|i] H; try lia; [reflexivity|]. cbn. apply IH. lia. Qed.

(** ** No node of a complete graph of suitable size is visited *)
Lemma complete_buckets d : 1 <= d -> degree_buckets_ok (repeat d (S d)) (repeat 0 (S (S (Nat.log2 d))) ++ [S d]) (S (S (Nat.log2 d))).
Proof.
  intros Hd. set (L := Nat.log2 d).
  assert (N0 : forall i, i <= S L -> nth i (repeat 0 (S (S L)) ++ [S d]) 0 = 0).
  { intros i Hi. rewrite app_nth1 by (rewrite repeat_length; lia). apply nth_repeat_lt. lia. }
  assert (N1 : nth (S (S L)) (repeat 0 (S (S L)) ++ [S d]) 0 = S d).
  { rewrite app_nth2; rewrite repeat_length; [rewrite Nat.sub_diag; reflexivity|lia]. }
  split; [split; [|split]|].
  - apply N0. lia.
  - rewrite repeat_length. exact N1.
  - intros b Hb. destruct (Nat.eq_dec b (S L)) as [->|D]; [rewrite (N0 (S L)) by lia; lia|]. rewrite !N0 by lia. lia.
  - intros u Hu. rewrite repeat_length in Hu. rewrite nth_repeat_lt by exact Hu. destruct d as [|d']; [lia|]. cbn zeta. fold L.
    split; [lia|]. rewrite N0, N1 by lia. lia.
Qed.
