(* Proofs about the checks for undirected input graphs. *)
From Coq Require Import Sorting.Sorted.
From Verif Require Import Lib.Prelude Spec.Graph Spec.Gain Spec.Symmetric Model.ValidateModel Proofs.CsrProofs.

Lemma tuple_lt_spec a b : tuple_lt a b = true <-> fst a < fst b \/ fst a = fst b /\ (snd a < snd b)%Z.
Proof.
  unfold tuple_lt. rewrite Bool.orb_true_iff, Bool.andb_true_iff, Nat.ltb_lt, Nat.eqb_eq, Z.ltb_lt. tauto.
Qed.
Lemma tuple_ge_le a b : tuple_lt a b = false -> tuple_le a b = true -> a = b.
Proof.
  destruct a as [a1 a2], b as [b1 b2]. intros H1 H2. unfold tuple_le in H2. apply Bool.negb_true_iff in H2.
  assert (~ tuple_lt (a1, a2) (b1, b2) = true) as N1 by congruence. assert (~ tuple_lt (b1, b2) (a1, a2) = true) as N2 by congruence.
  rewrite tuple_lt_spec in N1, N2. cbn [fst snd] in *. assert (a1 = b1) by lia. assert (a2 = b2) by lia. congruence.
Qed.

(** The result of the halving is the end or a position whose entry is not smaller. *)
Lemma lower_bound_pos : forall fuel r first len val, len <= fuel ->
  let i := lower_bound fuel r first len val in
  first <= i <= first + len /\ (i < first + len -> tuple_lt (nth i r (0, 0%Z)) val = false).
Proof.
  induction fuel as [|f IH]; intros r first len val Hl; cbn [lower_bound].
  - split; [lia|]. lia.
  - destruct (Nat.eqb_spec len 0) as [->|Hn]; [split; lia|]. pose proof (Nat.div_lt len 2 ltac:(lia) ltac:(lia)) as Hh. set (half := len / 2) in *.
    destruct (tuple_lt (nth (first + half) r (0, 0%Z)) val) eqn:E.
    + specialize (IH r (S (first + half)) (len - half - 1) val ltac:(lia)). cbv zeta in IH. destruct IH as [A B]. split; [lia|]. intros Hi. apply B. lia.
    + specialize (IH r first half val ltac:(lia)). cbv zeta in IH. destruct IH as [A B]. split; [lia|]. intros Hi.
      destruct (Nat.eq_dec (lower_bound f r first half val) (first + half)) as [->|]; [exact E|]. apply B. lia.
Qed.
(** If the entries before [k] are smaller and those from [k] on are not, the result is [k]. *)
Lemma lower_bound_exact : forall fuel r first len val k, len <= fuel -> first <= k <= first + len ->
  (forall j, first <= j < k -> tuple_lt (nth j r (0, 0%Z)) val = true) -> (forall j, k <= j < first + len -> tuple_lt (nth j r (0, 0%Z)) val = false) ->
  lower_bound fuel r first len val = k.
Proof.
  induction fuel as [|f IH]; intros r first len val k Hl Hk H1 H2; cbn [lower_bound]; [lia|].
  destruct (Nat.eqb_spec len 0) as [->|Hn]; [lia|]. pose proof (Nat.div_lt len 2 ltac:(lia) ltac:(lia)) as Hh. set (half := len / 2) in *.
  destruct (tuple_lt (nth (first + half) r (0, 0%Z)) val) eqn:E.
  - destruct (Nat.lt_ge_cases (first + half) k) as [Hlt|Hge]; [|rewrite (H2 (first + half)) in E by lia; discriminate].
    apply IH; [lia|lia|intros; apply H1; lia|intros; apply H2; lia].
  - destruct (Nat.lt_ge_cases (first + half) k) as [Hlt|Hge]; [rewrite (H1 (first + half)) in E by lia; discriminate|].
    apply IH; [lia|lia|intros; apply H1; lia|intros; apply H2; lia].
Qed.

Lemma binary_find_sound r val i : binary_find r val = Some i -> In val r.
Proof.
  unfold binary_find. set (j := lower_bound _ _ _ _ _). destruct (Nat.eqb_spec j (length r)) as [E|E]; cbn [negb andb]; [discriminate|].
  destruct (tuple_le (nth j r (0, 0%Z)) val) eqn:Et; [|discriminate]. intros _.
  pose proof (lower_bound_pos (length r) r 0 (length r) val (le_n _)) as [A B]. fold j in A, B. cbn [Nat.add] in *.
  rewrite <- (tuple_ge_le _ _ (B ltac:(lia)) Et). apply nth_In. lia.
Qed.
Lemma sorted_nth r i j : StronglySorted (fun a b : nat * Z => fst a <= fst b) r -> i <= j < length r -> fst (nth i r (0, 0%Z)) <= fst (nth j r (0, 0%Z)).
Proof.
  intros H. revert i j. induction H as [|a r Hs IH Hf]; intros i j Hij; cbn [length] in Hij; [lia|].
  destruct i as [|i], j as [|j]; cbn [nth]; try lia.
  - rewrite Forall_forall in Hf. apply Hf, nth_In. lia.
  - apply IH. lia.
Qed.
Lemma binary_find_complete r val : StronglySorted (fun a b : nat * Z => fst a <= fst b) r -> NoDup (map fst r) -> In val r -> exists i, binary_find r val = Some i.
Proof.
  intros Hs Hd Hi. destruct (In_nth r val (0, 0%Z) Hi) as (k & Hk & Ek).
  assert (Lt : forall i j, i < j < length r -> fst (nth i r (0, 0%Z)) < fst (nth j r (0, 0%Z))).
  { intros i j Hij. pose proof (sorted_nth r i j Hs ltac:(lia)) as L. destruct (Nat.eq_dec (fst (nth i r (0, 0%Z))) (fst (nth j r (0, 0%Z)))) as [E|]; [|lia]. exfalso.
    rewrite NoDup_nth with (d := 0) in Hd. rewrite map_length in Hd. specialize (Hd i j ltac:(lia) ltac:(lia)).
    assert (M : forall x, nth x (map fst r) 0 = fst (nth x r (0, 0%Z))) by (intros x; exact (map_nth fst r (0, 0%Z) x)). rewrite !M in Hd. specialize (Hd E). lia. }
  assert (E : lower_bound (length r) r 0 (length r) val = k).
  { apply lower_bound_exact; [lia|lia| |].
    - intros j Hj. apply tuple_lt_spec. left. rewrite <- Ek. apply Lt. lia.
    - intros j Hj. cbn [Nat.add] in Hj. destruct (tuple_lt (nth j r (0, 0%Z)) val) eqn:Et; [|reflexivity]. exfalso. apply tuple_lt_spec in Et. rewrite <- Ek in Et.
      destruct (Nat.eq_dec j k) as [->|]; [lia|]. pose proof (Lt k j ltac:(lia)). lia. }
  exists k. unfold binary_find. rewrite E. destruct (Nat.eqb_spec k (length r)); [lia|]. cbn [negb andb]. rewrite Ek. unfold tuple_le.
  destruct (tuple_lt val val) eqn:Et; [|reflexivity]. apply tuple_lt_spec in Et. lia.
Qed.

Section Validate.
Variables (sort : nat -> list (nat * Z) -> list (nat * Z)) (xadj adjncy : list nat) (vw ew : list Z).
Hypothesis Hs : sorts_by_target sort.
Hypothesis Hwf : wf_csr xadj adjncy vw ew.
Let g := user_graph xadj adjncy vw ew.
Let n := length xadj - 1.
Lemma v_in u e : In e (sort u (v_row xadj adjncy ew u)) <-> In e (gadj g u).
Proof. destruct (Hs u (v_row xadj adjncy ew u)) as [P _]. split; intros H; [eapply Permutation_in; [exact P|exact H]|eapply Permutation_in; [symmetry; exact P|exact H]]. Qed.
Lemma v_inside : existsb (fun u => existsb (fun e => n <=? fst e) (sort u (v_row xadj adjncy ew u))) (seq 0 n) = false.
Proof.
  destruct (existsb _ _) eqn:E; [|reflexivity]. exfalso. apply existsb_exists in E. destruct E as (u & Hu & E). apply in_seq in Hu. apply existsb_exists in E.
  destruct E as ([v w] & Hi & E). apply Nat.leb_le in E. apply v_in in Hi. pose proof (user_graph_closed _ _ _ _ Hwf u v w ltac:(cbn; unfold n in *; lia) Hi) as Q. cbn in Q, E. unfold n in *. lia.
Qed.
Lemma v_multi_spec u : u < n -> v_multi xadj adjncy u = true <-> exists i, S i < length (gadj g u) /\ fst (nth i (gadj g u) (0, 0%Z)) = fst (nth (S i) (gadj g u) (0, 0%Z)).
Proof.
  intros Hu. assert (L : length (gadj g u) = nth (S u) xadj 0 - nth u xadj 0) by (cbn; now rewrite map_length, seq_length).
  assert (F : forall i, i < length (gadj g u) -> fst (nth i (gadj g u) (0, 0%Z)) = nth (nth u xadj 0 + i) adjncy 0).
  { intros i Hi. rewrite L in Hi. unfold g. cbn [user_graph gadj].
    match goal with |- fst (nth i (map ?f _) _) = _ => rewrite (nth_indep _ (0, 0%Z) (f 0)) by (rewrite map_length, seq_length; lia); rewrite (map_nth f), seq_nth by lia end. reflexivity. }
  unfold v_multi. rewrite existsb_exists. split.
  - intros (e & He & E). apply in_seq in He. apply Nat.eqb_eq in E. exists (e - S (nth u xadj 0)). rewrite L. split; [lia|]. rewrite !F by lia.
    replace (nth u xadj 0 + (e - S (nth u xadj 0))) with (e - 1) by lia. replace (nth u xadj 0 + S (e - S (nth u xadj 0))) with e by lia. exact E.
  - intros (i & Hi & E). rewrite !F in E by lia. exists (nth u xadj 0 + S i). split; [apply in_seq; lia|]. apply Nat.eqb_eq.
    replace (nth u xadj 0 + S i - 1) with (nth u xadj 0 + i) by lia. exact E.
Qed.
Lemma validate_sound : validate_undirected sort xadj adjncy ew = Accepted -> symmetric g /\
  forall u i, u < gn g -> S i < length (gadj g u) -> fst (nth i (gadj g u) (0, 0%Z)) <> fst (nth (S i) (gadj g u) (0, 0%Z)).
Proof.
  unfold validate_undirected. fold n. destruct (existsb (v_multi xadj adjncy) (seq 0 n)) eqn:Em; [discriminate|]. rewrite v_inside.
  destruct (forallb _ _) eqn:Ef; [|discriminate]. intros _. rewrite forallb_forall in Ef. split.
  - intros u v w Hu Hi. specialize (Ef u ltac:(apply in_seq; unfold n, g in *; cbn in *; lia)). rewrite forallb_forall in Ef.
    specialize (Ef (v, w) (proj2 (v_in u (v, w)) Hi)). cbn [fst snd] in Ef. destruct (binary_find _ _) eqn:Eb; [|discriminate].
    apply binary_find_sound in Eb. apply v_in in Eb. exact Eb.
  - intros u i Hu Hi E. assert (Hu' : u < n) by (unfold n, g in *; cbn in *; lia). assert (v_multi xadj adjncy u = true) as T by (apply v_multi_spec; [exact Hu'|eauto]).
    assert (existsb (v_multi xadj adjncy) (seq 0 n) = true); [|congruence]. apply existsb_exists. exists u. split; [apply in_seq; lia|exact T].
Qed.
Lemma validate_complete : symmetric g -> no_parallel_edges g -> validate_undirected sort xadj adjncy ew = Accepted.
Proof.
  intros Sy Np. unfold validate_undirected. fold n.
  assert (Em : existsb (v_multi xadj adjncy) (seq 0 n) = false).
  { destruct (existsb _ _) eqn:E; [|reflexivity]. exfalso. apply existsb_exists in E. destruct E as (u & Hu & E). apply in_seq in Hu.
    apply v_multi_spec in E; [|lia]. destruct E as (i & Hi & E). specialize (Np u ltac:(unfold n, g in *; cbn in *; lia)).
    rewrite NoDup_nth with (d := 0) in Np. rewrite map_length in Np. specialize (Np i (S i) ltac:(lia) ltac:(lia)).
    assert (M : forall x, nth x (map fst (gadj g u)) 0 = fst (nth x (gadj g u) (0, 0%Z))) by (intros x; exact (map_nth fst (gadj g u) (0, 0%Z) x)).
    rewrite !M in Np. specialize (Np E). lia. }
  rewrite Em, v_inside.
  destruct (forallb _ _) eqn:Ef; [reflexivity|]. exfalso. assert (T : forallb (fun u => forallb (fun e => match binary_find (sort (fst e) (v_row xadj adjncy ew (fst e))) (u, snd e) with Some _ => true | None => false end)
                                    (sort u (v_row xadj adjncy ew u))) (seq 0 n) = true); [|congruence].
  apply forallb_forall. intros u Hu. apply in_seq in Hu. apply forallb_forall. intros [v w] Hi. cbn [fst snd]. apply v_in in Hi.
  assert (Hu' : u < gn g) by (unfold n, g in *; cbn in *; lia). pose proof (user_graph_closed _ _ _ _ Hwf u v w Hu' Hi) as Hv.
  destruct (Hs v (v_row xadj adjncy ew v)) as [P S]. destruct (binary_find_complete _ (u, w) S) as [i ->]; [| |reflexivity].
  - apply Permutation_map with (f := fst) in P. eapply Permutation_NoDup; [symmetry; exact P|]. exact (Np v Hv).
  - apply v_in. apply Sy; auto.
Qed.
End Validate.

(** Parallel edges that are not neighbours in the edge array, and self-loops, are accepted. *)
Fixpoint ins (a : nat * Z) (l : list (nat * Z)) : list (nat * Z) :=
  match l with [] => [a] | b :: t => if fst a <=? fst b then a :: l else b :: ins a t end.
Definition isort_t (l : list (nat * Z)) : list (nat * Z) := fold_right ins [] l.
Lemma ins_perm a l : Permutation (ins a l) (a :: l).
Proof. induction l as [|b t IH]; cbn; [auto|]. destruct (fst a <=? fst b); [auto|]. rewrite IH. apply perm_swap. Qed.
Lemma ins_sorted a l : StronglySorted (fun a b => fst a <= fst b) l -> StronglySorted (fun a b : nat * Z => fst a <= fst b) (ins a l).
Proof.
  induction 1 as [|b t Ht IH Hf]; cbn; [repeat constructor|]. destruct (Nat.leb_spec (fst a) (fst b)).
  - constructor; [constructor; auto|]. constructor; [auto|]. rewrite Forall_forall in *. intros x Hx. specialize (Hf x Hx). lia.
  - constructor; [exact IH|]. rewrite Forall_forall in *. intros x Hx. apply (Permutation_in _ (ins_perm a t)) in Hx. destruct Hx as [<-|Hx]; [lia|auto].
Qed.
Lemma isort_sorts : sorts_by_target (fun _ => isort_t).
Proof.
  intros u r. induction r as [|a r [IH1 IH2]]; cbn; [split; constructor|]. split; [rewrite ins_perm, IH1; reflexivity|apply ins_sorted; exact IH2].
Qed.

(** debug::validate_graph *)
Section Debug.
Variables (xadj adjncy : list nat) (vw ew : list Z).
Let n := length xadj - 1.
Let g := user_graph xadj adjncy vw ew.
Lemma find_reverse_true m u e es : find_reverse n m u adjncy ew e es = Some true ->
  exists e', In e' es /\ nth e' adjncy 0 = u /\ (ew <> [] -> nth e ew 0%Z = nth e' ew 0%Z).
Proof.
  induction es as [|e' t IH]; cbn [find_reverse]; [discriminate|]. destruct (m <=? e'); [discriminate|]. destruct (n <=? nth e' adjncy 0); [discriminate|].
  destruct (Nat.eqb_spec u (nth e' adjncy 0)) as [E|E]; cbn [negb].
  - intros H. exists e'. split; [left; reflexivity|]. split; [congruence|]. intros Ne. destruct ew as [|x l]; [congruence|].
    destruct (Z.eqb_spec (nth e (x :: l) 0%Z) (nth e' (x :: l) 0%Z)); [auto|discriminate].
  - intros H. destruct (IH H) as (e2 & H2 & R). exists e2. split; [right; exact H2|exact R].
Qed.
Lemma find_reverse_complete m u e es : (forall e', In e' es -> e' < m /\ nth e' adjncy 0 < n) ->
  (exists e', In e' es /\ nth e' adjncy 0 = u) -> (forall e', In e' es -> nth e' adjncy 0 = u -> ew <> [] -> nth e ew 0%Z = nth e' ew 0%Z) ->
  find_reverse n m u adjncy ew e es = Some true.
Proof.
  induction es as [|e' t IH]; intros H (e0 & H0 & E0) Hw; [destruct H0|]. cbn [find_reverse]. destruct (H e' (or_introl eq_refl)) as [A B].
  destruct (Nat.leb_spec m e'); [lia|]. destruct (Nat.leb_spec n (nth e' adjncy 0)); [lia|].
  destruct (Nat.eqb_spec u (nth e' adjncy 0)) as [E|E]; cbn [negb].
  - case_eq ew; [reflexivity|]. intros x l Ex. rewrite <- Ex. rewrite (Hw e' (or_introl eq_refl) (eq_sym E)) by congruence. rewrite Z.eqb_refl. reflexivity.
  - apply IH; [intros; apply H; right; auto| |intros; apply Hw; auto; right; auto]. destruct H0 as [<-|H0]; [congruence|eauto].
Qed.
Lemma arc_in u v w : In (v, w) (gadj g u) <-> exists e, In e (seq (nth u xadj 0) (nth (S u) xadj 0 - nth u xadj 0)) /\ v = nth e adjncy 0 /\ w = match ew with [] => 1%Z | _ => nth e ew 0%Z end.
Proof.
  unfold g. cbn [user_graph gadj]. rewrite in_map_iff. split.
  - intros (e & E & H). exists e. split; [exact H|]. injection E as <- <-. auto.
  - intros (e & H & -> & ->). exists e. auto.
Qed.
Lemma debug_sound : 1 <= length xadj -> validate_graph n xadj adjncy vw ew = true -> closed_graph g /\ no_self_loops g /\ symmetric g /\
  (forall u, u < n -> nth u xadj 0 <= nth (S u) xadj 0).
Proof.
  intros Hx. unfold validate_graph. destruct (length xadj <? n + 1); [discriminate|]. destruct (negb (length vw =? 0) && (length vw <? n)); [discriminate|].
  destruct (negb (length ew =? 0) && (length ew <? nth n xadj 0)); [discriminate|]. destruct (existsb _ _) eqn:Em; [discriminate|].
  intros H. rewrite forallb_forall in H. assert (Gn : gn g = n) by reflexivity.
  assert (K : forall u e, u < n -> In e (seq (nth u xadj 0) (nth (S u) xadj 0 - nth u xadj 0)) -> nth e adjncy 0 < n /\ u <> nth e adjncy 0 /\
    exists e', In e' (seq (nth (nth e adjncy 0) xadj 0) (nth (S (nth e adjncy 0)) xadj 0 - nth (nth e adjncy 0) xadj 0)) /\ nth e' adjncy 0 = u /\ (ew <> [] -> nth e ew 0%Z = nth e' ew 0%Z)).
  { intros u e Hu He. specialize (H u ltac:(apply in_seq; lia)). rewrite forallb_forall in H. specialize (H e He).
    destruct (nth n xadj 0 <=? e); [discriminate|]. destruct (Nat.leb_spec n (nth e adjncy 0)); [discriminate|]. destruct (Nat.eqb_spec u (nth e adjncy 0)); [discriminate|].
    destruct (find_reverse _ _ _ _ _ _ _) as [[|]|] eqn:Er; try discriminate. split; [assumption|]. split; [assumption|]. exact (find_reverse_true _ _ _ _ Er). }
  split; [|split; [|split]].
  - intros u v w Hu Hi. apply arc_in in Hi. destruct Hi as (e & He & -> & _). rewrite Gn in *. apply (K u e Hu He).
  - intros u w Hu Hi. apply arc_in in Hi. destruct Hi as (e & He & E & _). rewrite Gn in *. destruct (K u e Hu He) as (_ & Q & _). congruence.
  - intros u v w Hu Hi. apply arc_in in Hi. destruct Hi as (e & He & -> & ->). rewrite Gn in *. destruct (K u e Hu He) as (_ & _ & e' & He' & E' & W).
    apply arc_in. exists e'. split; [exact He'|]. split; [congruence|]. destruct ew; [reflexivity|]. apply W. discriminate.
  - intros u Hu. destruct (Nat.le_gt_cases (nth u xadj 0) (nth (S u) xadj 0)) as [?|L]; [assumption|]. exfalso.
    assert (existsb (fun u => nth (S u) xadj 0 <? nth u xadj 0) (seq 0 n) = true); [|congruence]. apply existsb_exists. exists u.
    split; [apply in_seq; lia|]. apply Nat.ltb_lt. exact L.
Qed.
Lemma debug_complete : wf_csr xadj adjncy vw ew -> symmetric g -> simple_graph g -> validate_graph n xadj adjncy vw ew = true.
Proof.
  intros Hwf Sy Si. pose proof Hwf as (W0 & W1 & W2 & W3 & W4 & W5 & W6). unfold validate_graph. assert (Gn : gn g = n) by reflexivity.
  assert (E1 : length xadj <? n + 1 = false) by (apply Nat.ltb_ge; unfold n; lia). rewrite E1.
  assert (E2 : negb (length vw =? 0) && (length vw <? n) = false).
  { destruct W5 as [-> | W5]; [reflexivity|]. apply Bool.andb_false_iff. right. apply Nat.ltb_ge. unfold n. lia. } rewrite E2.
  assert (Em : nth n xadj 0 = length adjncy) by (rewrite last_nth in W3; exact W3).
  assert (E3 : negb (length ew =? 0) && (length ew <? nth n xadj 0) = false).
  { destruct W6 as [-> | W6]; [reflexivity|]. apply Bool.andb_false_iff. right. apply Nat.ltb_ge. lia. } rewrite E3.
  assert (E4 : existsb (fun u => nth (S u) xadj 0 <? nth u xadj 0) (seq 0 n) = false).
  { destruct (existsb _ _) eqn:E; [|reflexivity]. apply existsb_exists in E. destruct E as (u & Hu & E). apply in_seq in Hu. apply Nat.ltb_lt in E.
    specialize (W2 u). unfold n in *. lia. } rewrite E4.
  assert (Range : forall v e, v < n -> In e (seq (nth v xadj 0) (nth (S v) xadj 0 - nth v xadj 0)) -> e < length adjncy).
  { intros v e Hv He. apply in_seq in He. pose proof (wf_csr_range _ _ _ _ v Hwf Hv). lia. }
  assert (Tgt : forall e, e < length adjncy -> nth e adjncy 0 < n).
  { intros e He. specialize (W4 _ (nth_In adjncy 0 He)). unfold n. lia. }
  apply forallb_forall. intros u Hu. apply in_seq in Hu. apply forallb_forall. intros e He.
  pose proof (Range u e ltac:(lia) He) as He'. rewrite Em. destruct (Nat.leb_spec (length adjncy) e); [lia|].
  pose proof (Tgt e He') as Hv. destruct (Nat.leb_spec n (nth e adjncy 0)); [lia|].
  set (w := match ew with [] => 1%Z | _ => nth e ew 0%Z end).
  assert (Ia : In (nth e adjncy 0, w) (gadj g u)) by (apply arc_in; exists e; auto).
  destruct (Nat.eqb_spec u (nth e adjncy 0)) as [E|Hne].
  - exfalso. apply (proj2 (Si u ltac:(lia))). apply in_map_iff. exists (nth e adjncy 0, w). auto.
  - rewrite find_reverse_complete; [reflexivity| | |].
    + intros e2 H2. pose proof (Range _ _ Hv H2). split; [lia|auto].
    + pose proof (Sy u _ w ltac:(lia) Ia) as Ir. apply arc_in in Ir. destruct Ir as (e2 & H2 & E2' & _). exists e2. auto.
    + intros e2 H2 E2' Ne. pose proof (Sy u _ w ltac:(lia) Ia) as Ir.
      assert (I2 : In (u, nth e2 ew 0%Z) (gadj g (nth e adjncy 0))) by (apply arc_in; exists e2; split; [exact H2|]; split; [congruence|destruct ew; [congruence|reflexivity]]).
      assert (Ew : w = nth e ew 0%Z) by (unfold w; destruct ew; [congruence|reflexivity]). rewrite <- Ew.
      destruct (Si (nth e adjncy 0) ltac:(lia)) as [Nd _]. clear - Nd Ir I2. induction (gadj g (nth e adjncy 0)) as [|[a x] l IHl]; [destruct Ir|].
      cbn [map fst] in Nd. inversion Nd as [|? ? Nin Nd']; subst. destruct Ir as [Ei|Ir], I2 as [Ej|I2].
      * congruence.
      * exfalso. apply Nin. apply in_map_iff. exists (u, nth e2 ew 0%Z). split; [|exact I2]. cbn. congruence.
      * exfalso. apply Nin. apply in_map_iff. exists (u, w). split; [|exact Ir]. cbn. congruence.
      * auto.
Qed.
End Debug.
