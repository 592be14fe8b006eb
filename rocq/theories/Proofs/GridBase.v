(* Lists, collectives and the grid topology. *)
From Verif Require Import Lib.Prelude Model.GridModel.
From Coq Require Import Sorting.Sorted.

(** ** Lists *)
Lemma traverse_ok {A B} (f : A -> option B) h l : (forall x, In x l -> f x = Some (h x)) -> traverse f l = Some (map h l).
Proof. induction l as [|x t IH]; intros H; cbn [traverse map]; [reflexivity|]. rewrite (H x) by (left; reflexivity). cbn [bind]. rewrite IH by (intros y Hy; apply H; right; exact Hy). reflexivity. Qed.
Lemma nth_error_map_seq {A} (h : nat -> A) n i : i < n -> nth_error (map h (seq 0 n)) i = Some (h i).
Proof.
  intros H. rewrite (nth_error_nth' _ (h 0)) by (rewrite map_length, seq_length; exact H). f_equal. rewrite map_nth, seq_nth by exact H. reflexivity.
Qed.
Lemma displs_from_nth l : forall s i, i <= length l -> nth_error (displs_from s l) i = Some (s + list_sum (firstn i l)).
Proof.
  induction l as [|x t IH]; intros s i H; cbn [displs_from length] in *.
  - assert (i = 0) by lia. subst. cbn. f_equal. lia.
  - destruct i as [|i]; cbn [nth_error firstn list_sum fold_right]; [f_equal; lia|]. rewrite IH by lia. f_equal. cbn. unfold list_sum. lia.
Qed.
Lemma displs_nth l i : i <= length l -> nth_error (displs l) i = Some (list_sum (firstn i l)).
Proof. intros H. unfold displs. rewrite displs_from_nth by exact H. reflexivity. Qed.
Lemma length_concat {A} (L : list (list A)) : length (concat L) = list_sum (map (@length A) L).
Proof. induction L; cbn; [reflexivity|]. rewrite app_length, IHL. reflexivity. Qed.
Lemma concat_firstn_skipn {A} (L : list (list A)) i : concat L = concat (firstn i L) ++ concat (skipn i L).
Proof. rewrite <- concat_app, firstn_skipn. reflexivity. Qed.
Lemma skipn_nth {A} (L : list (list A)) i : i < length L -> skipn i L = nth i L [] :: skipn (S i) L.
Proof. revert i. induction L as [|x t IH]; intros i H; cbn [length] in H; [lia|]. destruct i; [reflexivity|]. cbn [skipn nth]. rewrite IH by lia. reflexivity. Qed.
Lemma slice_concat {A} (L : list (list A)) rest i : i < length L ->
  slice (concat L ++ rest) (list_sum (firstn i (map (@length A) L))) (length (nth i L [])) = Some (nth i L []).
Proof.
  intros H. unfold slice. rewrite firstn_map, <- length_concat.
  rewrite (concat_firstn_skipn L i), (skipn_nth L i H). cbn [concat]. rewrite !app_length. destruct (Nat.leb_spec (length (concat (firstn i L)) + length (nth i L [])) (length (concat (firstn i L)) + (length (nth i L []) + length (concat (skipn (S i) L))) + length rest)); [|lia].
  f_equal. rewrite <- app_assoc, skipn_app, skipn_all, Nat.sub_diag. cbn [skipn app]. rewrite <- app_assoc, firstn_app, firstn_all, Nat.sub_diag. cbn [firstn]. apply app_nil_r.
Qed.
Lemma put_next {A} (l rest t : list A) : length t <= length rest -> put (l ++ rest) (length l) t = Some ((l ++ t) ++ skipn (length t) rest).
Proof.
  intros H. unfold put. rewrite app_length. destruct (Nat.leb_spec (length l + length t) (length l + length rest)); [|lia]. f_equal.
  rewrite firstn_app, firstn_all, Nat.sub_diag. cbn [firstn]. rewrite app_nil_r, skipn_app, skipn_all2 by lia. cbn [app].
  replace (length l + length t - length l) with (length t) by lia. apply app_assoc.
Qed.
Lemma skipn_skipn' {A} (l : list A) a b : skipn a (skipn b l) = skipn (b + a) l.
Proof. revert l. induction b as [|b IH]; intros l; [reflexivity|]. destruct l; [rewrite !skipn_nil; reflexivity|]. cbn [skipn Nat.add]. apply IH. Qed.

(** ** MPI_Comm_split *)
Section Split.
Variable key : nat -> nat.
Let lt_key a b := key a < key b.
Lemma key_insert_in r l x : In x (key_insert key r l) <-> x = r \/ In x l.
Proof. induction l as [|y t IH]; cbn [key_insert]; [cbn; intuition|]. destruct (key r <? key y); cbn [In]; [intuition|]. rewrite IH. cbn. intuition. Qed.
Lemma key_insert_sorted r l : StronglySorted lt_key l -> (forall x, In x l -> key x <> key r) -> StronglySorted lt_key (key_insert key r l).
Proof.
  induction l as [|y t IH]; intros S H; cbn [key_insert]; [repeat constructor|].
  inversion S as [|? ? S1 F]; subst. destruct (Nat.ltb_spec (key r) (key y)) as [A|A].
  - constructor; [exact S|]. constructor; [exact A|]. rewrite Forall_forall in *. intros z Hz. specialize (F z Hz). unfold lt_key in *. lia.
  - constructor; [apply IH; [exact S1|intros x Hx; apply H; right; exact Hx]|]. rewrite Forall_forall in *. intros z Hz. apply key_insert_in in Hz. destruct Hz as [->|Hz]; [|apply F, Hz].
    assert (key y <> key r) by (apply H; left; reflexivity). unfold lt_key. lia.
Qed.
Lemma sorted_unique : forall l1 l2, StronglySorted lt_key l1 -> StronglySorted lt_key l2 -> (forall x, In x l1 <-> In x l2) -> l1 = l2.
Proof.
  induction l1 as [|a t IH]; intros [|b u] S1 S2 H; [reflexivity|exfalso; apply (proj2 (H b)); left; reflexivity|exfalso; apply (proj1 (H a)); left; reflexivity|].
  inversion S1 as [|? ? S1' F1]; inversion S2 as [|? ? S2' F2]; subst. rewrite Forall_forall in F1, F2.
  assert (a = b).
  { destruct (proj1 (H a) (or_introl eq_refl)) as [E|E]; [congruence|]. destruct (proj2 (H b) (or_introl eq_refl)) as [E'|E']; [congruence|].
    specialize (F2 a E). specialize (F1 b E'). unfold lt_key in *. lia. }
  subst b. f_equal. apply IH; [exact S1'|exact S2'|]. intros x. specialize (H x). cbn [In] in H. split; intros Hx.
  - destruct (proj1 H (or_intror Hx)) as [E|E]; [|exact E]. subst x. specialize (F1 a Hx). unfold lt_key in F1. lia.
  - destruct (proj2 H (or_intror Hx)) as [E|E]; [|exact E]. subst x. specialize (F2 a Hx). unfold lt_key in F2. lia.
Qed.
Lemma fold_insert l : forall acc, StronglySorted lt_key acc -> NoDup (acc ++ l) -> (forall x y, In x (acc ++ l) -> In y (acc ++ l) -> key x = key y -> x = y) ->
  let r := fold_left (fun l r => key_insert key r l) l acc in StronglySorted lt_key r /\ forall x, In x r <-> In x (acc ++ l).
Proof.
  induction l as [|a t IH]; intros acc S D I; cbn [fold_left]; [rewrite app_nil_r; split; [exact S|reflexivity]|].
  assert (Hm : forall x, In x (key_insert key a acc ++ t) <-> In x (acc ++ a :: t)).
  { intros x. rewrite !in_app_iff, key_insert_in. cbn [In]. intuition. }
  destruct (IH (key_insert key a acc)) as [R1 R2].
  - apply key_insert_sorted; [exact S|]. intros x Hx E. apply NoDup_remove_2 in D. apply D. rewrite in_app_iff. left.
    replace a with x; [exact Hx|]. apply I; [rewrite in_app_iff; left; exact Hx|rewrite in_app_iff; right; left; reflexivity|exact E].
  - apply (Permutation_NoDup (l := a :: acc ++ t)).
    + change (a :: acc ++ t) with ((a :: acc) ++ t). apply Permutation_app_tail. clear. induction acc as [|y u IHa]; cbn [key_insert]; [apply Permutation_refl|].
      destruct (key a <? key y); [apply Permutation_refl|]. eapply Permutation_trans; [apply perm_swap|]. apply perm_skip, IHa.
    + apply (Permutation_NoDup (l := acc ++ a :: t)); [apply Permutation_sym, Permutation_middle|exact D].
  - intros x y Hx Hy. apply I; apply Hm; assumption.
  - split; [exact R1|]. intros x. rewrite R2. apply Hm.
Qed.
Lemma comm_split_is P color c L : (forall x y, x < P -> y < P -> key x = key y -> x = y) ->
  StronglySorted lt_key L -> (forall x, In x L <-> x < P /\ color x = c) -> comm_split P color key c = L.
Proof.
  intros I S H. unfold comm_split.
  assert (Hf : forall x, In x (filter (fun r => color r =? c) (seq 0 P)) <-> x < P /\ color x = c).
  { intros x. rewrite filter_In, in_seq, Nat.eqb_eq. intuition lia. }
  destruct (fold_insert (filter (fun r => color r =? c) (seq 0 P)) []) as [R1 R2].
  - constructor.
  - cbn [app]. apply NoDup_filter, seq_NoDup.
  - cbn [app]. intros x y Hx Hy. apply Hf in Hx. apply Hf in Hy. apply I; tauto.
  - apply sorted_unique; [exact R1|exact S|]. intros x. rewrite R2. cbn [app]. rewrite Hf, H. reflexivity.
Qed.
End Split.
Lemma index_of_nth l : forall i, NoDup l -> i < length l -> index_of (nth i l 0) l = Some i.
Proof.
  induction l as [|x t IH]; intros i D H; cbn [length] in H; [lia|]. inversion D as [|? ? N D']; subst. destruct i as [|i]; cbn [nth index_of]; [rewrite Nat.eqb_refl; reflexivity|].
  destruct (Nat.eqb_spec x (nth i t 0)) as [E|E]; [exfalso; apply N; rewrite E; apply nth_In; lia|]. rewrite IH by (trivial; lia). reflexivity.
Qed.
Lemma index_of_in l r : In r l -> exists i, index_of r l = Some i /\ i < length l /\ nth i l 0 = r.
Proof.
  induction l as [|x t IH]; intros H; [destruct H|]. cbn [index_of length]. destruct (Nat.eqb_spec x r) as [E|E]; [exists 0; cbn; repeat split; [lia|exact E]|].
  destruct H as [H|H]; [contradiction|]. destruct (IH H) as (i & A & B & C). exists (S i). rewrite A. cbn. repeat split; [lia|exact C].
Qed.

(** ** MPI_Alltoallv: if everybody's send buffer consists of the blocks for the members, in order, everybody receives the blocks
    of the members, in order. *)
Section Coll.
Context {X : Type}.
Variables (P : nat) (M : nat -> list nat) (h : nat -> coll X) (blk : nat -> nat -> list X) (rest : nat -> list X).
Hypothesis Hself : forall r, r < P -> In r (M r).
Hypothesis Hmem : forall r q, r < P -> In q (M r) -> q < P /\ M q = M r.
Hypothesis Hsend : forall r, r < P -> c_send (h r) = concat (map (blk r) (M r)) ++ rest r.
Hypothesis Hscnt : forall r, r < P -> c_scnt (h r) = map (fun d => length (blk r d)) (M r).
Hypothesis Hsdis : forall r, r < P -> c_sdis (h r) = displs (c_scnt (h r)).
Hypothesis Hrcnt : forall r, r < P -> c_rcnt (h r) = map (fun q => length (blk q r)) (M r).
Hypothesis Hrdis : forall r, r < P -> c_rdis (h r) = displs (c_rcnt (h r)).
Hypothesis Hrecv : forall r, r < P -> list_sum (c_rcnt (h r)) <= length (c_recv (h r)).
Lemma alltoallv_ok r me : r < P -> index_of r (M r) = Some me -> me < length (M r) -> nth me (M r) 0 = r ->
  alltoallv (M r) (map h (seq 0 P)) me = Some (concat (map (fun q => blk q r) (M r)) ++ skipn (list_sum (c_rcnt (h r))) (c_recv (h r))).
Proof.
  intros Hr Hi Hme En. unfold alltoallv. rewrite (nth_error_nth' _ 0) by exact Hme. cbn [bind]. rewrite En, nth_error_map_seq by exact Hr. cbn [bind].
  set (F := fun acc ja => _). set (L := M r) in *.
  assert (G : forall done todo, L = done ++ todo ->
    fold_left F (combine (seq (length done) (length todo)) todo) (Some (concat (map (fun q => blk q r) done) ++ skipn (list_sum (map (fun q => length (blk q r)) done)) (c_recv (h r)))) =
    Some (concat (map (fun q => blk q r) L) ++ skipn (list_sum (map (fun q => length (blk q r)) L)) (c_recv (h r)))).
  { intros done todo. revert done. induction todo as [|q t IH]; intros done E; cbn [length seq combine fold_left]; [rewrite app_nil_r in E; subst done; reflexivity|].
    assert (Hq : In q L) by (rewrite E, in_app_iff; right; left; reflexivity). destruct (Hmem r q Hr Hq) as [Hq1 Hq2]. fold L in Hq2.
    unfold F at 2. cbn [bind fst snd]. rewrite nth_error_map_seq by exact Hq1. cbn [bind]. rewrite Hsdis by exact Hq1. rewrite Hscnt, Hq2 by exact Hq1.
    rewrite displs_nth by (rewrite map_length; lia). rewrite (nth_error_nth' _ 0) by (rewrite map_length; exact Hme). cbn [bind].
    rewrite Hrdis by exact Hr. rewrite Hrcnt by exact Hr. fold L. rewrite displs_nth by (rewrite map_length, E, app_length; cbn; lia).
    rewrite (nth_error_nth' _ 0) by (rewrite map_length, E, app_length; cbn; lia). cbn [bind].
    assert (E1 : nth me (map (fun d => length (blk q d)) L) 0 = length (blk q r)).
    { rewrite (nth_indep _ 0 (length (blk q 0))) by (rewrite map_length; exact Hme). rewrite (map_nth (fun d => length (blk q d))). f_equal. f_equal. exact En. }
    assert (E2 : nth (length done) (map (fun q => length (blk q r)) L) 0 = length (blk q r)).
    { rewrite E, map_app, app_nth2 by (rewrite map_length; lia). rewrite map_length, Nat.sub_diag. reflexivity. }
    rewrite E1, E2, Nat.eqb_refl. rewrite Hsend, Hq2 by exact Hq1.
    assert (E3 : nth me (map (blk q) L) [] = blk q r) by (rewrite (nth_indep _ [] (blk q 0)) by (rewrite map_length; exact Hme); rewrite (map_nth (blk q)); f_equal; exact En).
    replace (map (fun d => length (blk q d)) L) with (map (@length X) (map (blk q) L)) by (rewrite map_map; reflexivity).
    rewrite <- E3 at 1. rewrite slice_concat by (rewrite map_length; exact Hme). cbn [bind]. rewrite E3.
    assert (E4 : list_sum (firstn (length done) (map (fun q => length (blk q r)) L)) = length (concat (map (fun q => blk q r) done))).
    { rewrite E, map_app, firstn_app, map_length, Nat.sub_diag, firstn_all2 by (rewrite map_length; lia). cbn [firstn]. rewrite app_nil_r, length_concat, map_map. reflexivity. }
    rewrite E4.
    assert (Hl : length (blk q r) <= length (skipn (list_sum (map (fun q => length (blk q r)) done)) (c_recv (h r)))).
    { rewrite skipn_length. pose proof (Hrecv r Hr) as Hv. rewrite Hrcnt in Hv by exact Hr. fold L in Hv. rewrite E, map_app, list_sum_app in Hv. cbn [map list_sum fold_right] in Hv. unfold list_sum in *. cbn [fold_right] in Hv. lia. }
    rewrite put_next by exact Hl. rewrite skipn_skipn'.
    assert (En2 : length done + 1 = length (done ++ [q])) by (rewrite app_length; reflexivity).
    replace (S (length done)) with (length (done ++ [q])) by lia.
    replace ((concat (map (fun q0 => blk q0 r) done) ++ blk q r) ++ skipn (list_sum (map (fun q0 => length (blk q0 r)) done) + length (blk q r)) (c_recv (h r)))
      with (concat (map (fun q0 => blk q0 r) (done ++ [q])) ++ skipn (list_sum (map (fun q0 => length (blk q0 r)) (done ++ [q]))) (c_recv (h r))).
    - apply IH. rewrite E, <- app_assoc. reflexivity.
    - rewrite !map_app, concat_app, list_sum_app. cbn [map concat]. rewrite app_nil_r. f_equal. f_equal. unfold list_sum. cbn [fold_right]. lia. }
  rewrite Hrcnt by exact Hr. apply (G [] L eq_refl).
Qed.
Lemma alltoallv_all_ok : alltoallv_all P M (map h (seq 0 P)) =
  Some (map (fun r => concat (map (fun q => blk q r) (M r)) ++ skipn (list_sum (c_rcnt (h r))) (c_recv (h r))) (seq 0 P)).
Proof.
  unfold alltoallv_all. apply traverse_ok. intros r Hr. apply in_seq in Hr. destruct (index_of_in (M r) r) as (me & A & B & C); [apply Hself; lia|]. rewrite A. cbn [bind]. apply alltoallv_ok; trivial; lia.
Qed.
End Coll.
