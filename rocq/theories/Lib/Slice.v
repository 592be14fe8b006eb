(* Array slices and block writes: [slice a s n] is the part of the array starting at [s] with [n]
   elements, [splice a s l] the array after writing the list [l] to positions s, s+1, ... *)
From Verif Require Import Lib.Prelude.

Section Slice.
Context {A : Type}.
Implicit Types (a l : list A) (i j s n : nat).

Definition slice a s n : list A := firstn n (skipn s a).
Definition splice a s l : list A := firstn s a ++ l ++ skipn (s + length l) a.

Lemma nth_error_ext : forall a b, (forall i, nth_error a i = nth_error b i) -> a = b.
Proof.
  induction a as [|x a IH]; intros [|y b] H; auto.
  - specialize (H 0); discriminate.
  - specialize (H 0); discriminate.
  - f_equal. { specialize (H 0); cbn in H; congruence. }
    apply IH; intros i; exact (H (S i)).
Qed.

Lemma nth_error_skipn : forall a s i, nth_error (skipn s a) i = nth_error a (s + i).
Proof.
  induction a as [|x a IH]; intros s i.
  - rewrite skipn_nil. now destruct i, s.
  - destruct s; cbn; auto.
Qed.

Lemma nth_error_firstn : forall a n i,
  nth_error (firstn n a) i = if i <? n then nth_error a i else None.
Proof.
  induction a as [|x a IH]; intros n i.
  - rewrite firstn_nil. destruct (i <? n); now destruct i.
  - destruct n; cbn [firstn]. { now destruct i. }
    destruct i; cbn [nth_error]; auto. rewrite IH.
    destruct (Nat.ltb_spec i n), (Nat.ltb_spec (S i) (S n)); auto; lia.
Qed.

Lemma nth_error_slice : forall a s n i,
  nth_error (slice a s n) i = if i <? n then nth_error a (s + i) else None.
Proof. intros. unfold slice. rewrite nth_error_firstn, nth_error_skipn; auto. Qed.

Lemma slice_length : forall a s n, s + n <= length a -> length (slice a s n) = n.
Proof. intros. unfold slice. rewrite firstn_length, skipn_length. lia. Qed.

Lemma splice_length : forall a s l, s + length l <= length a -> length (splice a s l) = length a.
Proof. intros. unfold splice. rewrite !app_length, firstn_length, skipn_length. lia. Qed.

Lemma nth_error_splice : forall a s l i, s + length l <= length a ->
  nth_error (splice a s l) i =
  if i <? s then nth_error a i else if i <? s + length l then nth_error l (i - s) else nth_error a i.
Proof.
  intros a s l i H. unfold splice.
  assert (Hf : length (firstn s a) = s) by (rewrite firstn_length; lia).
  destruct (Nat.ltb_spec i s).
  - rewrite nth_error_app1 by lia. rewrite nth_error_firstn.
    destruct (Nat.ltb_spec i s); auto; lia.
  - rewrite nth_error_app2 by lia. rewrite Hf.
    destruct (Nat.ltb_spec i (s + length l)).
    + rewrite nth_error_app1 by lia; auto.
    + rewrite nth_error_app2 by lia. rewrite nth_error_skipn. f_equal; lia.
Qed.

Ltac ltbs := repeat match goal with |- context [?a <? ?b] => destruct (Nat.ltb_spec a b) end.

Lemma slice_splice_in : forall a p l s n,
  p + length l <= length a -> p <= s -> s + n <= p + length l ->
  slice (splice a p l) s n = slice l (s - p) n.
Proof.
  intros a p l s n H H1 H2. apply nth_error_ext; intros i.
  rewrite !nth_error_slice, nth_error_splice by auto. ltbs; auto; try lia. f_equal; lia.
Qed.

Lemma slice_splice_same : forall a p l,
  p + length l <= length a -> slice (splice a p l) p (length l) = l.
Proof.
  intros a p l H. apply nth_error_ext; intros i.
  rewrite nth_error_slice, nth_error_splice by auto. ltbs; auto; try lia.
  - f_equal; lia.
  - symmetry. apply nth_error_None; lia.
Qed.

Lemma slice_splice_out : forall a p l s n,
  p + length l <= length a -> s + n <= p \/ p + length l <= s ->
  slice (splice a p l) s n = slice a s n.
Proof.
  intros a p l s n H H1. apply nth_error_ext; intros i.
  rewrite !nth_error_slice, nth_error_splice by auto. ltbs; auto; try lia.
Qed.

Lemma splice_app : forall a p l1 l2,
  p + length l1 + length l2 <= length a ->
  splice (splice a p l1) (p + length l1) l2 = splice a p (l1 ++ l2).
Proof.
  intros a p l1 l2 H. assert (L : length (splice a p l1) = length a) by (apply splice_length; lia).
  apply nth_error_ext; intros i.
  rewrite nth_error_splice by lia. rewrite !nth_error_splice by (rewrite ?app_length; lia).
  rewrite app_length. ltbs; auto; try lia.
  - rewrite nth_error_app1 by lia; auto.
  - rewrite nth_error_app2 by lia. f_equal; lia.
Qed.

Lemma splice_comm : forall a p1 l1 p2 l2,
  p1 + length l1 <= length a -> p2 + length l2 <= length a ->
  p1 + length l1 <= p2 \/ p2 + length l2 <= p1 ->
  splice (splice a p1 l1) p2 l2 = splice (splice a p2 l2) p1 l1.
Proof.
  intros a p1 l1 p2 l2 H1 H2 H3. apply nth_error_ext; intros i.
  rewrite !nth_error_splice by (rewrite ?splice_length; lia). ltbs; auto; try lia.
Qed.

Lemma splice_nil : forall a p, p <= length a -> splice a p [] = a.
Proof. intros. unfold splice. cbn. rewrite Nat.add_0_r. apply firstn_skipn. Qed.

Lemma upd_splice : forall a i x, i < length a -> upd i x a = splice a i [x].
Proof.
  intros a i x H. apply nth_error_ext; intros j.
  rewrite nth_error_splice by (cbn; lia). cbn [length].
  rewrite upd_nth_error. destruct (Nat.eqb_spec i j) as [E|E]; cbn [andb]; ltbs; try lia; auto.
  - subst. replace (j - j) with 0 by lia. reflexivity.
Qed.

Lemma slice_all : forall a, slice a 0 (length a) = a.
Proof. intros. unfold slice. cbn. apply firstn_all. Qed.

Lemma slice_app_l : forall a b n, n = length a -> slice (a ++ b) 0 n = a.
Proof. intros a b n ->. unfold slice. cbn. rewrite firstn_app, firstn_all, Nat.sub_diag. cbn. apply app_nil_r. Qed.

Lemma slice_slice : forall a s n s' n', s' + n' <= n ->
  slice (slice a s n) s' n' = slice a (s + s') n'.
Proof.
  intros. apply nth_error_ext; intros i. rewrite !nth_error_slice. ltbs; auto; try lia.
  f_equal; lia.
Qed.

Lemma slice_ext : forall a b s n,
  (forall j, s <= j < s + n -> nth_error a j = nth_error b j) -> slice a s n = slice b s n.
Proof.
  intros a b s n H. apply nth_error_ext; intros i. rewrite !nth_error_slice.
  ltbs; auto. apply H; lia.
Qed.

Lemma slice_0 : forall a s, slice a s 0 = [].
Proof. reflexivity. Qed.

Lemma slice_S : forall a s n x, nth_error a s = Some x -> slice a s (S n) = x :: slice a (S s) n.
Proof.
  intros a s n x H. apply nth_error_ext; intros [|i]; rewrite !nth_error_slice; cbn [nth_error].
  - cbn. now rewrite Nat.add_0_r.
  - rewrite nth_error_slice. ltbs; auto; try lia. f_equal; lia.
Qed.

Lemma slice_snoc : forall a s n x, nth_error a (s + n) = Some x ->
  slice a s (n + 1) = slice a s n ++ [x].
Proof.
  intros a s n x H. assert (s + n < length a) by (apply nth_error_Some; congruence).
  apply nth_error_ext; intros i. rewrite nth_error_slice.
  destruct (Nat.ltb_spec i n).
  - rewrite nth_error_app1 by (rewrite slice_length; lia). rewrite nth_error_slice. ltbs; auto; lia.
  - rewrite nth_error_app2 by (rewrite slice_length; lia). rewrite slice_length by lia.
    destruct (Nat.ltb_spec i (n + 1)).
    + replace i with n by lia. rewrite Nat.sub_diag. cbn. auto.
    + symmetry. apply nth_error_None. cbn; lia.
Qed.
End Slice.
