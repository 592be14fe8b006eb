(* Counting, inclusive prefix sums, concatenated ranges. *)
From Verif Require Import Lib.Prelude.

Definition cnt {A} (p : A -> bool) (l : list A) : nat := length (filter p l).

Lemma cnt_nil {A} (p : A -> bool) : cnt p [] = 0. Proof. auto. Qed.
Lemma cnt_cons {A} (p : A -> bool) a l : cnt p (a :: l) = (if p a then 1 else 0) + cnt p l.
Proof. unfold cnt; simpl. destruct (p a); auto. Qed.
Lemma cnt_app {A} (p : A -> bool) l1 l2 : cnt p (l1 ++ l2) = cnt p l1 + cnt p l2.
Proof. induction l1; auto. simpl. rewrite !cnt_cons. lia. Qed.
Lemma cnt_le {A} (p : A -> bool) l : cnt p l <= length l.
Proof. induction l; auto. rewrite cnt_cons. simpl. destruct (p a); lia. Qed.
Lemma cnt_ext {A} (p q : A -> bool) l : (forall x, In x l -> p x = q x) -> cnt p l = cnt q l.
Proof. induction l; intros H; auto. rewrite !cnt_cons, H by (left; auto). rewrite IHl; auto. intros; apply H; right; auto. Qed.
Lemma cnt_impl {A} (p q : A -> bool) l : (forall x, In x l -> p x = true -> q x = true) -> cnt p l <= cnt q l.
Proof.
  induction l; intros H; auto. rewrite !cnt_cons. specialize (IHl (fun x Hx => H x (or_intror Hx))).
  pose proof (H a (or_introl eq_refl)). destruct (p a), (q a); try lia; try (discriminate H0; auto).
Qed.
Lemma cnt_lt {A} (p q : A -> bool) l x :
  (forall y, In y l -> p y = true -> q y = true) -> In x l -> p x = false -> q x = true -> cnt p l < cnt q l.
Proof.
  induction l as [|a l IH]; intros H Hin Hp Hq; [inversion Hin|]. rewrite !cnt_cons.
  destruct Hin as [->|Hin].
  - rewrite Hp, Hq. pose proof (cnt_impl p q l (fun y Hy => H y (or_intror Hy))). lia.
  - specialize (IH (fun y Hy => H y (or_intror Hy)) Hin Hp Hq).
    pose proof (H a (or_introl eq_refl)). destruct (p a), (q a); try lia; try (discriminate H0; auto).
Qed.
Lemma cnt_pos {A} (p : A -> bool) l : 0 < cnt p l <-> exists x, In x l /\ p x = true.
Proof.
  unfold cnt. split.
  - destruct (filter p l) as [|x t] eqn:E; simpl; [lia|]. intros _. exists x. apply filter_In. rewrite E; left; auto.
  - intros (x & Hin & Hp). assert (In x (filter p l)) by (apply filter_In; auto). destruct (filter p l); [inversion H|simpl; lia].
Qed.
Lemma cnt_zero {A} (p : A -> bool) l : cnt p l = 0 <-> forall x, In x l -> p x = false.
Proof.
  split.
  - intros H x Hx. destruct (p x) eqn:E; auto. pose proof (proj2 (cnt_pos p l) (ex_intro _ x (conj Hx E))). lia.
  - intros H. destruct (cnt p l) eqn:E; auto. destruct (proj1 (cnt_pos p l)) as (x & Hx & Hp); [lia|].
    rewrite H in Hp; auto; discriminate.
Qed.
Lemma cnt_all {A} (p : A -> bool) l : (forall x, In x l -> p x = true) -> cnt p l = length l.
Proof. induction l; intros H; auto. rewrite cnt_cons, H, IHl by (intros; try apply H; simpl; auto). auto. Qed.
Lemma cnt_orb {A} (p q : A -> bool) l : (forall x, In x l -> p x = true -> q x = true -> False) ->
  cnt (fun x => p x || q x) l = cnt p l + cnt q l.
Proof.
  induction l; intros H; auto. rewrite !cnt_cons, IHl by (intros; eapply H; simpl; eauto).
  pose proof (H a (or_introl eq_refl)). destruct (p a), (q a); simpl; try lia; exfalso; auto.
Qed.
Lemma cnt_perm {A} (p : A -> bool) l l' : Permutation l l' -> cnt p l = cnt p l'.
Proof. intros H. induction H; rewrite ?cnt_cons; lia. Qed.
Lemma cnt_map {A B} (f : A -> B) (p : B -> bool) l : cnt p (map f l) = cnt (fun x => p (f x)) l.
Proof. induction l; auto. simpl. rewrite !cnt_cons, IHl; auto. Qed.
Lemma cnt_negb {A} (p : A -> bool) l : cnt p l + cnt (fun x => negb (p x)) l = length l.
Proof. induction l; auto. rewrite !cnt_cons. simpl. destruct (p a); simpl; lia. Qed.

Lemma seq_snoc a n : seq a (S n) = seq a n ++ [a + n].
Proof. replace (S n) with (n + 1) by lia. rewrite seq_app. auto. Qed.

Lemma cnt_seq_S p a n : cnt p (seq a (S n)) = cnt p (seq a n) + (if p (a + n) then 1 else 0).
Proof. rewrite seq_snoc, cnt_app, cnt_cons, cnt_nil. lia. Qed.

(** Ranges between consecutive boundaries. *)
Lemma concat_ranges (f : nat -> nat) p :
  (forall i, i < p -> f i <= f (S i)) ->
  f 0 <= f p /\ concat (map (fun i => seq (f i) (f (S i) - f i)) (seq 0 p)) = seq (f 0) (f p - f 0).
Proof.
  induction p; intros H.
  - simpl. rewrite Nat.sub_diag. auto.
  - destruct IHp as [Hle IH]; [intros; apply H; lia|]. pose proof (H p ltac:(lia)) as Hp.
    split; [lia|]. rewrite seq_snoc, map_app, concat_app, IH. simpl. rewrite app_nil_r.
    replace (f (S p) - f 0) with ((f p - f 0) + (f (S p) - f p)) by lia. rewrite seq_app. repeat f_equal; lia.
Qed.

Lemma list_sum_app l1 l2 : list_sum (l1 ++ l2) = list_sum l1 + list_sum l2.
Proof. induction l1; simpl; lia. Qed.
Lemma nth_firstn_lt {A} (d : A) n l i : i < n -> nth i (firstn n l) d = nth i l d.
Proof. revert l i; induction n; intros [|a l] [|i]; simpl; intros; auto; try lia. apply IHn; lia. Qed.
Lemma nth_skipn {A} (d : A) n l i : nth i (skipn n l) d = nth (n + i) l d.
Proof. revert l; induction n; intros [|a l]; simpl; auto. destruct i; auto. Qed.

Lemma skipn_skipn {A} a b (l : list A) : skipn a (skipn b l) = skipn (b + a) l.
Proof. revert l; induction b; simpl; auto. destruct l; simpl; auto using skipn_nil. Qed.
Lemma skipn_cons_nth {A} (d : A) i l : i < length l -> skipn i l = nth i l d :: skipn (S i) l.
Proof. revert i; induction l; intros [|i] H; simpl in *; auto; try lia. rewrite IHl by lia. destruct l; auto. Qed.
Lemma firstn_seq a n k : k <= n -> firstn k (seq a n) = seq a k.
Proof. intros H. replace n with (k + (n - k)) by lia. rewrite seq_app, firstn_app, seq_length, Nat.sub_diag, firstn_O, app_nil_r.
       apply firstn_all2. rewrite seq_length; auto. Qed.
