(* Common imports and general purpose lemmas (lists, updates, sums).
   Nothing in this file is specific to KaMinPar. *)
From Coq Require Export List Arith ZArith NArith Lia Bool Permutation.
From Coq Require Export ZifyBool ZifyNat ZifyN.
Export ListNotations.

(** Linear arithmetic with division/modulo by constants. *)
Ltac dlia := zify; Z.to_euclidean_division_equations; lia.

#[global] Arguments N.add : simpl never.
#[global] Arguments N.sub : simpl never.
#[global] Arguments N.mul : simpl never.
#[global] Arguments N.div : simpl never.
#[global] Arguments N.modulo : simpl never.
#[global] Arguments N.pow : simpl never.
#[global] Arguments N.shiftl : simpl never.
#[global] Arguments N.shiftr : simpl never.
#[global] Arguments N.land : simpl never.
#[global] Arguments N.lor : simpl never.
#[global] Arguments N.testbit : simpl never.
#[global] Arguments N.of_nat : simpl never.
#[global] Arguments N.to_nat : simpl never.
#[global] Arguments Z.of_nat : simpl never.
#[global] Arguments Z.to_nat : simpl never.
#[global] Arguments N.eqb : simpl never.
#[global] Arguments N.ltb : simpl never.
#[global] Arguments N.leb : simpl never.

(** Array update: [upd i x l] is [l] with position [i] replaced by [x]
    (no effect if [i] is out of bounds). *)
Fixpoint upd {A} (i : nat) (x : A) (l : list A) : list A :=
  match l, i with
  | [], _ => []
  | _ :: t, O => x :: t
  | h :: t, S i' => h :: upd i' x t
  end.

(** Sum of a list of integers. *)
Fixpoint zsum (l : list Z) : Z :=
  match l with [] => 0%Z | x :: t => (x + zsum t)%Z end.

(** Sum of [f 0 + ... + f (n-1)]. *)
Definition sumn (n : nat) (f : nat -> Z) : Z := zsum (map f (seq 0 n)).

Lemma upd_length {A} i (x : A) l : length (upd i x l) = length l.
Proof. revert i; induction l as [|h t IH]; intros [|i]; simpl; auto. Qed.

Lemma upd_nth_same {A} i (x d : A) l : i < length l -> nth i (upd i x l) d = x.
Proof. revert i; induction l as [|h t IH]; intros [|i] H; simpl in *; try lia; auto.
       all: apply IH; lia. Qed.

Lemma upd_nth_other {A} i j (x d : A) l : i <> j -> nth j (upd i x l) d = nth j l d.
Proof. revert i j; induction l as [|h t IH]; intros [|i] [|j] H; simpl; auto; try lia.
       all: apply IH; lia. Qed.

Lemma upd_nth {A} i j (x d : A) l :
  nth j (upd i x l) d = if (i =? j) && (i <? length l) then x else nth j l d.
Proof.
  destruct (Nat.eqb_spec i j) as [->|Hne]; simpl.
  - destruct (Nat.ltb_spec j (length l)).
    + apply upd_nth_same; auto.
    + rewrite !nth_overflow; auto. rewrite upd_length; auto.
  - apply upd_nth_other; auto.
Qed.

Lemma upd_nth_error {A} i j (x : A) l :
  nth_error (upd i x l) j = if (i =? j) && (i <? length l) then Some x else nth_error l j.
Proof.
  revert i j; induction l as [|h t IH]; intros [|i] [|j]; simpl; auto.
  all: try (rewrite ?andb_false_r; reflexivity).
  rewrite IH. destruct (i =? j); simpl; auto.
Qed.

Lemma upd_oob {A} i (x : A) l : length l <= i -> upd i x l = l.
Proof. revert i; induction l as [|h t IH]; intros [|i] H; simpl in *; auto; try lia.
       all: f_equal; apply IH; lia. Qed.

Lemma upd_same {A} i (d : A) l : upd i (nth i l d) l = l.
Proof. revert i; induction l as [|h t IH]; intros [|i]; simpl; auto. f_equal; auto. Qed.

Lemma upd_upd {A} i (x y : A) l : upd i x (upd i y l) = upd i x l.
Proof. revert i; induction l as [|h t IH]; intros [|i]; simpl; auto. f_equal; auto. Qed.

Lemma upd_comm {A} i j (x y : A) l : i <> j -> upd i x (upd j y l) = upd j y (upd i x l).
Proof. revert i j; induction l as [|h t IH]; intros [|i] [|j] H; simpl; auto; try lia.
       all: f_equal; apply IH; lia. Qed.

Lemma upd_app_l {A} i (x : A) l1 l2 : i < length l1 -> upd i x (l1 ++ l2) = upd i x l1 ++ l2.
Proof. revert i; induction l1 as [|h t IH]; intros [|i] H; simpl in *; auto; try lia.
       all: f_equal; apply IH; lia. Qed.

Lemma upd_app_r {A} i (x : A) l1 l2 :
  length l1 <= i -> upd i x (l1 ++ l2) = l1 ++ upd (i - length l1) x l2.
Proof. revert i; induction l1 as [|h t IH]; intros i H; simpl in *.
       - f_equal; lia.
       - destruct i; [lia|]. simpl. f_equal. apply IH. lia. Qed.

Lemma upd_split {A} i (x d : A) l :
  i < length l -> upd i x l = firstn i l ++ x :: skipn (S i) l.
Proof. revert i; induction l as [|h t IH]; intros [|i] H; simpl in *; auto; try lia.
       f_equal. rewrite IH by lia. destruct t; reflexivity. Qed.

Lemma nth_split_at {A} i (d : A) l :
  i < length l -> l = firstn i l ++ nth i l d :: skipn (S i) l.
Proof. revert i; induction l as [|h t IH]; intros [|i] H; simpl in *; auto; try lia.
       f_equal. rewrite (IH i) at 1 by lia. destruct t; reflexivity. Qed.

Lemma list_ext {A} (d : A) l1 l2 :
  length l1 = length l2 -> (forall i, i < length l1 -> nth i l1 d = nth i l2 d) -> l1 = l2.
Proof. intros Hl H. apply nth_ext with (d := d) (d' := d); auto. Qed.

Lemma nth_map_seq {A} (f : nat -> A) s n i d : i < n -> nth i (map f (seq s n)) d = f (s + i).
Proof. intros H. rewrite nth_indep with (d' := f 0) by (rewrite map_length, seq_length; lia).
       rewrite map_nth, seq_nth; auto. Qed.

Lemma map_nth_seq {A} (d : A) l : map (fun i => nth i l d) (seq 0 (length l)) = l.
Proof. apply (list_ext d).
       - rewrite map_length, seq_length; auto.
       - intros i Hi. rewrite map_length, seq_length in Hi. rewrite nth_map_seq; auto. Qed.

(** ** Sums *)
Lemma zsum_app l1 l2 : zsum (l1 ++ l2) = (zsum l1 + zsum l2)%Z.
Proof. induction l1; simpl; lia. Qed.

Lemma zsum_perm l1 l2 : Permutation l1 l2 -> zsum l1 = zsum l2.
Proof. induction 1; simpl; lia. Qed.

Lemma zsum_upd i x l : i < length l -> zsum (upd i x l) = (zsum l - nth i l 0 + x)%Z.
Proof. revert i; induction l as [|h t IH]; intros [|i] H; simpl in *; try lia.
       rewrite IH by lia. lia. Qed.

Lemma zsum_map_ext {A} (f g : A -> Z) l :
  (forall x, In x l -> f x = g x) -> zsum (map f l) = zsum (map g l).
Proof. induction l; simpl; auto. intros H. rewrite H by auto. rewrite IHl; auto. Qed.

Lemma zsum_map_add {A} (f g : A -> Z) l :
  zsum (map (fun x => f x + g x)%Z l) = (zsum (map f l) + zsum (map g l))%Z.
Proof. induction l; simpl; lia. Qed.

Lemma zsum_map_sub {A} (f g : A -> Z) l :
  zsum (map (fun x => f x - g x)%Z l) = (zsum (map f l) - zsum (map g l))%Z.
Proof. induction l; simpl; lia. Qed.

Lemma zsum_map_mul {A} c (f : A -> Z) l :
  zsum (map (fun x => c * f x)%Z l) = (c * zsum (map f l))%Z.
Proof. induction l; simpl; lia. Qed.

Lemma zsum_map_0 {A} (l : list A) : zsum (map (fun _ => 0%Z) l) = 0%Z.
Proof. induction l; simpl; lia. Qed.

Lemma zsum_map_const {A} c (l : list A) : zsum (map (fun _ => c) l) = (c * Z.of_nat (length l))%Z.
Proof. induction l; cbn [map zsum length]; lia. Qed.

Lemma zsum_nonneg l : (forall x, In x l -> 0 <= x)%Z -> (0 <= zsum l)%Z.
Proof. induction l as [|a l IH]; simpl; intros H; [lia|].
       pose proof (H a (or_introl eq_refl)). assert (0 <= zsum l)%Z by (apply IH; auto). lia. Qed.

Lemma zsum_map_le {A} (f g : A -> Z) l :
  (forall x, In x l -> f x <= g x)%Z -> (zsum (map f l) <= zsum (map g l))%Z.
Proof. induction l as [|a l IH]; simpl; intros H; [lia|].
       pose proof (H a (or_introl eq_refl)).
       assert (zsum (map f l) <= zsum (map g l))%Z by (apply IH; auto). lia. Qed.

Lemma zsum_concat ll : zsum (concat ll) = zsum (map zsum ll).
Proof. induction ll; simpl; auto. rewrite zsum_app; lia. Qed.

Lemma zsum_flat_map {A} (f : A -> list Z) l :
  zsum (flat_map f l) = zsum (map (fun x => zsum (f x)) l).
Proof. induction l; simpl; auto. rewrite zsum_app; lia. Qed.

Lemma zsum_swap {A B} (f : A -> B -> Z) la lb :
  zsum (map (fun a => zsum (map (f a) lb)) la) = zsum (map (fun b => zsum (map (fun a => f a b) la)) lb).
Proof.
  induction la as [|a la IH]; simpl.
  - rewrite zsum_map_0; auto.
  - rewrite IH. rewrite <- zsum_map_add. apply zsum_map_ext; auto.
Qed.

Lemma sumn_0 f : sumn 0 f = 0%Z. Proof. reflexivity. Qed.
Lemma sumn_S n f : sumn (S n) f = (sumn n f + f n)%Z.
Proof. unfold sumn. rewrite seq_S, map_app, zsum_app; simpl. lia. Qed.
Lemma sumn_ext n f g : (forall i, i < n -> f i = g i) -> sumn n f = sumn n g.
Proof. intros H. apply zsum_map_ext. intros x Hx. apply H. apply in_seq in Hx; lia. Qed.
Lemma sumn_add n f g : sumn n (fun i => f i + g i)%Z = (sumn n f + sumn n g)%Z.
Proof. apply zsum_map_add. Qed.
Lemma sumn_sub n f g : sumn n (fun i => f i - g i)%Z = (sumn n f - sumn n g)%Z.
Proof. apply zsum_map_sub. Qed.
Lemma sumn_mul n c f : sumn n (fun i => c * f i)%Z = (c * sumn n f)%Z.
Proof. apply zsum_map_mul. Qed.
Lemma sumn_const n c : sumn n (fun _ => c) = (c * Z.of_nat n)%Z.
Proof. unfold sumn. rewrite zsum_map_const, seq_length; auto. Qed.
Lemma sumn_zero n : sumn n (fun _ => 0%Z) = 0%Z.
Proof. apply zsum_map_0. Qed.
Lemma sumn_zero_ext n f : (forall i, i < n -> f i = 0%Z) -> sumn n f = 0%Z.
Proof. intros H. rewrite (sumn_ext _ _ (fun _ => 0%Z)); auto using sumn_zero. Qed.
Lemma sumn_le n f g : (forall i, i < n -> (f i <= g i)%Z) -> (sumn n f <= sumn n g)%Z.
Proof. intros H. apply zsum_map_le. intros x Hx. apply H. apply in_seq in Hx; lia. Qed.
Lemma sumn_nonneg n f : (forall i, i < n -> (0 <= f i)%Z) -> (0 <= sumn n f)%Z.
Proof. intros H. rewrite <- (sumn_zero n). apply sumn_le; auto. Qed.
Lemma sumn_swap n m f : sumn n (fun i => sumn m (f i)) = sumn m (fun j => sumn n (fun i => f i j)).
Proof. apply zsum_swap. Qed.
Lemma sumn_list l : sumn (length l) (fun i => nth i l 0%Z) = zsum l.
Proof. unfold sumn. rewrite map_nth_seq; auto. Qed.
Lemma sumn_split a b f : sumn (a + b) f = (sumn a f + sumn b (fun i => f (a + i)%nat))%Z.
Proof. induction b.
       - rewrite Nat.add_0_r, sumn_0; lia.
       - rewrite Nat.add_succ_r, !sumn_S; lia. Qed.

(** A single non-zero term. *)
Lemma sumn_single n k f :
  k < n -> (forall i, i < n -> i <> k -> f i = 0%Z) -> sumn n f = f k.
Proof.
  intros Hk H. revert k Hk H. induction n as [|n IH]; intros k Hk H; [lia|].
  rewrite sumn_S. destruct (Nat.eq_dec k n) as [->|Hne].
  - rewrite sumn_zero_ext; [lia|]. intros i Hi. apply H; lia.
  - rewrite (IH k) by (try lia; intros; apply H; lia). rewrite (H n); lia.
Qed.

(** Pointwise change at one index. *)
Lemma sumn_change n k f g :
  k < n -> (forall i, i < n -> i <> k -> f i = g i) -> (sumn n f = sumn n g + (f k - g k))%Z.
Proof.
  intros Hk H.
  assert (sumn n (fun i => f i - g i)%Z = (f k - g k)%Z) as E.
  { apply (sumn_single n k (fun i => f i - g i)%Z Hk). intros i Hi Hne. rewrite H; auto. lia. }
  rewrite sumn_sub in E. lia.
Qed.

(** Reindexing along an injection of [0,n) into itself. *)
Definition injn (n : nat) (p : nat -> nat) : Prop :=
  forall i j, i < n -> j < n -> p i = p j -> i = j.
Definition maps_into (n m : nat) (p : nat -> nat) : Prop := forall i, i < n -> p i < m.

Lemma inj_seq_perm n p :
  maps_into n n p -> injn n p -> Permutation (map p (seq 0 n)) (seq 0 n).
Proof.
  intros Hr Hi. apply NoDup_Permutation_bis.
  - assert (forall l, NoDup l -> (forall x, In x l -> x < n) -> NoDup (map p l)) as G.
    { induction l as [|a l IH]; simpl; intros Hnd Hlt; [constructor|].
      inversion Hnd; subst. constructor.
      - intros Hin. apply in_map_iff in Hin. destruct Hin as [y [E Hy]].
        apply Hi in E; auto. subst; contradiction.
      - apply IH; auto. }
    apply G; [apply seq_NoDup|]. intros x Hx. apply in_seq in Hx; lia.
  - rewrite map_length; auto.
  - intros x Hx. apply in_map_iff in Hx. destruct Hx as [y [<- Hy]]. apply in_seq in Hy.
    apply in_seq. specialize (Hr y). lia.
Qed.

Lemma sumn_reindex n p f :
  maps_into n n p -> injn n p -> sumn n (fun i => f (p i)) = sumn n f.
Proof.
  intros Hr Hi. unfold sumn. rewrite <- map_map with (f := p) (g := f).
  apply zsum_perm. apply Permutation_map. apply inj_seq_perm; auto.
Qed.

Lemma inj_surj n p :
  maps_into n n p -> injn n p -> forall y, y < n -> exists x, x < n /\ p x = y.
Proof.
  intros Hr Hi y Hy.
  pose proof (inj_seq_perm n p Hr Hi) as P.
  assert (In y (map p (seq 0 n))) as Hin.
  { apply Permutation_in with (l := seq 0 n); [symmetry; auto|]. apply in_seq; lia. }
  apply in_map_iff in Hin. destruct Hin as [x [E Hx]]. apply in_seq in Hx. exists x; split; auto; lia.
Qed.

(** [if] on Z sums *)
Lemma sumn_indicator n k (c : Z) : k < n -> sumn n (fun i => if i =? k then c else 0%Z) = c.
Proof.
  intros Hk. rewrite (sumn_single n k); auto.
  - rewrite Nat.eqb_refl; auto.
  - intros i Hi Hne. destruct (Nat.eqb_spec i k); auto; contradiction.
Qed.

(** Every element of a filtered sum *)
Lemma zsum_filter {A} (p : A -> bool) (f : A -> Z) l :
  zsum (map f (filter p l)) = zsum (map (fun x => if p x then f x else 0%Z) l).
Proof. induction l; simpl; auto. destruct (p a); simpl; lia. Qed.
Arguments upd : simpl never.
