(* Proofs about unbuffered contraction (C12). *)
From Verif Require Import Lib.Prelude Lib.Count Spec.Graph Spec.Quotient Spec.RatingMap Model.CsrModel Model.RatingMapModel Model.ContractModel Model.UnbufModel.
From Verif Require Import Proofs.CsrProofs Proofs.PermProofs Proofs.RatingMapProofs Proofs.QuotientProofs Proofs.ContractPreProofs Proofs.ContractProofs.

Lemma upd_nth_same_T {A} t (x d : A) l T : length l = T -> t < T -> nth t (upd t x l) d = x.
Proof. intros HL Ht. rewrite upd_nth, Nat.eqb_refl, HL, (proj2 (Nat.ltb_lt _ _) Ht). reflexivity. Qed.

Lemma seq_shift_add a s n : map (fun i => a + i) (seq s n) = seq (a + s) n.
Proof.
  revert s. induction n as [|n IH]; intros s; [reflexivity|]. cbn [seq map]. rewrite IH. rewrite Nat.add_succ_r. reflexivity.
Qed.
Lemma flat_map_ext_in {A B} (f g : A -> list B) l : (forall x, In x l -> f x = g x) -> flat_map f l = flat_map g l.
Proof. induction l as [|x l IH]; intros H; [reflexivity|]. cbn [flat_map]. rewrite (H x (or_introl eq_refl)), IH; [reflexivity|]. intros y Hy. apply H. right. exact Hy. Qed.
Lemma flat_map_map {A B C} (f : B -> list C) (g : A -> B) l : flat_map f (map g l) = flat_map (fun x => f (g x)) l.
Proof. induction l as [|x l IH]; [reflexivity|]. cbn. rewrite IH. reflexivity. Qed.

Lemma wr_dec (a b : wr) : {a = b} + {a <> b}.
Proof. decide equality; [apply Z.eq_dec|apply Nat.eq_dec|decide equality]. Qed.
Ltac perm_count := apply (Permutation_count_occ wr_dec); let x := fresh in intros x; rewrite ?count_occ_app; lia.

(** ** Records: a coarse node and its entries, in the order of the new IDs *)
Notation rcd := (nat * list (nat * Z))%type.
Definition rdeg (l : list rcd) : nat := list_sum (map (fun r => length (snd r)) l).
Lemma rdeg_app l1 l2 : rdeg (l1 ++ l2) = rdeg l1 + rdeg l2.
Proof. unfold rdeg. rewrite map_app, list_sum_app. reflexivity. Qed.
Lemma rdeg_one r : rdeg [r] = length (snd r).
Proof. unfold rdeg. cbn. lia. Qed.

Section Writes.
Variable wt : nat -> Z.
Fixpoint asg_writes (i e : nat) (l : list rcd) : list wr :=
  match l with
  | [] => []
  | (c, E) :: t => neighbourhood_writes c (wt c) i e E ++ asg_writes (S i) (e + length E) t
  end.

Lemma asg_writes_app l1 l2 : forall i e, asg_writes i e (l1 ++ l2) = asg_writes i e l1 ++ asg_writes (i + length l1) (e + rdeg l1) l2.
Proof.
  induction l1 as [|[c E] l1 IH]; intros i e; [cbn; rewrite !Nat.add_0_r; reflexivity|]. cbn [app asg_writes]. rewrite IH, <- app_assoc. f_equal. f_equal.
  change ((c, E) :: l1) with ([(c, E)] ++ l1). rewrite rdeg_app, rdeg_one, app_length. cbn [length snd]. f_equal; lia.
Qed.

Lemma edge_writes_app e E1 E2 : edge_writes e (E1 ++ E2) = edge_writes e E1 ++ edge_writes (e + length E1) E2.
Proof.
  unfold edge_writes. rewrite app_length, seq_app, flat_map_app. f_equal.
  - apply flat_map_ext_in. intros j Hj. apply in_seq in Hj. rewrite app_nth1 by lia. reflexivity.
  - cbn [Nat.add]. rewrite <- (Nat.add_0_r (length E1)) at 1. rewrite <- seq_shift_add. rewrite flat_map_map.
    apply flat_map_ext_in. intros j Hj. rewrite app_nth2 by lia. replace (length E1 + j - length E1) with j by lia. rewrite Nat.add_assoc. reflexivity.
Qed.

Lemma asg_writes_grow l c E1 E2 i e : asg_writes i e (l ++ [(c, E1 ++ E2)]) = asg_writes i e (l ++ [(c, E1)]) ++ edge_writes (e + rdeg l + length E1) E2.
Proof.
  rewrite !asg_writes_app. cbn [asg_writes]. rewrite !app_nil_r, <- app_assoc. f_equal. unfold neighbourhood_writes. rewrite edge_writes_app. reflexivity.
Qed.

(** Where a store comes from. *)
Lemma asg_writes_in l w : forall i e, In w (asg_writes i e l) <->
  exists k, k < length l /\ In w (neighbourhood_writes (fst (nth k l (0, []))) (wt (fst (nth k l (0, [])))) (i + k) (e + rdeg (firstn k l)) (snd (nth k l (0, [])))).
Proof.
  induction l as [|[c E] l IH]; intros i e; cbn [asg_writes].
  - split; [intros []|intros (k & Hk & _); cbn in Hk; lia].
  - rewrite in_app_iff, IH. split.
    + intros [H|(k & Hk & H)].
      * exists 0. cbn [length nth fst snd firstn]. rewrite !Nat.add_0_r. split; [lia|]. exact H.
      * exists (S k). cbn [length nth firstn]. split; [lia|]. change (rdeg ((c, E) :: firstn k l)) with (length E + rdeg (firstn k l)).
        rewrite Nat.add_succ_r, Nat.add_assoc. exact H.
    + intros (k & Hk & H). destruct k as [|k].
      * left. cbn [length nth fst snd firstn] in H. rewrite !Nat.add_0_r in H. exact H.
      * right. exists k. cbn [length nth firstn] in *. split; [lia|]. change (rdeg ((c, E) :: firstn k l)) with (length E + rdeg (firstn k l)) in H.
        rewrite Nat.add_succ_r, Nat.add_assoc in H. exact H.
Qed.

Lemma edge_writes_in e E w : In w (edge_writes e E) <-> exists j, j < length E /\
  (w = mkWr AEdge (e + j) (Z.of_nat (fst (nth j E (0, 0%Z)))) \/ w = mkWr AEw (e + j) (snd (nth j E (0, 0%Z)))).
Proof.
  unfold edge_writes. rewrite in_flat_map. split.
  - intros (j & Hj & H). apply in_seq in Hj. exists j. split; [lia|]. destruct H as [<-|[<-|[]]]; auto.
  - intros (j & Hj & H). exists j. rewrite in_seq. split; [lia|]. destruct H as [->| ->]; [left|right; left]; reflexivity.
Qed.

Lemma rdeg_firstn_S l k : k < length l -> rdeg (firstn (S k) l) = rdeg (firstn k l) + length (snd (nth k l (0, []))).
Proof.
  revert k. induction l as [|r l IH]; intros k Hk; [cbn in Hk; lia|]. destruct k as [|k].
  - cbn. lia.
  - change (rdeg (firstn (S (S k)) (r :: l))) with (length (snd r) + rdeg (firstn (S k) l)). rewrite IH by (cbn in Hk; lia).
    change (rdeg (firstn (S k) (r :: l))) with (length (snd r) + rdeg (firstn k l)). cbn [nth]. lia.
Qed.
Lemma rdeg_firstn_le l k k' : k <= k' -> rdeg (firstn k l) <= rdeg (firstn k' l).
Proof.
  intros H. rewrite <- (firstn_skipn k (firstn k' l)), firstn_firstn. replace (Nat.min k k') with k by lia. rewrite rdeg_app. lia.
Qed.

Definition fits (c_n m : nat) (l : list rcd) : Prop := NoDup (map fst l) /\ (forall r, In r l -> fst r < c_n) /\ rdeg l <= m.

Lemma fits_length c_n m l : fits c_n m l -> length l <= c_n.
Proof.
  intros (H1 & H2 & _). rewrite <- (map_length fst). replace c_n with (length (seq 0 c_n)) by apply seq_length. apply NoDup_incl_length; [exact H1|].
  intros c Hc. apply in_map_iff in Hc. destruct Hc as (r & <- & Hr). apply in_seq. specialize (H2 r Hr). lia.
Qed.

Lemma rdeg_firstn_all l k : rdeg (firstn k l) <= rdeg l.
Proof. rewrite <- (firstn_skipn k l) at 2. rewrite rdeg_app. lia. Qed.

Lemma asg_in_bounds c_n m l w : fits c_n m l -> In w (asg_writes 0 0 l) -> w_idx w < arr_size c_n m (w_arr w).
Proof.
  intros HF H. pose proof (fits_length _ _ _ HF) as HL. destruct HF as (F1 & F2 & F3). apply asg_writes_in in H. destruct H as (k & Hk & H).
  assert (Hd := rdeg_firstn_S l k Hk). assert (Ha := rdeg_firstn_all l (S k)).
  unfold neighbourhood_writes in H. destruct H as [<-|[<-|[<-|H]]]; cbn [w_idx w_arr arr_size]; try lia.
  - apply F2, nth_In, Hk.
  - apply edge_writes_in in H. destruct H as (j & Hj & [->| ->]); cbn [w_idx w_arr arr_size]; lia.
Qed.

(** Every location is written with one value only. *)
Lemma asg_agree l w1 w2 : NoDup (map fst l) -> In w1 (asg_writes 0 0 l) -> In w2 (asg_writes 0 0 l) ->
  w_arr w1 = w_arr w2 -> w_idx w1 = w_idx w2 -> w_val w1 = w_val w2.
Proof.
  intros HN H1 H2 HA HI. apply asg_writes_in in H1, H2. destruct H1 as (k1 & K1 & H1), H2 as (k2 & K2 & H2).
  assert (HR : fst (nth k1 l (0, [])) = fst (nth k2 l (0, [])) -> k1 = k2).
  { intros E. rewrite <- !(map_nth fst) in E. apply (proj1 (NoDup_nth (map fst l) 0) HN); rewrite ?map_length; assumption. }
  assert (D1 := rdeg_firstn_S l k1 K1). assert (D2 := rdeg_firstn_S l k2 K2).
  assert (HE : forall j1 j2, j1 < length (snd (nth k1 l (0, []))) -> j2 < length (snd (nth k2 l (0, []))) ->
     0 + rdeg (firstn k1 l) + j1 = 0 + rdeg (firstn k2 l) + j2 -> k1 = k2 /\ j1 = j2).
  { intros j1 j2 J1 J2 E. destruct (lt_eq_lt_dec k1 k2) as [[L|L]|L].
    - assert (M := rdeg_firstn_le l (S k1) k2 L). lia.
    - subst. lia.
    - assert (M := rdeg_firstn_le l (S k2) k1 L). lia. }
  unfold neighbourhood_writes in H1, H2.
  destruct H1 as [<-|[<-|[<-|H1]]]; destruct H2 as [<-|[<-|[<-|H2]]]; cbn [w_arr w_idx w_val] in *; try discriminate;
    try (apply edge_writes_in in H1; destruct H1 as (j1 & J1 & [->| ->])); try (apply edge_writes_in in H2; destruct H2 as (j2 & J2 & [->| ->]));
    cbn [w_arr w_idx w_val] in *; try discriminate.
  - rewrite (HR HI). reflexivity.
  - assert (k1 = k2) by lia. subst. reflexivity.
  - assert (k1 = k2) by lia. subst. reflexivity.
  - destruct (HE j1 j2 J1 J2 HI) as [-> ->]. reflexivity.
  - destruct (HE j1 j2 J1 J2 HI) as [-> ->]. reflexivity.
Qed.

(** ** Memory *)
Definition run_stores (P : list wr) : mem := fold_left store P mem_empty.
Lemma warr_eqb_eq a b : warr_eqb a b = true <-> a = b.
Proof. destruct a, b; split; intros H; try discriminate; reflexivity. Qed.

Lemma run_stores_read P w : (forall w1 w2, In w1 P -> In w2 P -> w_arr w1 = w_arr w2 -> w_idx w1 = w_idx w2 -> w_val w1 = w_val w2) ->
  In w P -> run_stores P (w_arr w) (w_idx w) = Some (w_val w).
Proof.
  unfold run_stores. induction P as [|x P IH] using rev_ind; intros HA Hin; [destruct Hin|]. rewrite fold_left_app. cbn [fold_left]. unfold store at 1.
  destruct (warr_eqb (w_arr x) (w_arr w) && (w_idx x =? w_idx w)) eqn:E.
  - apply andb_true_iff in E. destruct E as [E1 E2]. apply warr_eqb_eq in E1. apply Nat.eqb_eq in E2. f_equal. apply HA; auto. apply in_or_app. right. left. reflexivity.
  - apply IH.
    + intros w1 w2 H1 H2. apply HA; apply in_or_app; left; assumption.
    + apply in_app_or in Hin. destruct Hin as [Hin|[->|[]]]; [exact Hin|]. rewrite (proj2 (warr_eqb_eq _ _) eq_refl), Nat.eqb_refl in E. discriminate.
Qed.

(** ** Buffers *)
Definition nb_of (l : list rcd) : nbuf :=
  mkNb (map fst l) (map (fun i => rdeg (firstn i l)) (seq 0 (S (length l)))) (map (fun r => wt (fst r)) l)
    (flat_map (fun r => map fst (snd r)) l) (flat_map (fun r => map snd (snd r)) l).

Lemma nb_of_edges l : length (nb_edge (nb_of l)) = rdeg l.
Proof. cbn. rewrite length_flat_map_list_sum. unfold rdeg. f_equal. apply map_ext. intros r. apply map_length. Qed.
Lemma nb_of_ew l : length (nb_ew (nb_of l)) = rdeg l.
Proof. cbn. rewrite length_flat_map_list_sum. unfold rdeg. f_equal. apply map_ext. intros r. apply map_length. Qed.
Lemma nb_of_nodes l : length (nb_remap (nb_of l)) = length l.
Proof. cbn. apply map_length. Qed.

Lemma nb_of_last l : last (nb_node (nb_of l)) 0 = rdeg l.
Proof. cbn [nb_node nb_of]. rewrite seq_snoc, map_app. cbn [map Nat.add]. rewrite last_last, firstn_all. reflexivity. Qed.

Lemma nb_of_snoc l c E : mkNb (nb_remap (nb_of l) ++ [c]) (nb_node (nb_of l) ++ [length E + last (nb_node (nb_of l)) 0]) (nb_nw (nb_of l) ++ [wt c])
    (nb_edge (nb_of l) ++ map fst E) (nb_ew (nb_of l) ++ map snd E) = nb_of (l ++ [(c, E)]).
Proof.
  rewrite nb_of_last. unfold nb_of. cbn [nb_remap nb_node nb_nw nb_edge nb_ew]. rewrite !map_app, !flat_map_app. cbn [map flat_map fst snd]. rewrite !app_nil_r. f_equal.
  rewrite app_length. cbn [length]. replace (S (length l + 1)) with (S (S (length l))) by lia. rewrite (seq_snoc 0 (S (length l))), map_app. cbn [map Nat.add]. f_equal.
  - apply map_ext_in. intros i Hi. apply in_seq in Hi. rewrite firstn_app. replace (i - length l) with 0 by lia. cbn [firstn]. rewrite app_nil_r. reflexivity.
  - f_equal. rewrite firstn_all2 by (rewrite app_length; cbn; lia). rewrite rdeg_app, rdeg_one. cbn [snd]. lia.
Qed.

Lemma edge_writes_perm e E : Permutation (edge_writes e E)
  (map (fun j => mkWr AEw (e + j) (snd (nth j E (0, 0%Z)))) (seq 0 (length E)) ++ map (fun j => mkWr AEdge (e + j) (Z.of_nat (fst (nth j E (0, 0%Z))))) (seq 0 (length E))).
Proof.
  unfold edge_writes. induction (seq 0 (length E)) as [|j l IH]; [constructor|]. cbn [flat_map map app].
  etransitivity; [apply perm_swap|]. apply perm_skip. etransitivity; [apply perm_skip, IH|]. apply Permutation_middle.
Qed.

Lemma flush_perm l : forall c e, Permutation (nb_flush_writes (nb_of l) c e) (asg_writes c e l).
Proof.
  induction l as [|[c0 E] l IH] using rev_ind; intros c e; [reflexivity|].
  rewrite asg_writes_app. cbn [asg_writes]. rewrite app_nil_r. rewrite <- (IH c e).
  unfold nb_flush_writes. rewrite !nb_of_edges, !nb_of_ew, !nb_of_nodes, rdeg_app, rdeg_one. cbn [snd].
  assert (Ln : forall l', length (nb_nw (nb_of l')) = length l') by (intros; cbn; apply map_length). rewrite !Ln. rewrite app_length. cbn [length].
  rewrite !seq_app, !map_app, flat_map_app. cbn [Nat.add].
  assert (Lew : length (flat_map (fun r : rcd => map snd (snd r)) l) = rdeg l) by apply nb_of_ew.
  assert (Led : length (flat_map (fun r : rcd => map fst (snd r)) l) = rdeg l) by apply nb_of_edges.
  assert (A1 : map (fun j => mkWr AEw (e + j) (nth j (nb_ew (nb_of (l ++ [(c0, E)]))) 0%Z)) (seq 0 (rdeg l)) = map (fun j => mkWr AEw (e + j) (nth j (nb_ew (nb_of l)) 0%Z)) (seq 0 (rdeg l))).
  { apply map_ext_in. intros j Hj. apply in_seq in Hj. f_equal. cbn [nb_ew nb_of]. rewrite flat_map_app. apply app_nth1. rewrite Lew. lia. }
  assert (A2 : map (fun j => mkWr AEw (e + j) (nth j (nb_ew (nb_of (l ++ [(c0, E)]))) 0%Z)) (seq (rdeg l) (length E)) = map (fun j => mkWr AEw (e + rdeg l + j) (snd (nth j E (0, 0%Z)))) (seq 0 (length E))).
  { rewrite <- (Nat.add_0_r (rdeg l)) at 1. rewrite <- seq_shift_add, map_map. apply map_ext. intros j. rewrite Nat.add_assoc. f_equal. cbn [nb_ew nb_of]. rewrite flat_map_app, app_nth2 by (rewrite Lew; lia).
    rewrite Lew. cbn [flat_map snd]. rewrite app_nil_r. replace (rdeg l + j - rdeg l) with j by lia. apply (map_nth snd E (0, 0%Z)). }
  assert (B1 : map (fun j => mkWr AEdge (e + j) (Z.of_nat (nth j (nb_edge (nb_of (l ++ [(c0, E)]))) 0))) (seq 0 (rdeg l)) = map (fun j => mkWr AEdge (e + j) (Z.of_nat (nth j (nb_edge (nb_of l)) 0))) (seq 0 (rdeg l))).
  { apply map_ext_in. intros j Hj. apply in_seq in Hj. do 2 f_equal. cbn [nb_edge nb_of]. rewrite flat_map_app. apply app_nth1. rewrite Led. lia. }
  assert (B2 : map (fun j => mkWr AEdge (e + j) (Z.of_nat (nth j (nb_edge (nb_of (l ++ [(c0, E)]))) 0))) (seq (rdeg l) (length E)) = map (fun j => mkWr AEdge (e + rdeg l + j) (Z.of_nat (fst (nth j E (0, 0%Z))))) (seq 0 (length E))).
  { rewrite <- (Nat.add_0_r (rdeg l)) at 1. rewrite <- seq_shift_add, map_map. apply map_ext. intros j. rewrite Nat.add_assoc. do 2 f_equal. cbn [nb_edge nb_of]. rewrite flat_map_app, app_nth2 by (rewrite Led; lia).
    rewrite Led. cbn [flat_map snd]. rewrite app_nil_r. replace (rdeg l + j - rdeg l) with j by lia. apply (map_nth fst E (0, 0%Z)). }
  assert (C1 : map (fun i => mkWr ANw (c + i) (nth i (nb_nw (nb_of (l ++ [(c0, E)]))) 0%Z)) (seq 0 (length l)) = map (fun i => mkWr ANw (c + i) (nth i (nb_nw (nb_of l)) 0%Z)) (seq 0 (length l))).
  { apply map_ext_in. intros j Hj. apply in_seq in Hj. f_equal. cbn [nb_nw nb_of]. rewrite map_app. apply app_nth1. rewrite map_length. lia. }
  assert (C2 : map (fun i => mkWr ANw (c + i) (nth i (nb_nw (nb_of (l ++ [(c0, E)]))) 0%Z)) (seq (length l) 1) = [mkWr ANw (c + length l) (wt c0)]).
  { cbn [seq map]. do 2 f_equal. cbn [nb_nw nb_of]. rewrite map_app, app_nth2, map_length, Nat.sub_diag by (rewrite map_length; lia). reflexivity. }
  set (F := fun b i => [mkWr ARemap (nth i (nb_remap b) 0) (Z.of_nat (c + i)); mkWr ANode (c + i) (Z.of_nat (nth i (nb_node b) 0 + e))]).
  assert (D1 : flat_map (F (nb_of (l ++ [(c0, E)]))) (seq 0 (length l)) = flat_map (F (nb_of l)) (seq 0 (length l))).
  { apply flat_map_ext_in. intros i Hi. apply in_seq in Hi. unfold F. cbn [nb_remap nb_node nb_of]. rewrite map_app, app_nth1 by (rewrite map_length; lia).
    rewrite !nth_map_seq by (rewrite ?app_length; cbn; lia). cbn [Nat.add]. rewrite firstn_app. replace (i - length l) with 0 by lia. cbn [firstn]. rewrite app_nil_r. reflexivity. }
  assert (D2 : flat_map (F (nb_of (l ++ [(c0, E)]))) (seq (length l) 1) = [mkWr ARemap c0 (Z.of_nat (c + length l)); mkWr ANode (c + length l) (Z.of_nat (e + rdeg l))]).
  { cbn [seq flat_map app]. unfold F. cbn [nb_remap nb_node nb_of]. rewrite map_app, app_nth2, map_length, Nat.sub_diag by (rewrite map_length; lia). cbn [map nth fst].
    rewrite !nth_map_seq by (rewrite ?app_length; cbn; lia). cbn [Nat.add]. rewrite firstn_app, firstn_all, Nat.sub_diag. cbn [firstn]. rewrite !app_nil_r, (Nat.add_comm (rdeg l)). reflexivity. }
  unfold F in D1, D2. rewrite A1, A2, B1, B2, C1, C2, D1, D2. unfold neighbourhood_writes. rewrite (edge_writes_perm (e + rdeg l) E).
  generalize (map (fun j => mkWr AEw (e + j) (nth j (nb_ew (nb_of l)) 0%Z)) (seq 0 (rdeg l))) (map (fun j => mkWr AEdge (e + j) (Z.of_nat (nth j (nb_edge (nb_of l)) 0))) (seq 0 (rdeg l)))
    (map (fun i => mkWr ANw (c + i) (nth i (nb_nw (nb_of l)) 0%Z)) (seq 0 (length l))) (flat_map (F (nb_of l)) (seq 0 (length l)))
    (map (fun j => mkWr AEw (e + rdeg l + j) (snd (nth j E (0, 0%Z)))) (seq 0 (length E))) (map (fun j => mkWr AEdge (e + rdeg l + j) (Z.of_nat (fst (nth j E (0, 0%Z))))) (seq 0 (length E))).
  intros a b n d a' b'. fold (F (nb_of l)).
  change (mkWr ARemap c0 (Z.of_nat (c + length l)) :: mkWr ANode (c + length l) (Z.of_nat (e + rdeg l)) :: mkWr ANw (c + length l) (wt c0) :: a' ++ b')
    with ([mkWr ARemap c0 (Z.of_nat (c + length l)); mkWr ANode (c + length l) (Z.of_nat (e + rdeg l))] ++ [mkWr ANw (c + length l) (wt c0)] ++ a' ++ b').
  perm_count.
Qed.
End Writes.
