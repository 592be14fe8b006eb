(* The grid topology: positions of ranks and the members of rows and (virtual) columns. *)
From Verif Require Import Lib.Prelude Model.GridModel Proofs.GridBase.
From Coq Require Import Sorting.Sorted.

Lemma seq_shift_add a b n : map (fun i => a + i) (seq b n) = seq (a + b) n.
Proof. revert b. induction n as [|n IH]; intros b; [reflexivity|]. cbn [seq map]. f_equal. rewrite IH. f_equal. lia. Qed.

Section Topo.
Variable P : nat.
Hypothesis HP : 0 < P.
Notation s := (gt_sqrt P).
Notation f := (gt_full_cols P).
Notation p := (gt_partial P).
Notation c := (gt_cols P).

Lemma topo_facts : 1 <= s /\ s <= f /\ p < s /\ P = s * f + p /\ c = f + (if p =? 0 then 0 else 1).
Proof.
  pose proof (Nat.sqrt_spec P (Nat.le_0_l P)) as [A B]. fold s in A, B.
  assert (H1 : 1 <= s) by nia.
  pose proof (Nat.div_mod P s ltac:(lia)) as D. pose proof (Nat.mod_upper_bound P s ltac:(lia)) as U.
  assert (Ep : p = P mod s) by (unfold gt_partial, gt_full_cols; lia).
  split; [exact H1|]. split; [unfold gt_full_cols; apply Nat.div_le_lower_bound; lia|]. split; [lia|]. split; [unfold gt_partial, gt_full_cols in *; lia|].
  unfold gt_cols. rewrite Ep. reflexivity.
Qed.

(** First rank of a row. *)
Definition start (row : nat) : nat := if row <? p then row * c else row * f + p.
Lemma row_size_eq row : gt_row_size P row = gt_cols_in_row P row.
Proof.
  destruct topo_facts as (_ & _ & _ & _ & C). unfold gt_row_size, gt_cols_in_row. destruct (Nat.ltb_spec row p); [|lia]. rewrite C. destruct (Nat.eqb_spec p 0); lia.
Qed.
Lemma row_size_pos row : f <= gt_row_size P row <= f + 1.
Proof. rewrite row_size_eq. unfold gt_cols_in_row. destruct (row <? p); lia. Qed.
Lemma start_S row : start (S row) = start row + gt_row_size P row.
Proof.
  destruct topo_facts as (_ & _ & _ & _ & C). unfold start, gt_row_size. destruct (Nat.eqb_spec p 0) as [E|E].
  - rewrite E. cbn [Nat.ltb Nat.leb]. lia.
  - destruct (Nat.ltb_spec row p) as [A|A]; destruct (Nat.ltb_spec (S row) p) as [B|B]; try lia; try nia.
Qed.
Lemma start_s : start s = P.
Proof. destruct topo_facts as (A & B & C & D & E). unfold start. destruct (Nat.ltb_spec s p); lia. Qed.
Lemma start_le a b : a <= b -> start a <= start b.
Proof. induction 1 as [|b H IH]; [lia|]. rewrite start_S. lia. Qed.
Lemma pos_lt row x : row < s -> x < gt_row_size P row -> start row + x < P.
Proof. intros H Hx. pose proof start_s as Q. pose proof (start_le (S row) s ltac:(lia)) as L. rewrite start_S in L. lia. Qed.
Lemma pos_row_col row x : row < s -> x < gt_row_size P row -> gt_row P (start row + x) = row /\ gt_col P (start row + x) = x.
Proof.
  intros H Hx. pose proof (pos_lt row x H Hx) as Hlt. destruct topo_facts as (A & B & C & D & E). unfold gt_row, gt_col, gt_rect, start, gt_row_size in *.
  destruct (Nat.eqb_spec p 0) as [Z|Z].
  - rewrite Z in *. replace (row <? 0) with false in * by (symmetry; apply Nat.ltb_ge; lia). replace c with f by lia. destruct (Nat.ltb_spec (row * f + 0 + x) P) as [L|L]; [|lia].
    rewrite Nat.add_0_r. split; [symmetry; apply Nat.div_unique with x; lia|symmetry; apply Nat.mod_unique with row; lia].
  - destruct (Nat.ltb_spec row p) as [R|R].
    + destruct (Nat.ltb_spec (row * c + x) (c * p)) as [L|L]; [|pose proof (Nat.mul_le_mono_l (S row) p c R); lia].
      split; [symmetry; apply Nat.div_unique with x; lia|symmetry; apply Nat.mod_unique with row; lia].
    + destruct (Nat.ltb_spec (row * f + p + x) (c * p)) as [L|L]; [pose proof (Nat.mul_le_mono_l p row f R); rewrite E in L; lia|].
      assert (X : row * f + p + x - c * p = f * (row - p) + x) by (rewrite E, Nat.mul_sub_distr_l; pose proof (Nat.mul_le_mono_l p row f R); lia). rewrite X.
      split; [rewrite <- (Nat.div_unique (f * (row - p) + x) f (row - p) x) by lia; lia|symmetry; apply Nat.mod_unique with (row - p); lia].
Qed.
Lemma rows_to n : flat_map (fun row => map (fun x => start row + x) (seq 0 (gt_row_size P row))) (seq 0 n) = seq 0 (start n).
Proof.
  induction n as [|n IH]; [unfold start; destruct topo_facts as (_ & _ & _ & _ & C); destruct (Nat.ltb_spec 0 p); [reflexivity|cbn; replace p with 0 by lia; reflexivity]|].
  rewrite seq_S, flat_map_app, IH. cbn [flat_map Nat.add]. rewrite app_nil_r, start_S, seq_app. cbn [Nat.add]. f_equal.
  rewrite seq_shift_add, Nat.add_0_r. reflexivity.
Qed.
Lemma seq_rows : seq 0 P = flat_map (fun row => map (fun x => start row + x) (seq 0 (gt_row_size P row))) (seq 0 s).
Proof. rewrite rows_to, start_s. reflexivity. Qed.
Lemma pos_of r : r < P -> gt_row P r < s /\ gt_col P r < gt_row_size P (gt_row P r) /\ r = start (gt_row P r) + gt_col P r.
Proof.
  intros H. assert (I : In r (seq 0 P)) by (apply in_seq; lia). rewrite seq_rows in I. apply in_flat_map in I. destruct I as (row & Hr & I). apply in_map_iff in I. destruct I as (x & E & Hx).
  apply in_seq in Hr. apply in_seq in Hx. destruct (pos_row_col row x) as [A B]; [lia|lia|]. rewrite <- E, A, B. repeat split; lia.
Qed.

(** Columns with the ranks of the last, partial column attached. *)
Lemma velem_row row v : row < s -> gt_velem P row v = start row + v.
Proof.
  intros H. unfold gt_velem, start, gt_rows. destruct (Nat.ltb_spec row p); [reflexivity|]. destruct (Nat.ltb_spec row s); lia.
Qed.
Lemma velem_last v : v < p -> gt_velem P s v = start v + f.
Proof.
  intros H. destruct topo_facts as (A & B & C & D & E). unfold gt_velem, start, gt_rows. destruct (Nat.ltb_spec s p); [lia|]. rewrite Nat.ltb_irrefl.
  destruct (Nat.ltb_spec v p); [|lia]. destruct (Nat.eqb_spec p 0); [lia|]. rewrite E. lia.
Qed.
Definition cmembers (v : nat) : list nat := map (fun j => gt_velem P j v) (seq 0 (gt_vcol_size P v)).
Definition rmembers (row : nat) : list nat := map (fun x => start row + x) (seq 0 (gt_row_size P row)).
Lemma real_col row x : row < s -> x < f -> let r := start row + x in r < P /\ gt_row P r = row /\ gt_col P r = x /\ gt_vcol P r = x /\ real P r = true.
Proof.
  intros H Hx. pose proof (row_size_pos row) as Q. destruct (pos_row_col row x) as [A B]; [exact H|lia|]. cbn. pose proof (pos_lt row x H ltac:(lia)) as L.
  assert (V : gt_vcol P (start row + x) = x). { unfold gt_vcol. rewrite B. destruct (p =? 0); [reflexivity|]. cbn [orb]. destruct (Nat.ltb_spec x f); [reflexivity|lia]. }
  repeat split; trivial. unfold real. rewrite B, V. apply Nat.eqb_refl.
Qed.
Lemma virtual_col row : row < p -> let r := start row + f in r < P /\ gt_row P r = row /\ gt_col P r = f /\ gt_vcol P r = row /\ real P r = false.
Proof.
  intros H. destruct topo_facts as (A & B & C & D & E). assert (Q : gt_row_size P row = f + 1) by (rewrite row_size_eq; unfold gt_cols_in_row; destruct (Nat.ltb_spec row p); lia).
  destruct (pos_row_col row f) as [R1 R2]; [lia|lia|]. cbn. pose proof (pos_lt row f ltac:(lia) ltac:(lia)) as L.
  assert (V : gt_vcol P (start row + f) = row). { unfold gt_vcol. rewrite R1, R2, Nat.ltb_irrefl. destruct (Nat.eqb_spec p 0); [lia|reflexivity]. }
  repeat split; trivial. unfold real. rewrite R2, V. apply Nat.eqb_neq. lia.
Qed.
(** Every rank is in one of these two positions. *)
Lemma rank_cases r : r < P -> (exists row x, row < s /\ x < f /\ r = start row + x) \/ (exists row, row < p /\ r = start row + f).
Proof.
  intros H. destruct (pos_of r H) as (A & B & E). destruct (Nat.lt_ge_cases (gt_col P r) f) as [L|L]; [left; eauto 6|]. right. exists (gt_row P r).
  rewrite row_size_eq in B. unfold gt_cols_in_row in B. destruct (Nat.ltb_spec (gt_row P r) p); [|lia]. split; [assumption|]. replace f with (gt_col P r) by lia. exact E.
Qed.
Lemma vcol_size_eq v : v < f -> cmembers v = map (fun j => start j + v) (seq 0 s) ++ (if v <? p then [start v + f] else []).
Proof.
  intros H. unfold cmembers, gt_vcol_size. rewrite seq_app, map_app. f_equal; [apply map_ext_in; intros j Hj; apply in_seq in Hj; apply velem_row; lia|].
  destruct (Nat.ltb_spec v p); [|reflexivity]. cbn [seq map Nat.add]. rewrite velem_last by assumption. reflexivity.
Qed.
Lemma in_cmembers v x : v < f -> (In x (cmembers v) <-> x < P /\ gt_vcol P x = v).
Proof.
  intros Hv. destruct topo_facts as (A & B & C & D & E). rewrite vcol_size_eq, in_app_iff by exact Hv. split.
  - intros [H|H].
    + apply in_map_iff in H. destruct H as (j & <- & Hj). apply in_seq in Hj. destruct (real_col j v) as (Q1 & _ & _ & Q2 & _); [lia|exact Hv|]. tauto.
    + destruct (Nat.ltb_spec v p) as [L|L]; [|destruct H]. destruct H as [<-|[]]. destruct (virtual_col v L) as (Q1 & _ & _ & Q2 & _). tauto.
  - intros [Hx E1]. destruct (rank_cases x Hx) as [(row & y & H1 & H2 & ->)|(row & H1 & ->)].
    + left. destruct (real_col row y H1 H2) as (_ & _ & _ & Q & _). apply in_map_iff. exists row. rewrite in_seq. split; [congruence|lia].
    + right. destruct (virtual_col row H1) as (_ & _ & _ & Q & _). replace v with row by congruence. destruct (Nat.ltb_spec row p); [left; reflexivity|lia].
Qed.
Lemma in_rmembers row x : row < s -> (In x (rmembers row) <-> x < P /\ gt_row P x = row).
Proof.
  intros H. unfold rmembers. rewrite in_map_iff. split.
  - intros (y & <- & Hy). apply in_seq in Hy. destruct (pos_row_col row y) as [A _]; [exact H|lia|]. split; [apply pos_lt; lia|exact A].
  - intros [Hx E]. destruct (pos_of x Hx) as (A & B & C). exists (gt_col P x). rewrite in_seq. subst row. split; [lia|lia].
Qed.
Lemma vcol_lt r : r < P -> gt_vcol P r < f.
Proof.
  intros H. destruct topo_facts as (A & B & C & D & E). destruct (rank_cases r H) as [(row & x & H1 & H2 & ->)|(row & H1 & ->)].
  - destruct (real_col row x H1 H2) as (_ & _ & _ & Q & _). lia.
  - destruct (virtual_col row H1) as (_ & _ & _ & Q & _). lia.
Qed.
Lemma sorted_app (R : nat -> nat -> Prop) l1 l2 : StronglySorted R l1 -> StronglySorted R l2 -> (forall x y, In x l1 -> In y l2 -> R x y) -> StronglySorted R (l1 ++ l2).
Proof.
  induction l1 as [|a t IH]; intros S1 S2 H; [exact S2|]. inversion S1 as [|? ? S1' F]; subst. cbn [app]. constructor.
  - apply IH; [exact S1'|exact S2|]. intros x y Hx Hy. apply H; [right; exact Hx|exact Hy].
  - rewrite Forall_forall in *. intros x Hx. apply in_app_iff in Hx. destruct Hx as [Hx|Hx]; [apply F, Hx|apply H; [left; reflexivity|exact Hx]].
Qed.
Lemma sorted_map_seq (R : nat -> nat -> Prop) (h : nat -> nat) n : forall b, (forall i j, b <= i -> i < j -> j < b + n -> R (h i) (h j)) -> StronglySorted R (map h (seq b n)).
Proof.
  induction n as [|n IH]; intros b H; cbn [seq map]; constructor.
  - apply IH. intros i j Hi Hij Hj. apply H; lia.
  - rewrite Forall_forall. intros x Hx. apply in_map_iff in Hx. destruct Hx as (j & <- & Hj). apply in_seq in Hj. apply H; lia.
Qed.
Lemma start_lt a b : a < b -> start a < start b.
Proof. intros H. pose proof (start_le (S a) b H) as L. rewrite start_S in L. pose proof (row_size_pos a). destruct topo_facts as (A & B & _). lia. Qed.
Lemma row_comm_is r : r < P -> row_comm P r = rmembers (gt_row P r).
Proof.
  intros H. destruct (pos_of r H) as (A & B & C). unfold row_comm. apply comm_split_is; [intros; assumption| |intros x; apply in_rmembers; exact A].
  apply sorted_map_seq. intros i j Hi Hij Hj. lia.
Qed.
Lemma col_comm_is r : r < P -> col_comm P r = cmembers (gt_vcol P r).
Proof.
  intros H. pose proof (vcol_lt r H) as V. unfold col_comm. destruct topo_facts as (A & B & C & D & E). apply comm_split_is; [| |intros x; apply in_cmembers; exact V].
  - intros x y Hx Hy. destruct (gt_vcol P x =? gt_col P x), (gt_vcol P y =? gt_col P y); lia.
  - rewrite vcol_size_eq by exact V. set (v := gt_vcol P r) in *.
    assert (K : forall j, j < s -> (if gt_vcol P (start j + v) =? gt_col P (start j + v) then start j + v else P + (start j + v)) = start j + v).
    { intros j Hj. destruct (real_col j v Hj V) as (_ & _ & Q1 & Q2 & _). rewrite Q1, Q2, Nat.eqb_refl. reflexivity. }
    apply sorted_app.
    + apply sorted_map_seq. intros i j Hi Hij Hj. rewrite !K by lia. pose proof (start_lt i j Hij). lia.
    + destruct (v <? p); repeat constructor.
    + intros x y Hx Hy. destruct (Nat.ltb_spec v p) as [L|L]; [|destruct Hy]. destruct Hy as [<-|[]]. apply in_map_iff in Hx. destruct Hx as (j & <- & Hj). apply in_seq in Hj. rewrite K by lia.
      destruct (virtual_col v L) as (_ & _ & Q1 & Q2 & _). rewrite Q1, Q2. destruct (Nat.eqb_spec v f); [lia|]. destruct (real_col j v) as (Q & _); [lia|exact V|]. lia.
Qed.
Lemma comm_self r : r < P -> In r (row_comm P r) /\ In r (col_comm P r).
Proof.
  intros H. destruct (pos_of r H) as (A & _). rewrite row_comm_is, col_comm_is by exact H. rewrite in_rmembers by exact A. rewrite in_cmembers by (apply vcol_lt; exact H). auto.
Qed.
Lemma row_comm_mem r q : r < P -> In q (row_comm P r) -> q < P /\ row_comm P q = row_comm P r.
Proof.
  intros H Hq. destruct (pos_of r H) as (A & _). rewrite (row_comm_is r) in Hq |- * by exact H. apply in_rmembers in Hq; [|exact A]. destruct Hq as [H1 H2]. rewrite row_comm_is, H2 by exact H1. auto.
Qed.
Lemma col_comm_mem r q : r < P -> In q (col_comm P r) -> q < P /\ col_comm P q = col_comm P r.
Proof.
  intros H Hq. rewrite (col_comm_is r) in Hq |- * by exact H. apply in_cmembers in Hq; [|apply vcol_lt; exact H]. destruct Hq as [H1 H2]. rewrite col_comm_is, H2 by exact H1. auto.
Qed.
Lemma rcs_is r : r < P -> rcs P r = gt_row_size P (gt_row P r).
Proof. intros H. unfold rcs. rewrite row_comm_is by exact H. unfold rmembers. rewrite map_length, seq_length. reflexivity. Qed.
Lemma ccs_is r : r < P -> ccs P r = gt_vcol_size P (gt_vcol P r).
Proof. intros H. unfold ccs. rewrite col_comm_is by exact H. unfold cmembers. rewrite map_length, seq_length. reflexivity. Qed.
Lemma vcol_sizes : list_sum (map (gt_vcol_size P) (seq 0 f)) = P.
Proof.
  destruct topo_facts as (A & B & C & D & E).
  assert (G : forall n, list_sum (map (gt_vcol_size P) (seq 0 n)) = n * s + Nat.min n p).
  { induction n as [|n IH]; [reflexivity|]. rewrite seq_S, map_app, list_sum_app, IH. cbn [map Nat.add]. unfold list_sum. cbn [fold_right]. unfold gt_vcol_size. destruct (Nat.ltb_spec n p); lia. }
  rewrite G. lia.
Qed.
(** The virtual columns list every rank once. *)
Lemma order_perm : Permutation (map (fun cr => gt_velem P (snd cr) (fst cr)) (g_order P)) (seq 0 P).
Proof.
  apply Permutation_sym. apply NoDup_Permutation_bis; [apply seq_NoDup| |].
  - rewrite map_length, seq_length. apply Nat.eq_le_incl. unfold g_order. rewrite <- vcol_sizes at 2. generalize (seq 0 f). intros l. induction l as [|v t IH]; [reflexivity|].
    cbn [flat_map map]. rewrite app_length, IH, map_length, seq_length. reflexivity.
  - intros r Hr. apply in_seq in Hr. assert (Hr' : r < P) by lia. pose proof (vcol_lt r Hr') as V. assert (I : In r (cmembers (gt_vcol P r))) by (apply in_cmembers; auto).
    apply in_map_iff in I. destruct I as (j & E & Hj). apply in_map_iff. exists (gt_vcol P r, j). split; [exact E|]. apply in_flat_map. exists (gt_vcol P r). split; [apply in_seq; lia|]. apply in_map. exact Hj.
Qed.
End Topo.

