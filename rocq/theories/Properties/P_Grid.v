(* Property theorems for the all-to-all communication (C41). *)
From Verif Require Import Lib.Prelude Model.GridModel Model.MpiModel Spec.Schedules Proofs.GridProofs Proofs.GridExamples Proofs.CompleteProofs.

(** C41: for every number [P] of ranks and all buffers ([nth d (nth r B [])] is what rank [r] sends to rank [d]; any lengths),
    no rank leaves an array and all collectives match, and the receiver of every rank [d] is called exactly once for every
    sender, with the message this sender has for [d]. [dummy]: the contents of fresh memory. *)
Theorem C41_grid_delivers : forall (P : nat) (X : Type) (dummy : X) (B : list (list (list X))),
  0 < P -> length B = P -> (forall b, In b B -> length b = P) ->
  exists calls, grid_alltoall_buffers P dummy B = Some calls /\ length calls = P /\
    forall d, d < P -> Permutation (nth d calls []) (map (fun r => (r, nth d (nth r B []) [])) (seq 0 P)).
Proof. exact (fun P X dummy B HP HB HBr => grid_delivers P HP dummy B HB HBr). Qed.
Print Assumptions C41_grid_delivers.
(** Seven ranks: rows of four and three, rank 3 is attached to the first column. *)
Example C41_grid_ex : length (ex_bufs 7) = 7 /\ (forall b, In b (ex_bufs 7) -> length b = 7) /\
  option_map (fun l => nth 5 l []) (grid_alltoall_buffers 7 0 (ex_bufs 7)) =
    Some [(0, [50; 51]); (4, []); (3, [350; 351]); (1, []); (5, [550]); (2, [250]); (6, [650; 651])].
Proof. split; [apply ex_bufs_ok|split; [apply ex_bufs_ok|vm_compute; reflexivity]]. Qed.

(** C41: the same for the exchange with a single MPI_Alltoallv, in the order of the ranks. *)
Theorem C41_dense_delivers : forall (P : nat) (X : Type) (dummy : X) (B : list (list (list X))),
  0 < P -> length B = P -> (forall b, In b B -> length b = P) ->
  dense_alltoall P dummy B = Some (map (fun d => map (fun r => (r, nth d (nth r B []) [])) (seq 0 P)) (seq 0 P)).
Proof. exact dense_delivers. Qed.
Print Assumptions C41_dense_delivers.
Example C41_dense_ex : option_map (fun l => nth 1 l []) (dense_alltoall 3 0 (ex_bufs 3)) = Some [(0, [10]); (1, [110; 111]); (2, [])].
Proof. vm_compute. reflexivity. Qed.

(** C41: the exchange with point-to-point messages (the default). Whatever the order in which the ranks proceed and whether or
    not a send waits for its receiver ([sy]): the exchange ends, nobody gets stuck, and the receiver of rank [d] has been called
    with the message of every rank for [d], in the order of the ranks. *)
Theorem C41_complete_delivers : forall (X : Type) (sy : nat -> nat -> bool) (P : nat) (B : list (list (list X))),
  length B = P -> (forall b, In b B -> length b = P) ->
  always_returns (map (fun r => complete_prog sy P r (nth r B [])) (seq 0 P))
                 (fun d => map (fun r => (r, nth d (nth r B []) [])) (seq 0 P)).
Proof. exact (fun X sy P B HB HBr => complete_ok sy P B HB HBr). Qed.
Print Assumptions C41_complete_delivers.
(** Two ranks, sends that wait: a complete run, and one in which rank 1 has to wait after its first step. *)
Example C41_complete_ex :
  let procs := map (fun r => complete_prog (fun _ _ => true) 2 r (nth r (ex_bufs 2) [])) (seq 0 2) in
  option_map s_procs (run [0; 1; 1; 1; 0; 0; 0; 1] (start procs)) = Some [Ret [(0, []); (1, [100])]; Ret [(0, [10]); (1, [110; 111])]] /\
  (exists s, run [1] (start procs) = Some s /\ step 1 s = None).
Proof. split; [vm_compute; reflexivity|eexists; split; vm_compute; reflexivity]. Qed.

(** C41: ranks and positions of the grid correspond one to one; the communicators contain the ranks of the row and of the
    (virtual) column and have the stated sizes; the i-th member of a column is [gt_velem] i, always a rank of this column. *)
Theorem C41_topology : forall P, 0 < P ->
  (forall r q, r < P -> q < P -> gt_row P r = gt_row P q -> gt_col P r = gt_col P q -> r = q) /\
  (forall r, r < P -> gt_row P r < gt_rows P /\ gt_col P r < gt_row_size P (gt_row P r) /\ gt_vcol P r < gt_full_cols P) /\
  (forall row x, row < gt_rows P -> x < gt_row_size P row -> exists r, r < P /\ gt_row P r = row /\ gt_col P r = x) /\
  (forall r q, r < P -> q < P -> (In q (row_comm P r) <-> gt_row P q = gt_row P r) /\ (In q (col_comm P r) <-> gt_vcol P q = gt_vcol P r)) /\
  (forall r, r < P -> length (row_comm P r) = gt_row_size P (gt_row P r) /\ length (col_comm P r) = gt_vcol_size P (gt_vcol P r) /\
     forall i, i < length (col_comm P r) -> nth i (col_comm P r) 0 = gt_velem P i (gt_vcol P r)) /\
  (forall v i, v < gt_full_cols P -> i < gt_vcol_size P v -> gt_velem P i v < P /\ gt_vcol P (gt_velem P i v) = v).
Proof. exact topology_ok. Qed.
Print Assumptions C41_topology.
Example C41_topology_ex : row_comm 7 5 = [4; 5; 6] /\ col_comm 7 3 = [0; 4; 3] /\ gt_vcol 7 3 = 0 /\ gt_col 7 3 = 3.
Proof. vm_compute. auto. Qed.
