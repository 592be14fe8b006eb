(* The topology in one statement, and concrete instances of the all-to-all. *)
From Verif Require Import Lib.Prelude Model.GridModel Proofs.GridBase Proofs.GridTopo Proofs.GridProofs.

Theorem topology_ok P : 0 < P ->
  (forall r q, r < P -> q < P -> gt_row P r = gt_row P q -> gt_col P r = gt_col P q -> r = q) /\
  (forall r, r < P -> gt_row P r < gt_rows P /\ gt_col P r < gt_row_size P (gt_row P r) /\ gt_vcol P r < gt_full_cols P) /\
  (forall row x, row < gt_rows P -> x < gt_row_size P row -> exists r, r < P /\ gt_row P r = row /\ gt_col P r = x) /\
  (forall r q, r < P -> q < P -> (In q (row_comm P r) <-> gt_row P q = gt_row P r) /\ (In q (col_comm P r) <-> gt_vcol P q = gt_vcol P r)) /\
  (forall r, r < P -> length (row_comm P r) = gt_row_size P (gt_row P r) /\ length (col_comm P r) = gt_vcol_size P (gt_vcol P r) /\
     forall i, i < length (col_comm P r) -> nth i (col_comm P r) 0 = gt_velem P i (gt_vcol P r)) /\
  (forall v i, v < gt_full_cols P -> i < gt_vcol_size P v -> gt_velem P i v < P /\ gt_vcol P (gt_velem P i v) = v).
Proof.
  intros HP. split; [|split; [|split; [|split; [|split]]]].
  - intros r q Hr Hq E1 E2. destruct (pos_of P HP r Hr) as (_ & _ & A). destruct (pos_of P HP q Hq) as (_ & _ & C). rewrite A, C, E1, E2. reflexivity.
  - intros r Hr. destruct (pos_of P HP r Hr) as (A & C & _). repeat split; [exact A|exact C|apply vcol_lt; assumption].
  - intros row x H Hx. exists (start P row + x). destruct (pos_row_col P HP row x H Hx) as [A C]. repeat split; trivial. apply pos_lt; assumption.
  - intros r q Hr Hq. destruct (pos_of P HP r Hr) as (A & _). rewrite row_comm_is, col_comm_is, in_rmembers, in_cmembers by (trivial; apply vcol_lt; assumption). intuition.
  - intros r Hr. rewrite row_comm_is, col_comm_is by assumption. unfold rmembers, cmembers. rewrite !map_length, !seq_length. repeat split. intros i Hi.
    apply (nth_error_nth _ _ 0 (nth_error_map_seq (fun j => gt_velem P j (gt_vcol P r)) _ i Hi)).
  - intros v i Hv Hi. assert (I : In (gt_velem P i v) (cmembers P v)) by (unfold cmembers; apply in_map_iff; exists i; split; [reflexivity|apply in_seq; lia]).
    apply in_cmembers in I; assumption.
Qed.
Theorem dense_delivers P X (dummy : X) B : 0 < P -> length B = P -> (forall b, In b B -> length b = P) ->
  dense_alltoall P dummy B = Some (map (fun d => map (fun r => (r, nth d (nth r B []) [])) (seq 0 P)) (seq 0 P)).
Proof. intros HP HB HBr. exact (dense_ok P HP dummy B HB HBr). Qed.

(** Seven ranks: two rows, of four and three. Rank [r] sends [(r + d) mod 3] numbers to rank [d]. *)
Definition ex_bufs (P : nat) : list (list (list nat)) :=
  map (fun r => map (fun d => map (fun i => 100 * r + 10 * d + i) (seq 0 ((r + d) mod 3))) (seq 0 P)) (seq 0 P).
Lemma ex_bufs_ok P : length (ex_bufs P) = P /\ forall b, In b (ex_bufs P) -> length b = P.
Proof.
  unfold ex_bufs. rewrite map_length, seq_length. split; [reflexivity|]. intros b Hb. apply in_map_iff in Hb. destruct Hb as (r & <- & _). rewrite map_length, seq_length. reflexivity.
Qed.
