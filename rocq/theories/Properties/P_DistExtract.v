(* C69: block-induced subgraphs of distributed graphs, and the way back. *)
From Verif Require Import Lib.Prelude Model.GridModel Model.DistGraphModel Model.ReplicateModel Model.DistExtractModel Spec.Graph Spec.DistGraphSpec Spec.ReplicateSpec Spec.DistJetSpec
  Spec.DistExtractSpec Proofs.ReplicateExamples Proofs.RearrangeExamples Proofs.ExtractFinal Proofs.ExtractExamples.

(** Every rank gets exactly the blocks that it works on, and for each of them the subgraph that the block induces in the whole graph. All copies of a block
    number its nodes in the same way (ns b), and the positions say which rank of the distributed graph owns which of its nodes. In any order of the
    iterations, threads and messages. Partial: numbers of ranks and blocks that are [supported]. *)
Theorem C69_subgraphs_partial P k G dist edist d parts part ex :
  distributed P G dist edist d -> closed_graph G -> symmetric_adjacency G -> (forall g, g < gn G -> part g < k) -> agree P d parts part -> supported P k ->
  extract_outcome P k d parts ex ->
  exists ns : nat -> list nat, forall r, r < P -> exists bs l, gather P k (map ex (seq 0 P)) r = Some l /\ NoDup bs /\ (forall b, In b bs <-> b < k /\ works_on P k r b) /\
    Forall2 (fun b (x : csr * list nat) => let (c, offs) := x in induced_by G part b (ns b) (user_graph (cs_nodes c) (cs_edges c) (cs_nw c) (cs_ew c)) /\
      forall q i, q < P -> i < length (ns b) -> (owns dist q (nth i (ns b) 0) <-> nth q offs 0 <= i < nth (S q) offs 0)) bs l.
Proof. exact (fun a b c e f g => subgraphs_ok P k G dist edist d parts part a b c e f ex g). Qed.
Print Assumptions C69_subgraphs_partial.
Example C69_subgraphs_example : distributed 4 v_graph (z_dist 4) (z_edist 4) v_dcsr /\ closed_graph v_graph /\ symmetric_adjacency v_graph /\ supported 4 2 /\
  extract_outcome 4 2 v_dcsr v_parts' v_extracted /\ few_left 4 2 /\ agree 4 v_dcsr v_parts' v_part /\ (forall g, g < gn v_graph -> v_part g < 2) /\
  (forall r, r < 4 -> gather 4 2 (map v_extracted (seq 0 4)) r = Some [(v_sub r, v_offs r)] /\ length (v_pl r) = gn (user_graph (cs_nodes (v_sub r)) (cs_edges (v_sub r)) (cs_nw (v_sub r)) (cs_ew (v_sub r)))).
Proof. exact (conj v_distributed (conj v_closed (conj v_symmetric (conj v_supported v_hypotheses)))). Qed.

(** For all numbers of ranks and blocks the local part succeeds. *)
Theorem C69_extracts P k G dist edist d parts part :
  distributed P G dist edist d -> closed_graph G -> symmetric_adjacency G -> (forall g, g < gn G -> part g < k) -> agree P d parts part -> exists ex, extract_outcome P k d parts ex.
Proof. exact (extract_exists P k G dist edist d parts part). Qed.
Print Assumptions C69_extracts.

(** Given partitions of the subgraphs into [mult] blocks, the result is one partition, known to all ranks: block b is split into blocks b * mult, ..., as in the
    partition of its subgraph of a rank that works on b and whose partition has the smallest cut of those. The operation always completes.
    Partial: at most as many blocks as ranks. *)
Theorem C69_projection_partial P k G dist edist d parts part ex cuts mult c offs pl :
  distributed P G dist edist d -> closed_graph G -> symmetric_adjacency G -> (forall g, g < gn G -> part g < k) -> agree P d parts part -> supported P k ->
  k <= P -> length cuts = P -> (forall r, r < P -> gather P k (map ex (seq 0 P)) r = Some [(c r, offs r)]) ->
  (forall r, r < P -> length (pl r) = gn (user_graph (cs_nodes (c r)) (cs_edges (c r)) (cs_nw (c r)) (cs_ew (c r)))) ->
  extract_outcome P k d parts ex ->
  exists part' : nat -> nat,
    (exists parts', project_outcome P k d parts ex cuts (fun r => [offs r]) (fun r => [(mult, pl r)]) parts') /\
    (forall parts', project_outcome P k d parts ex cuts (fun r => [offs r]) (fun r => [(mult, pl r)]) parts' -> agree P d parts' part') /\
    forall b, b < k -> exists w ns, w < P /\ works_on P k w b /\ (forall r, r < P -> works_on P k r b -> (nth w cuts 0 <= nth r cuts 0)%Z) /\
      induced_by G part b ns (user_graph (cs_nodes (c w)) (cs_edges (c w)) (cs_nw (c w)) (cs_ew (c w))) /\
      forall i, i < length ns -> part' (nth i ns 0) = b * mult + nth i (pl w) 0.
Proof. exact (fun a b c' e f g h i j l => projection_ok P k G dist edist d parts part a b c' e f ex g cuts mult c offs pl h i j l). Qed.
Print Assumptions C69_projection_partial.
(** Rank 1 has the best partition of block 0, rank 2 that of block 1. *)
Example C69_projection_example : length v_cuts = 4 /\ (forall r, r < 4 -> gather 4 2 (map v_extracted (seq 0 4)) r = Some [(v_sub r, v_offs r)]) /\
  map (fun r => project_local 4 2 (v_dcsr r) (v_parts' r) (ex_map (v_extracted r)) v_cuts (fun r => [v_offs r]) (fun r => [(2, v_pl r)]) r) [0; 1; 2; 3] = [Some [1]; Some [2]; Some [2]; Some [1]].
Proof. exact (conj eq_refl (conj v_gather v_projected)). Qed.

(** With more blocks than ranks, a rank that owns a node of a block number >= P reads outside of its buffers, for all partitions of the subgraphs. *)
Theorem C69_more_blocks_refuted P k d part rel cuts subs ps r u b : P < k -> u < dn d -> nth_error part u = Some b -> P <= b -> project_local P k d part rel cuts subs ps r = None.
Proof. exact (projection_fails P k d part rel cuts subs ps r u b). Qed.
Print Assumptions C69_more_blocks_refuted.
Theorem C69_more_blocks_exist_refuted : exists P k G dist edist d parts part, 0 < P /\ P < k /\ k mod P = 0 /\ distributed P G dist edist d /\ closed_graph G /\ symmetric_adjacency G /\
  agree P d parts part /\ (forall g, g < gn G -> part g < k) /\ (exists ex, extract_outcome P k d parts ex) /\
  forall ex cuts subs ps parts', ~ project_outcome P k d parts ex cuts subs ps parts'.
Proof. exact many_blocks. Qed.
Print Assumptions C69_more_blocks_exist_refuted.

(** With more blocks than ranks and blocks left over, the ranks with fewer blocks read outside of the array with the positions of the parts. *)
Theorem C69_blocks_left_refuted P k xs r : 0 < P -> P < k -> k mod P <> 0 -> k mod P <= r < P -> length xs = P -> gather P k xs r = None.
Proof. exact (gather_fails P k xs r). Qed.
Print Assumptions C69_blocks_left_refuted.
Example C69_blocks_left_example : 0 < 3 /\ 3 < 4 /\ 4 mod 3 <> 0 /\ 4 mod 3 <= 2 < 3 /\ length [Extracted [] [] [] [] [] [] []; Extracted [] [] [] [] [] [] []; Extracted [] [] [] [] [] [] []] = 3.
Proof. cbn. lia. Qed.

(** With more ranks than blocks and ranks left over, a rank can take the sizes of one block and the data of another: with 8 ranks and 3 blocks, rank 5 works on
    block 1 but is sent block 2, beyond the end of its buffers. *)
Theorem C69_ranks_left_refuted : exists P k G dist edist d parts part r, 0 < k /\ k <= P /\ r < P /\ distributed P G dist edist d /\ closed_graph G /\ symmetric_adjacency G /\
  agree P d parts part /\ (forall g, g < gn G -> part g < k) /\ (exists ex, extract_outcome P k d parts ex) /\
  forall ex, extract_outcome P k d parts ex -> gather P k (map ex (seq 0 P)) r = None.
Proof. exact mixed_blocks. Qed.
Print Assumptions C69_ranks_left_refuted.
(** With no more blocks than ranks, for all other numbers of ranks some rank takes a wrong block. *)
Theorem C69_wrong_block_refuted P k : 0 < k -> k <= P -> ~ few_left P k -> exists r b, r < P /\ b < k /\ works_on P k r b /\ first_block_on_pe P k r <> b.
Proof. exact (wrong_rank P k). Qed.
Print Assumptions C69_wrong_block_refuted.
Example C69_wrong_block_example : 0 < 3 /\ 3 <= 8 /\ ~ few_left 8 3 /\ works_on 8 3 5 1 /\ first_block_on_pe 8 3 5 = 2.
Proof. exact wrong_block. Qed.
