(* C45: checks for undirected input graphs. *)
From Verif Require Import Lib.Prelude Spec.Graph Spec.Gain Spec.Symmetric Model.ValidateModel Proofs.ValidateProofs.

(** C45: the validator of the command line tool accepts every input in which each edge is listed at both ends with the same
    weight and no node has two edges to the same neighbour, whatever std::sort does with equal keys. *)
Theorem C45_accepts_undirected : forall sort xadj adjncy vwgt adjwgt, sorts_by_target sort -> wf_csr xadj adjncy vwgt adjwgt ->
  let g := user_graph xadj adjncy vwgt adjwgt in
  symmetric g -> no_parallel_edges g -> validate_undirected sort xadj adjncy adjwgt = Accepted.
Proof. exact validate_complete. Qed.
Print Assumptions C45_accepts_undirected.

(** C45: an accepted input lists every edge at both ends with the same weight, and no two edges to the same neighbour are
    listed next to each other. *)
Theorem C45_accepted_is_symmetric : forall sort xadj adjncy vwgt adjwgt, sorts_by_target sort -> wf_csr xadj adjncy vwgt adjwgt ->
  let g := user_graph xadj adjncy vwgt adjwgt in
  validate_undirected sort xadj adjncy adjwgt = Accepted ->
  symmetric g /\ forall u i, u < gn g -> S i < length (gadj g u) ->
    fst (nth i (gadj g u) (0, 0%Z)) <> fst (nth (S i) (gadj g u) (0, 0%Z)).
Proof. exact validate_sound. Qed.
Print Assumptions C45_accepted_is_symmetric.
Example C45_accepts_ex : sorts_by_target (fun _ => isort_t) /\
  wf_csr [0; 2; 4; 6] [2; 1; 0; 2; 1; 0] [] [5; 7; 7; 9; 9; 5]%Z /\
  symmetric (user_graph [0; 2; 4; 6] [2; 1; 0; 2; 1; 0] [] [5; 7; 7; 9; 9; 5]%Z) /\
  no_parallel_edges (user_graph [0; 2; 4; 6] [2; 1; 0; 2; 1; 0] [] [5; 7; 7; 9; 9; 5]%Z) /\
  validate_undirected (fun _ => isort_t) [0; 2; 4; 6] [2; 1; 0; 2; 1; 0] [5; 7; 7; 9; 9; 5]%Z = Accepted /\
  validate_undirected (fun _ => isort_t) [0; 2; 4; 6] [2; 1; 0; 2; 1; 0] [5; 7; 7; 9; 8; 5]%Z = Rejected.
Proof.
  split; [exact isort_sorts|]. split.
  { unfold wf_csr. cbn. split; [lia|]. split; [auto|]. split; [intros [|[|[|[|i]]]]; cbn; lia|]. split; [auto|].
    split; [intros v Hv; repeat (destruct Hv as [<-|Hv]; [lia|]); destruct Hv|]. split; [left|right]; reflexivity. }
  split; [intros [|[|[|u]]] v w Hu Hi; cbn in Hu, Hi; try lia; repeat (destruct Hi as [Hi|Hi]; [injection Hi as <- <-; cbn; tauto|]); destruct Hi|].
  split; [|split; vm_compute; reflexivity].
  intros [|[|[|u]]] Hu; cbn in Hu; try lia; cbn; repeat constructor; cbn; lia.
Qed.

(** C45 is false of parallel edges in general: those that are not next to each other in the input are accepted although
    the validator announces to check for multi edges. *)
Theorem C45_parallel_edges_refuted : exists sort xadj adjncy, sorts_by_target sort /\ wf_csr xadj adjncy [] [] /\
  ~ no_parallel_edges (user_graph xadj adjncy [] []) /\ validate_undirected sort xadj adjncy [] = Accepted.
Proof.
  exists (fun _ => isort_t), [0; 3; 6; 8], [1; 2; 1; 0; 2; 0; 0; 1]. split; [exact isort_sorts|]. split.
  - unfold wf_csr. cbn. split; [lia|]. split; [auto|]. split; [intros [|[|[|[|i]]]]; cbn; lia|]. split; [auto|].
    split; [intros v Hv; repeat (destruct Hv as [<-|Hv]; [lia|]); destruct Hv|]. split; left; reflexivity.
  - split; [|vm_compute; reflexivity]. intros H. specialize (H 0 ltac:(cbn; lia)). cbn in H.
    inversion H as [|? ? N _]. apply N. cbn. auto.
Qed.
Print Assumptions C45_parallel_edges_refuted.

(** C45: the validation used in debug builds: accepted arrays describe a graph whose targets are nodes, without self-loops,
    with every edge listed at both ends with the same weight. *)
Theorem C45_debug_accepted : forall xadj adjncy vwgt adjwgt, 1 <= length xadj ->
  let g := user_graph xadj adjncy vwgt adjwgt in
  validate_graph (length xadj - 1) xadj adjncy vwgt adjwgt = true ->
  closed_graph g /\ no_self_loops g /\ symmetric g /\ forall u, u < length xadj - 1 -> nth u xadj 0 <= nth (S u) xadj 0.
Proof. exact debug_sound. Qed.
Print Assumptions C45_debug_accepted.
(** C45: it accepts every undirected simple graph. *)
Theorem C45_debug_accepts : forall xadj adjncy vwgt adjwgt, wf_csr xadj adjncy vwgt adjwgt ->
  let g := user_graph xadj adjncy vwgt adjwgt in
  symmetric g -> simple_graph g -> validate_graph (length xadj - 1) xadj adjncy vwgt adjwgt = true.
Proof. exact debug_complete. Qed.
Print Assumptions C45_debug_accepts.
Example C45_debug_ex : validate_graph 3 [0; 2; 4; 6] [2; 1; 0; 2; 1; 0] [] [5; 7; 7; 9; 9; 5]%Z = true /\
  validate_graph 3 [0; 2; 4; 6] [2; 1; 0; 2; 1; 0] [] [5; 7; 7; 9; 8; 5]%Z = false /\
  validate_graph 3 [0; 2; 4; 5] [2; 1; 0; 2; 1] [] [] = false /\ validate_graph 1 [0; 1] [0] [] [] = false.
Proof. vm_compute. repeat split. Qed.
