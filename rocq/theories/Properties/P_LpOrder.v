(* C55: the order in which label propagation visits nodes. *)
From Verif Require Import Lib.Prelude Model.LpOrderModel Spec.LpOrderSpec Proofs.LpOrderProofs Proofs.LpOrderExamples.

(** C55. Iterations over the whole graph, with chunks that are kept and shuffled again: every execution of every iteration
    visits no node twice; unless it is stopped early it visits every active node of the looked-at buckets whose degree is
    positive and below the bound. Smaller buckets come first. *)
Theorem C55_iterations : forall degs bk nb maxe maxn psize range max_degree its, buckets_ok (length degs) bk nb -> 1 <= maxn -> 1 <= psize ->
  length degs + psize <= range -> 1 <= max_degree -> (N.of_nat max_degree < 2 ^ 32)%N ->
  Forall (fun it => iteration_ok psize it /\ it_from it = 0 /\ it_to it = None) its ->
  exists vss, iterations degs bk nb maxe maxn psize range max_degree its [] = Some vss /\
    Forall2 (iteration_visits degs bk nb max_degree 0 (visited_end bk nb max_degree)) its vss.
Proof. exact iterations_ok. Qed.
Print Assumptions C55_iterations.
Example C55_iterations_ex : buckets_ok (length path9) path9_buckets 3 /\ length path9 + 2 <= 100 /\
  Forall (fun it => iteration_ok 2 it /\ it_from it = 0 /\ it_to it = None)
    [ex_iteration 0 None (fun _ => true) None; ex_iteration 0 None (fun u => negb (u =? 3)) (Some 3)] /\
  iterations path9 path9_buckets 3 4 3 2 100 8
    [ex_iteration 0 None (fun _ => true) None; ex_iteration 0 None (fun u => negb (u =? 3)) (Some 3)] [] =
  Some [[1; 0; 8; 4; 3; 2; 7; 6; 5]; [1; 0; 6; 5; 7]].
Proof.
  split; [exact (proj1 path9_ok)|]. split; [cbn; lia|]. split; [|exact path9_orders].
  constructor; [|constructor; [|constructor]]; (split; [apply ex_iteration_ok|split; reflexivity]).
Qed.

(** C55. A graph that is not sorted by degree: all active nodes with positive degree below the bound are visited. *)
Theorem C55_unsorted_graphs : forall degs maxe maxn psize range max_degree its, 1 <= maxn -> 1 <= psize ->
  length degs + psize <= range -> 1 <= max_degree -> (N.of_nat max_degree < 2 ^ 32)%N ->
  Forall (fun it => iteration_ok psize it /\ it_from it = 0 /\ it_to it = None) its ->
  exists vss, iterations degs [0; length degs] 1 maxe maxn psize range max_degree its [] = Some vss /\
    Forall2 (iteration_visits degs [0; length degs] 1 max_degree 0 (length degs)) its vss.
Proof. exact unsorted_ok. Qed.
Print Assumptions C55_unsorted_graphs.
Example C55_unsorted_graphs_ex : iterations [1; 1; 4; 1; 1] [0; 5] 1 4 3 2 100 4 [ex_iteration 0 None (fun _ => true) None] [] = Some [[1; 0; 4; 3]].
Proof. exact star_orders. Qed.

(** C55. A degree-sorted graph: exactly the active nodes of degree below 2^(L-1) are visited, L being the binary logarithm
    of the bound (isolated nodes may be visited too). Missing (hence _partial): nodes of degree 2^(L-1) up to the bound. *)
Theorem C55_sorted_graphs_partial : forall degs bk nb maxe maxn psize range max_degree its, degree_buckets_ok degs bk nb -> 1 <= maxn -> 1 <= psize ->
  length degs + psize <= range -> 2 <= max_degree -> (N.of_nat max_degree < 2 ^ 32)%N ->
  Forall (fun it => iteration_ok psize it /\ it_from it = 0 /\ it_to it = None) its ->
  exists vss, iterations degs bk nb maxe maxn psize range max_degree its [] = Some vss /\
    Forall2 (fun it vs => forall ws, Permutation ws vs -> NoDup ws /\
      forall u, u < length degs -> 0 < nth u degs 0 ->
        (In u ws -> nth u degs 0 < 2 ^ (Nat.log2 max_degree - 1) /\ it_active it u = true) /\
        (it_passed it = None -> nth u degs 0 < 2 ^ (Nat.log2 max_degree - 1) -> it_active it u = true -> In u ws)) its vss.
Proof. exact sorted_ok. Qed.
Print Assumptions C55_sorted_graphs_partial.
Example C55_sorted_graphs_ex : degree_buckets_ok path9 path9_buckets 3.
Proof. exact path9_ok. Qed.

(** C55. An iteration over the nodes [from, to) visits nodes of that range only, and all eligible ones. *)
Theorem C55_ranged_iteration : forall degs bk nb maxe maxn psize range max_degree, buckets_ok (length degs) bk nb -> 1 <= maxn -> 1 <= psize ->
  length degs + psize <= range -> 1 <= max_degree -> (N.of_nat max_degree < 2 ^ 32)%N ->
  forall it cs, iteration_ok psize it -> it_from it <> 0 \/ it_to it <> None -> it_from it <= clamp_to degs (it_to it) ->
  exists cs' vs, perform_iteration degs bk nb maxe maxn psize range max_degree it cs = Some (cs', vs) /\
    iteration_visits degs bk nb max_degree (it_from it) (Nat.min (clamp_to degs (it_to it)) (visited_end bk nb max_degree)) it vs.
Proof. exact ranged_iteration. Qed.
Print Assumptions C55_ranged_iteration.
Example C55_ranged_iteration_ex :
  option_map snd (perform_iteration path9 path9_buckets 3 4 3 2 100 8 (ex_iteration 1 (Some 5) (fun _ => true) None) []) = Some [1; 4; 3; 2].
Proof. exact path9_ranged. Qed.

(** C55. The label propagation of initial bipartitioning handles every node of its buckets exactly once, for every random
    choice, smaller buckets first. *)
Theorem C55_initial_order : forall n bk nb csize threshold shuf perms, buckets_ok n bk nb -> 1 <= csize -> 1 <= threshold -> (N.of_nat threshold < 2 ^ 32)%N ->
  (forall b, b < nb -> Permutation (shuf b) (seq 0 ((nth (S b) bk 0 - nth b bk 0) / csize))) -> (forall b i, Permutation (perms b i) (seq 0 csize)) ->
  exists vs, initial_order bk nb csize threshold shuf perms = Some vs /\
    Permutation vs (seq 0 (visited_end bk nb threshold)) /\ smaller_buckets_first bk nb vs.
Proof. exact initial_order_ok. Qed.
Print Assumptions C55_initial_order.
Example C55_initial_order_ex : initial_order path9_buckets 3 2 8 (fun b => match b with 1 => [0] | 2 => [2; 0; 1] | _ => [] end) (fun _ _ => [1; 0]) =
  Some [1; 0; 7; 6; 3; 2; 5; 4; 8].
Proof. exact path9_initial. Qed.

(** C55. Refuted for degree-sorted graphs: for every bound there is a graph all of whose nodes have positive degree below
    the bound, and no iteration visits any of them. *)
Theorem C55_below_the_bound_refuted : forall maxe maxn psize range max_degree, 2 <= max_degree -> (N.of_nat max_degree < 2 ^ 32)%N -> 1 <= maxn -> 1 <= psize ->
  exists degs bk nb, degree_buckets_ok degs bk nb /\ degs <> [] /\ (forall u, u < length degs -> 0 < nth u degs 0 < max_degree) /\
    (length degs + psize <= range -> forall its, Forall (fun it => iteration_ok psize it /\ it_from it = 0 /\ it_to it = None) its ->
      exists vss, iterations degs bk nb maxe maxn psize range max_degree its [] = Some vss /\ length vss = length its /\ Forall (fun vs => vs = []) vss).
Proof. exact complete_graph_skipped. Qed.
Print Assumptions C55_below_the_bound_refuted.

(** C55. Refuted for an iteration over all nodes that follows one over a part of them: it visits that part only. *)
Theorem C55_full_after_ranged_refuted : exists degs bk nb its vss, degree_buckets_ok degs bk nb /\ Forall (iteration_ok 2) its /\
  iterations degs bk nb 4 3 2 100 8 its [] = Some vss /\
  exists it, nth_error its 1 = Some it /\ it_from it = 0 /\ it_to it = None /\ it_passed it = None /\ (forall u, it_active it u = true) /\
    ~ (forall vs, nth_error vss 1 = Some vs -> forall u, u < length degs -> 0 < nth u degs 0 < 2 -> In u vs).
Proof. exact stale_chunks. Qed.
Print Assumptions C55_full_after_ranged_refuted.

(** C55. Refuted without a margin for identifiers: the last chunk of a graph with range - 1 nodes also visits node 0. *)
Theorem C55_identifier_wrap_refuted : forall psize range, 3 <= psize -> 3 <= range -> exists c perm subs, snd c < range /\ fst c < snd c /\
  Permutation perm (seq 0 psize) /\ Permutation subs (seq 0 (num_sub_chunks psize c)) /\
  exists u, In u (chunk_visits psize range perm subs c) /\ ~ (fst c <= u < snd c).
Proof. exact wrapped_chunk. Qed.
Print Assumptions C55_identifier_wrap_refuted.
