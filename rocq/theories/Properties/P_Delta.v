(* Property theorems for the thread-local delta structures (C18) and for the hash maps they use (C31). *)
From Verif Require Import Lib.Prelude Spec.Graph Spec.Gain Spec.KeyedList Spec.LocalView Model.DynMapModel Model.DeltaModel
  Model.GainModel Proofs.CompactGainBase Proofs.DynMapProofs Proofs.GainTop Proofs.DeltaTop Proofs.DeltaCases.
From Coq Require Import Permutation.

(** C31, growing hash maps (DynamicFlatMap for [rem = false], DynamicRememberingFlatMap for [rem = true]), for every hash
    function: after every history of updates of entries (of which fewer than [2 ^ tw - 1] are clears; [tw] = width of the
    timestamps) lookups, the size and the iteration agree with an association list to which the same updates were applied. *)
Theorem C31_dynamic_maps : forall (V : Type) (rem : bool) (tw : N) (hash : nat -> nat) (dflt : V) (ops : list (kop V)),
  (1 + N.of_nat (length (filter is_clear ops)) < 2 ^ tw)%N ->
  exists m, dm_run rem tw hash dflt ops (dm_make dflt) = Some m /\
    (forall k, dm_get hash dflt m k = Some (kl_get k (kl_run dflt ops))) /\
    dm_size m = length (kl_run dflt ops) /\
    Permutation (dm_for_each rem dflt m) (kl_run dflt ops) /\
    (rem = true -> dm_for_each rem dflt m = kl_run dflt ops).
Proof. exact @dynmap_spec. Qed.
Print Assumptions C31_dynamic_maps.

(** C18: a worker moves nodes locally, discards its moves, and other workers move nodes (that it has not moved) in the
    shared partition, in any order. Whatever has happened, everything it reads through the delta structures on top of an
    exact shared cache is what it would read from a partition to which its local moves were really applied ([q]). In
    particular a gain is the decrease of the edge cut that the move would cause. *)
Theorem C18_local_view : forall (g : graph) (k : nat) (hash : nat -> nat) (all exact : bool) (cache : list nat -> bcache),
  closed_graph g -> undirected g ->
  (forall lab, labels_ok g k lab -> cache_exact g k all exact (label_of lab) (cache lab)) ->
  forall (lk : bool) (lab : list nat) (bw : list Z) (es : list lev),
  simple_graph g -> labels_ok g k lab -> length bw = k -> exact_block_weights g lab bw ->
  (1 + N.of_nat (length (filter is_lclear es)) < 2 ^ 64)%N ->
  exists s, l_run g k hash cache lk es {| x_lab := lab; x_bw := bw; x_d := dl_make k |} = Some s /\
    let D := snd (lv_run (gn g) k lab es) in
    let q := view (label_of (fst (lv_run (gn g) k lab es))) D in
    x_lab s = fst (lv_run (gn g) k lab es) /\
    (forall u, u < gn g -> dg_block hash (x_lab s) (x_d s) u = Some (q u)) /\
    (forall b, b < k -> dg_block_weight (x_bw s) (x_d s) b = Some (block_weight g q b)) /\
    (dg_size (x_d s) = length D /\ Permutation (dg_for_each (x_d s)) D) /\
    (forall u, u < gn g ->
      (forall b, b < k -> dc_conn k hash (cache (x_lab s)) (x_d s) u b = Some (block_conn g q u b)) /\
      (forall b, b < k -> dc_gain k hash (cache (x_lab s)) (x_d s) u (q u) b = Some (cut_weight g q - cut_weight g (relabel q u b))%Z) /\
      (forall a b, a < k -> b < k -> dc_gain k hash (cache (x_lab s)) (x_d s) u a b = Some (block_conn g q u b - block_conn g q u a)%Z) /\
      (all = true -> forall from, from < k -> exists l, dc_gains k hash exact (cache (x_lab s)) (x_d s) u from = Some l /\
         Permutation l (targets k true exact (block_conn g q u) from))).
Proof. exact delta_view. Qed.
Print Assumptions C18_local_view.

(** C18, clearing: after a clear every read returns what the shared structures return. *)
Theorem C18_clear_gives_shared : forall (g : graph) (k : nat) (hash : nat -> nat) (all exact : bool) (cache : list nat -> bcache),
  closed_graph g -> undirected g ->
  (forall lab, labels_ok g k lab -> cache_exact g k all exact (label_of lab) (cache lab)) ->
  forall (lk : bool) (lab : list nat) (bw : list Z) (es : list lev),
  simple_graph g -> labels_ok g k lab -> length bw = k -> exact_block_weights g lab bw ->
  (2 + N.of_nat (length (filter is_lclear es)) < 2 ^ 64)%N ->
  exists s, l_run g k hash cache lk (es ++ [LClear]) {| x_lab := lab; x_bw := bw; x_d := dl_make k |} = Some s /\
    dg_size (x_d s) = 0 /\ dg_for_each (x_d s) = [] /\
    (forall u, u < gn g -> dg_block hash (x_lab s) (x_d s) u = nth_error (x_lab s) u) /\
    (forall b, b < k -> dg_block_weight (x_bw s) (x_d s) b = nth_error (x_bw s) b) /\
    (forall u a b, u < gn g -> a < k -> b < k ->
       dc_conn k hash (cache (x_lab s)) (x_d s) u b = bc_conn (cache (x_lab s)) u b /\
       dc_gain k hash (cache (x_lab s)) (x_d s) u a b = bc_gain (cache (x_lab s)) u a b).
Proof. exact delta_clear. Qed.
Print Assumptions C18_clear_gives_shared.

(** C18, version for large k, whose shared cache enumerates adjacent blocks only: every block with a connection in the
    local view is enumerated, no block twice, with the exact gain if the cache enumerates exact gains. *)
Theorem C18_large_k_enumeration : forall (g : graph) (k : nat) (hash : nat -> nat) (all exact : bool) (cache : list nat -> bcache),
  closed_graph g -> undirected g ->
  (forall lab, labels_ok g k lab -> cache_exact g k all exact (label_of lab) (cache lab)) ->
  forall (lab : list nat) (bw : list Z) (es : list lev),
  simple_graph g -> positive_edges g -> all = false -> labels_ok g k lab -> length bw = k -> exact_block_weights g lab bw ->
  (1 + N.of_nat (length (filter is_lclear es)) < 2 ^ 64)%N -> forallb (fun e => negb (is_xmove e)) es = true ->
  exists s, l_run g k hash cache true es {| x_lab := lab; x_bw := bw; x_d := dl_make k |} = Some s /\
    let q := view (label_of lab) (snd (lv_run (gn g) k lab es)) in
    forall u from, u < gn g -> from < k -> exists l, lk_gains k hash exact (cache (x_lab s)) (x_d s) u from = Some l /\
      NoDup (map fst l) /\
      (forall b, In b (map fst l) -> b < k /\ b <> from) /\
      (forall b, b < k -> b <> from -> (0 < block_conn g q u b)%Z -> In b (map fst l)) /\
      (exact = true -> forall b x, In (b, x) l -> x = block_conn g q u b - block_conn g q u from)%Z.
Proof. exact delta_large_k. Qed.
Print Assumptions C18_large_k_enumeration.

(** Finding: with caches that do not enumerate exact gains (the default of the dense and hashing caches) the version for
    large k mixes connections and gains in one enumeration. A block with a larger connection can therefore be enumerated
    with a smaller value, so the value cannot be used to compare blocks. *)
Theorem C18_large_k_values_refuted : exists (g : graph) (k : nat) (lab : list nat) (es : list lev) (u b b' : nat) (s : lsys) (l : list (nat * Z)) (x x' : Z),
  closed_graph g /\ undirected g /\ simple_graph g /\ positive_edges g /\ labels_ok g k lab /\
  let c := dense_cache g k false false in
  let q := view (label_of lab) (snd (lv_run (gn g) k lab es)) in
  l_run g k (fun i => i) c true es {| x_lab := lab; x_bw := [3; 1; 0]%Z; x_d := dl_make k |} = Some s /\
  lk_gains k (fun i => i) false (c (x_lab s)) (x_d s) u (q u) = Some l /\
  In (b, x) l /\ In (b', x') l /\ (block_conn g q u b < block_conn g q u b')%Z /\ (x' < x)%Z.
Proof. exact large_k_refuted. Qed.
Print Assumptions C18_large_k_values_refuted.

(** The dense and the compact hashing cache (C17) are exact shared caches. *)
Example C18_dense_cache_exact : forall g k all exact, closed_graph g -> undirected g -> simple_graph g ->
  forall lab, labels_ok g k lab -> cache_exact g k all exact (label_of lab) (dense_cache g k all exact lab).
Proof. exact dense_cache_exact. Qed.
Example C18_compact_cache_exact : forall g k np junk all exact, closed_graph g -> undirected g -> simple_graph g ->
  positive_edges g -> cg_fits g k -> 0 < np ->
  forall lab, labels_ok g k lab -> cache_exact g k all exact (label_of lab) (compact_cache g k np junk all exact lab).
Proof. exact compact_cache_exact. Qed.
Example C18_hypotheses_ex : closed_graph ex_star /\ undirected ex_star /\ simple_graph ex_star /\
  positive_edges ex_star /\ labels_ok ex_star 3 [0; 0; 1; 0] /\ exact_block_weights ex_star [0; 0; 1; 0] [3; 1; 0]%Z.
Proof. exact ex_star_ok. Qed.

(** Local moves, a move by another worker, and reads in the resulting view 0 -> 0, 1 -> 2, 2 -> 2, 3 -> 1. *)
Example C18_local_view_ex :
  let c := dense_cache ex_star 3 true false in
  match l_run ex_star 3 (fun i => i) c false [LMove 3 2; LMove 1 2; XMove 2 2; LMove 3 1] {| x_lab := [0; 0; 1; 0]; x_bw := [3; 1; 0]%Z; x_d := dl_make 3 |} with
  | None => False
  | Some s => map (dg_block (fun i => i) (x_lab s) (x_d s)) (seq 0 4) = map Some [0; 2; 2; 1] /\
      map (dg_block_weight (x_bw s) (x_d s)) (seq 0 3) = map Some [1; 1; 2]%Z /\
      map (dc_conn 3 (fun i => i) (c (x_lab s)) (x_d s) 0) (seq 0 3) = map Some [0; 4; 13]%Z /\
      dc_gain 3 (fun i => i) (c (x_lab s)) (x_d s) 0 0 2 = Some 13%Z /\ dg_for_each (x_d s) = [(1, 2); (3, 1)]
  end.
Proof. vm_compute. repeat split. Qed.
Example C31_dynamic_maps_ex :
  let ops := [KModify 5 (fun x => x + 2); KModify 21 (fun x => x + 1); KClear; KModify 37 (fun x => x + 7); KModify 5 (fun x => x + 1)] in
  kl_run 0 ops = [(37, 7); (5, 1)] /\
  match dm_run true 32 (fun i => i) 0 ops (dm_make 0) with
  | None => False
  | Some m => map (dm_get (fun i => i) 0 m) [5; 21; 37] = [Some (Some 1); Some None; Some (Some 7)] /\ dm_for_each true 0 m = [(37, 7); (5, 1)]
  end.
Proof. vm_compute. repeat split. Qed.
