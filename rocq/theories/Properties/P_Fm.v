(* Property theorems for the batches of one FM worker (C19). *)
From Verif Require Import Lib.Prelude Spec.Graph Spec.Gain Spec.LocalView Spec.FmSpec Model.DeltaModel Model.GainModel Model.FmModel
  Proofs.CompactGainBase Proofs.DeltaCases Proofs.FmTop.

(** C19, dense gain cache: a worker that runs alone has executed any batches [bs] and executes one more. [seeds] are the
    polled border nodes, [choices] the nodes the queues yield (in any order whatsoever; the search stops after the last
    one). The batch does not fail. Its effect on the shared partition is a [search_result]: the edge cut decreases by
    exactly the returned gain, which is not negative, nodes are only moved to blocks that stay within their limit, and the
    stored block weights and the shared gain cache are exact. It releases all nodes ([tracker_result]) and undoes all
    moves that it did not apply: what it reads locally is the shared partition. For both delta gain caches ([lk]), both
    kinds of enumeration ([all], [exact]) and both settings for unlocking nodes ([us], [um]). *)
Theorem C19_fm_batch_dense : forall (g : graph) (k : nat) (hash : nat -> nat) (lk all exact : bool) (gmin : Z) (limit : nat -> Z)
  (id : Z) (us um : bool) (lab : list nat) (bw m : list Z) (trk : list Z) (tgt : list nat)
  (bs : list (list nat * list (nat * nat))) (seeds : list nat) (choices : list (nat * nat)),
  closed_graph g -> undirected g -> simple_graph g -> (lk = true -> positive_edges g) -> (0 < id)%Z ->
  (forall u, u < gn g -> (0 <= gvw g u)%Z) ->
  d_init g k lab = Some m -> labels_ok g k lab -> length bw = k -> exact_block_weights g lab bw ->
  length trk = gn g -> length tgt = gn g -> (forall u, u < gn g -> nth u trk 0%Z <> id /\ nth u trk 0%Z <> (-1)%Z) ->
  (forall b, In b (bs ++ [(seeds, choices)]) -> forall u, In u (fst b) -> u < gn g) ->
  (2 + N.of_nat (length (concat (map snd (bs ++ [(seeds, choices)]))) + length bs) < 2 ^ 64)%N ->
  exists c s gains c' s' gain,
    run_batches g k hash lk exact gmin limit id us um _ (dense_view k all exact) (cache_move g _ (d_expand) (d_apply k))
      bs (fm_start k lab bw m) (new_worker k trk tgt) = Some (c, s, gains) /\
    run_batch g k hash lk exact gmin limit id us um _ (dense_view k all exact) (cache_move g _ (d_expand) (d_apply k))
      seeds choices c s = Some (c', s', gain) /\
    (cut_weight g (label_of lab) - cut_weight g (label_of (c_lab c)) = zsum gains)%Z /\
    search_result g k limit (c_lab c) (c_lab c') (c_bw c') gain /\
    tracker_result (gn g) (c_lab c) (c_lab c') (b_trk s) (b_trk s') /\
    cache_exact g k all exact (label_of (c_lab c')) (dense_view k all exact (c_mem c')) /\
    (forall u, u < gn g -> dg_block hash (c_lab c') (c_d c') u = Some (label_of (c_lab c') u)) /\
    (forall b, b < k -> dg_block_weight (c_bw c') (c_d c') b = Some (block_weight g (label_of (c_lab c')) b)).
Proof. exact dense_fm. Qed.
Print Assumptions C19_fm_batch_dense.

(** C19, compact hashing gain cache: the same. *)
Theorem C19_fm_batch_compact : forall (g : graph) (k np : nat) (junk : N) (hash : nat -> nat) (lk all exact : bool) (gmin : Z)
  (limit : nat -> Z) (id : Z) (us um : bool) (lab : list nat) (bw : list Z) (m : cmem) (trk : list Z) (tgt : list nat)
  (bs : list (list nat * list (nat * nat))) (seeds : list nat) (choices : list (nat * nat)),
  closed_graph g -> undirected g -> simple_graph g -> positive_edges g -> cg_fits g k -> 0 < np -> (0 < id)%Z ->
  (forall u, u < gn g -> (0 <= gvw g u)%Z) ->
  cg_init g k np junk lab = Some m -> labels_ok g k lab -> length bw = k -> exact_block_weights g lab bw ->
  length trk = gn g -> length tgt = gn g -> (forall u, u < gn g -> nth u trk 0%Z <> id /\ nth u trk 0%Z <> (-1)%Z) ->
  (forall b, In b (bs ++ [(seeds, choices)]) -> forall u, In u (fst b) -> u < gn g) ->
  (2 + N.of_nat (length (concat (map snd (bs ++ [(seeds, choices)]))) + length bs) < 2 ^ 64)%N ->
  let view := compact_view g k np junk all exact in
  let move := cache_move g _ (cg_expand g k junk) (cg_apply g k np junk) in
  exists c s gains c' s' gain,
    run_batches g k hash lk exact gmin limit id us um _ view move bs (fm_start k lab bw m) (new_worker k trk tgt) = Some (c, s, gains) /\
    run_batch g k hash lk exact gmin limit id us um _ view move seeds choices c s = Some (c', s', gain) /\
    (cut_weight g (label_of lab) - cut_weight g (label_of (c_lab c)) = zsum gains)%Z /\
    search_result g k limit (c_lab c) (c_lab c') (c_bw c') gain /\
    tracker_result (gn g) (c_lab c) (c_lab c') (b_trk s) (b_trk s') /\
    cache_exact g k all exact (label_of (c_lab c')) (view (c_mem c')) /\
    (forall u, u < gn g -> dg_block hash (c_lab c') (c_d c') u = Some (label_of (c_lab c') u)) /\
    (forall b, b < k -> dg_block_weight (c_bw c') (c_d c') b = Some (block_weight g (label_of (c_lab c')) b)).
Proof. exact compact_fm. Qed.
Print Assumptions C19_fm_batch_compact.

(** The hypotheses are met by a star with four nodes in two of three blocks. *)
Example C19_hypotheses_ex : closed_graph ex_star /\ undirected ex_star /\ simple_graph ex_star /\ positive_edges ex_star /\
  cg_fits ex_star 3 /\ (forall u, u < gn ex_star -> (0 <= gvw ex_star u)%Z) /\
  labels_ok ex_star 3 [0; 1; 1; 0] /\ exact_block_weights ex_star [0; 1; 1; 0] [2; 2; 0]%Z /\
  d_init ex_star 3 [0; 1; 1; 0] <> None /\ cg_init ex_star 3 2 0 [0; 1; 1; 0] <> None.
Proof. exact fm_ex_ok. Qed.

(** Node 3 is first moved locally to block 2 (the cut increases by 4), then node 0 to block 1 (the cut decreases by 13):
    both moves are applied to the shared partition, the gain is 9. The later local moves of nodes 2 and 1 are undone. *)
Example C19_fm_batch_ex :
  match cg_init ex_star 3 2 0 [0; 1; 1; 0] with
  | None => False
  | Some m =>
      match run_batch ex_star 3 (fun i => i) false false (-2 ^ 31) (fun _ => 3%Z) 1 true true _ (compact_view ex_star 3 2 0 true false)
              (cache_move ex_star _ (cg_expand ex_star 3 0) (cg_apply ex_star 3 2 0))
              [3] [(0, 3); (0, 0); (1, 2); (1, 1)] (fm_start 3 [0; 1; 1; 0] [2; 2; 0]%Z m) (new_worker 3 [0; 0; 0; 0]%Z [0; 0; 0; 0]) with
      | None => False
      | Some (c, s, gain) =>
          c_lab c = [1; 1; 1; 2] /\ c_bw c = [0; 3; 1]%Z /\ b_trk s = [-2; 0; 0; -2]%Z /\ gain = 9%Z /\
          cut_weight ex_star (label_of [0; 1; 1; 0]) = 13%Z /\ cut_weight ex_star (label_of [1; 1; 1; 2]) = 4%Z
      end
  end.
Proof. vm_compute. repeat split. Qed.
