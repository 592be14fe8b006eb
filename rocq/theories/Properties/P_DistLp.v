(* C62: the distributed label propagation refiner. *)
From Verif Require Import Lib.Prelude Model.GridModel Model.DistGraphModel Model.DistLpModel Spec.Graph Spec.DistGraphSpec
  Proofs.DistLpExamples Proofs.DistExamples.

(** [d]: the graphs of the ranks (see C60_local_view); [parts]: their copies of the partition [part]. After any number of chunks, for
    every number of ranks and threads, every proposal of the local label propagations, all random decisions and every order of the
    messages: there is one partition, all copies of it on all ranks agree, and every rank knows the exact block weights. With the
    balance check ([ignore_probabilities] off), no block exceeds its limit that did not before, and no overloaded block grows. *)
Theorem C62_partition_and_weights P G dist d k ignore mx parts part sts' :
  distribution P (gn G) dist ->
  (forall r, r < P -> local_view G dist r (dn (d r)) (dghost_n (d r)) (dlocal_to_global (d r)) (dglobal_to_local (d r)) (dghost_owner (d r)) (dcontains (d r)) (dadj (d r))) ->
  (forall r, r < P -> dc_rank (d r) = r /\ dc_dist (d r) = dist) ->
  (forall r u, r < P -> u < dn (d r) -> dnode_weight (dc_nw (d r)) u = Some (gvw G (nth r dist 0 + u))) ->
  closed_graph G -> symmetric_adjacency G ->
  (forall r l g, r < P -> dlocal_to_global (d r) l = Some g -> nth_error (parts r) l = Some (part g)) ->
  (forall g, g < gn G -> part g < k) ->
  refine k ignore mx (map d (seq 0 P)) (map (fun r => lp_start (d r) (parts r) (map (block_weight G part) (seq 0 k))) (seq 0 P)) sts' ->
  exists part', length sts' = P /\ (forall g, g < gn G -> part' g < k) /\
    (forall r s, nth_error sts' r = Some s -> lp_bw s = map (block_weight G part') (seq 0 k) /\
       forall l g, dlocal_to_global (d r) l = Some g -> nth_error (lp_part s) l = Some (part' g)) /\
    (ignore = false -> forall b, b < k -> (block_weight G part' b <= Z.max (mx b) (block_weight G part b))%Z).
Proof. exact (fun a b c e f g => refine_start P G dist a d b c e k ignore mx f g parts part sts'). Qed.
Print Assumptions C62_partition_and_weights.

(** Nothing fails: in every chunk that can follow, all ranks leave the loop of attempts after the same attempt, and every message of the
    exchange can be handled (that the buffers are filled is C60_interface_messages). *)
Theorem C62_chunk_completes P G dist d k ignore mx parts part sts lo hi threads sts1 coins :
  distribution P (gn G) dist ->
  (forall r, r < P -> local_view G dist r (dn (d r)) (dghost_n (d r)) (dlocal_to_global (d r)) (dglobal_to_local (d r)) (dghost_owner (d r)) (dcontains (d r)) (dadj (d r))) ->
  (forall r, r < P -> dc_rank (d r) = r /\ dc_dist (d r) = dist) ->
  (forall r u, r < P -> u < dn (d r) -> dnode_weight (dc_nw (d r)) u = Some (gvw G (nth r dist 0 + u))) ->
  closed_graph G -> symmetric_adjacency G ->
  (forall r l g, r < P -> dlocal_to_global (d r) l = Some g -> nth_error (parts r) l = Some (part g)) ->
  (forall g, g < gn G -> part g < k) ->
  refine k ignore mx (map d (seq 0 P)) (map (fun r => lp_start (d r) (parts r) (map (block_weight G part) (seq 0 k))) (seq 0 P)) sts ->
  (forall r, r < P -> lo r <= hi r <= dn (d r) /\ 0 < threads r) -> length sts1 = P ->
  (forall r s s1, nth_error sts r = Some s -> nth_error sts1 r = Some s1 -> proposes k (lo r) (hi r) s s1) ->
  exists sts2, attempts k ignore mx (map d (seq 0 P)) (fun r => seq (lo r) (hi r - lo r)) coins sts1 = Some sts2 /\ length sts2 = P /\
    forall bufs, (forall r s, nth_error sts2 r = Some s -> move_buffers P (d r) (threads r) (lo r) (hi r) s (bufs r)) ->
    forall q s msgs, nth_error sts2 q = Some s -> Permutation msgs (inbox P bufs q) -> exists s3, synchronize (d q) (lo q) (hi q) msgs s = Some s3.
Proof. exact (fun a b c e f g => chunk_start P G dist a d b c e k ignore mx f g parts part sts lo hi threads sts1 coins). Qed.
Print Assumptions C62_chunk_completes.

(** A run meets the conditions; with the check the first attempt is taken back and one with fewer moves is kept. *)
Example C62_example : (forall r l g, r < 3 -> dlocal_to_global (x_dcsr r) l = Some g -> nth_error (w_parts r) l = Some (w_part g)) /\
  refine 2 true (fun _ => 75%Z) w_ds w_start w_final /\
  map lp_bw w_final = [[20; 80]; [20; 80]; [20; 80]]%Z /\ map lp_part w_final = [[1; 0; 1; 1]; []; [1; 1; 0; 1]] /\
  attempts 2 false (fun _ => 75%Z) w_ds (fun r => seq 0 (dn (x_dcsr r))) [fun _ _ => true] w_prop = Some w_prop /\
  bind (attempts 2 false (fun _ => 75%Z) w_ds (fun r => seq 0 (dn (x_dcsr r))) [fun _ _ => true; fun r _ => r =? 2] w_prop) (fun l => Some (map lp_bw l)) =
    Some [[30; 70]; [30; 70]; [30; 70]]%Z.
Proof. exact (conj w_parts_ok (conj w_refine (conj (proj1 (proj2 w_overloads)) (conj (proj2 (proj2 w_overloads)) (conj w_checked w_one))))). Qed.

(** The default configuration switches the balance check off: a balanced partition becomes overloaded (the preset runs a balancer after
    it). *)
Theorem C62_default_overloads_refuted : exists P G dist d k mx part parts sts', distribution P (gn G) dist /\ closed_graph G /\ symmetric_adjacency G /\ undirected G /\
  (forall r, r < P -> local_view G dist r (dn (d r)) (dghost_n (d r)) (dlocal_to_global (d r)) (dglobal_to_local (d r)) (dghost_owner (d r)) (dcontains (d r)) (dadj (d r))) /\
  (forall r, r < P -> dc_rank (d r) = r /\ dc_dist (d r) = dist) /\
  (forall r u, r < P -> u < dn (d r) -> dnode_weight (dc_nw (d r)) u = Some (gvw G (nth r dist 0 + u))) /\
  (forall r l g, r < P -> dlocal_to_global (d r) l = Some g -> nth_error (parts r) l = Some (part g)) /\
  (forall g, g < gn G -> part g < k) /\ (forall b, b < k -> (block_weight G part b <= mx b)%Z) /\
  refine k true mx (map d (seq 0 P)) (map (fun r => lp_start (d r) (parts r) (map (block_weight G part) (seq 0 k))) (seq 0 P)) sts' /\
  exists s b, In s sts' /\ b < k /\ Z.lt (mx b) (nth b (lp_bw s) 0%Z).
Proof. exact overloads. Qed.
Print Assumptions C62_default_overloads_refuted.
