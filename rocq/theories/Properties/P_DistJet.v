(* C66: the distributed Jet refiner. *)
From Verif Require Import Lib.Prelude Model.GridModel Model.DistGraphModel Model.DistMetricsModel Model.LimitsModel Model.DistJetModel Spec.Graph Spec.Gain Spec.DistGraphSpec Spec.ReplicateSpec
  Spec.DistJetSpec Proofs.DistJetFinal Proofs.DistJetExamples.

(** All rounds and iterations, in any order of messages and for any random choices: the ranks end up with one partition into k blocks, and with its exact
    block weights. It is one of the partitions that were there after an iteration (or the input); it is at least as good as the input and as each of
    them: its overload is not larger, and if one of them is feasible, its cut is not larger either. Partial: cuts have to fit into an EdgeWeight. *)
Theorem C66_result_partial P G dist edist d k bits mx (balance : (nat -> list nat) -> (nat -> list Z) -> (nat -> list nat) -> (nat -> list Z) -> Prop) parts bws part seen parts' bws' :
  distributed P G dist edist d -> closed_graph G -> symmetric_adjacency G -> undirected G -> length mx = k ->
  (forall p, 0 <= cut_weight G p < 2 ^ (bits - 1))%Z ->
  (forall parts bws part parts' bws', partitioned P k G d parts bws part -> balance parts bws parts' bws' -> exists part', partitioned P k G d parts' bws' part') ->
  partitioned P k G d parts bws part -> jet P k d bits mx balance parts bws seen parts' bws' ->
  exists part', partitioned P k G d parts' bws' part' /\ at_least_as_good k G mx part' part /\
    (forall ps, In ps seen -> exists q, agree P d ps q /\ (forall g, g < gn G -> q g < k) /\ at_least_as_good k G mx part' q) /\
    exists ps, In ps (parts :: seen) /\ forall r, r < P -> parts' r = ps r.
Proof. exact (fun a b c e f g h i j => jet_ok P G dist edist d a b c k bits mx balance e f g h parts bws seen parts' bws' j part i). Qed.
Print Assumptions C66_result_partial.
Example C66_result_example : distributed 2 (j_graph 1) j_dist j_edist (j_dcsr 1) /\ closed_graph (j_graph 1) /\ symmetric_adjacency (j_graph 1) /\ undirected (j_graph 1) /\ length j_mx = 2 /\
  (forall p, 0 <= cut_weight (j_graph 1) p < 2 ^ (32 - 1))%Z /\
  (forall parts bws part parts' bws', partitioned 2 2 (j_graph 1) (j_dcsr 1) parts bws part -> j_balance parts bws parts' bws' -> exists part', partitioned 2 2 (j_graph 1) (j_dcsr 1) parts' bws' part') /\
  partitioned 2 2 (j_graph 1) (j_dcsr 1) j_parts j_bw j_part /\
  jet 2 2 (j_dcsr 1) 32 j_mx j_balance j_parts j_bw [fun r => jr_part (j_end 1 r)] (fun r => fst (rollback (j_end 1 r))) (fun r => snd (rollback (j_end 1 r))) /\
  (forall r, jr_part (j_end 1 r) = j_parts' r) /\ forall r, r < 2 -> rollback (j_end 1 r) = (j_parts r, j_bw r).
Proof.
  exact (conj (j_distributed _ j_small) (conj (j_closed _) (conj (j_symmetric _) (conj (j_undirected _) (conj eq_refl (conj j_small_cuts (conj (j_balance_ok _)
    (conj (j_partitioned _ j_small) (conj (j_jet _ j_small) (conj (j_seen _) j_small_result)))))))))).
Qed.

(** The moves of one iteration: every node that has not just been moved tries a best other block if that passes the test; a move is executed exactly if it
    does not lose against the neighbours that move before. All ranks learn the new blocks, and the sums of the changes are the changes of the block weights. *)
Theorem C66_moves P G dist edist d k parts part locked rest warm parts' locked' moves' sums :
  distributed P G dist edist d -> closed_graph G -> symmetric_adjacency G -> agree P d parts part -> (forall g, g < gn G -> part g < k) ->
  (forall r u, r < P -> u < dn (d r) -> nth_error (locked r) u = Some (rest (nth r dist 0 + u))) ->
  moved P k d warm parts locked parts' locked' moves' sums ->
  exists tries part', (forall g, g < gn G -> candidate G warm part (fun u => rest u = true) g (tries g)) /\
    (forall g, part' g = if (0 <=? projected_gain G dist part tries g)%Z then snd (tries g) else part g) /\ (forall g, g < gn G -> part' g < k) /\ agree P d parts' part' /\
    (forall r u, r < P -> u < dn (d r) -> nth_error (locked' r) u = Some (negb (part' (nth r dist 0 + u) =? part (nth r dist 0 + u)))) /\
    sums = map (fun b => (block_weight G part' b - block_weight G part b)%Z) (seq 0 k).
Proof. exact (fun a b c e f g => moved_ok P G dist edist d a b c k parts part locked rest warm e f g parts' locked' moves' sums). Qed.
Print Assumptions C66_moves.
Example C66_moves_example : distributed 2 (j_graph 1) j_dist j_edist (j_dcsr 1) /\ closed_graph (j_graph 1) /\ symmetric_adjacency (j_graph 1) /\
  partitioned 2 2 (j_graph 1) (j_dcsr 1) j_parts j_bw j_part /\
  (forall r u, r < 2 -> u < dn (j_dcsr 1 r) -> nth_error (j_locked r) u = Some ((fun _ => false) (nth r j_dist 0 + u))) /\
  moved 2 2 (j_dcsr 1) j_warm j_parts j_locked j_parts' j_locked' (j_moves 1) [0; 0]%Z /\ partitioned 2 2 (j_graph 1) (j_dcsr 1) j_parts' j_bw j_part' /\
  map j_part [0; 1; 2; 3] = [0; 0; 1; 1] /\ map j_part' [0; 1; 2; 3] = [0; 1; 0; 1].
Proof.
  exact (conj (j_distributed _ j_small) (conj (j_closed _) (conj (j_symmetric _) (conj (j_partitioned _ j_small) (conj (j_resting _ j_small) (conj (j_moved _ j_small)
    (conj (j_partitioned' _ j_small) (conj eq_refl eq_refl)))))))).
Qed.

(** No access is out of bounds in any step, and there is always a result. *)
Theorem C66_no_errors P G dist edist d k parts part locked rest warm rnd :
  distributed P G dist edist d -> closed_graph G -> symmetric_adjacency G -> agree P d parts part -> (forall g, g < gn G -> part g < k) ->
  (forall r u, r < P -> u < dn (d r) -> nth_error (locked r) u = Some (rest (nth r dist 0 + u))) ->
  (forall r, r < P -> forall u l, Permutation (map fst (rnd r u l)) l) ->
  exists moves, (forall r, r < P -> propose (d r) warm (rnd r) (parts r) (locked r) = Some (moves r)) /\
    (forall threads bufs, (forall r, r < P -> 0 < threads r /\
         buffers_outcome P (d r) (fun u => u) (move_filter (parts r) (moves r)) (value_message (moves r) (0%Z, 0)) (threads r) 0 (dn (d r)) (bufs r)) ->
       forall msgs, (forall r, r < P -> Permutation (msgs r) (inbox P bufs r)) ->
       exists moves' locked' parts1 deltas,
         (forall r, r < P -> receive_values (d r) (moves r) (msgs r) = Some (moves' r) /\ filter_moves (d r) (parts r) (moves' r) = Some (locked' r) /\
            execute (d r) (moves' r) (locked' r) (seq 0 (dn (d r))) (parts r) (repeat 0%Z k) = Some (parts1 r, deltas r)) /\
         (forall threads2 bufs2, (forall r, r < P -> 0 < threads2 r /\
              buffers_outcome P (d r) (fun u => u) (lock_filter (locked' r)) (value_message (parts1 r) 0) (threads2 r) 0 (dn (d r)) (bufs2 r)) ->
            forall msgs2, (forall r, r < P -> Permutation (msgs2 r) (inbox P bufs2 r)) ->
            exists parts', forall r, r < P -> receive_values (d r) (parts1 r) (msgs2 r) = Some (parts' r))) /\
    exists parts' locked' moves' sums, moved P k d warm parts locked parts' locked' moves' sums.
Proof. exact (fun a b c e f g => moves_total P G dist edist d a b c k parts part locked rest warm e f g rnd). Qed.
Print Assumptions C66_no_errors.

(** Cuts are stored in 32 bits: with weights that fit, the refiner can replace a feasible partition by one with twice the cut. *)
Theorem C66_large_cut_refuted :
  exists P k G dist edist d mx (balance : (nat -> list nat) -> (nat -> list Z) -> (nat -> list nat) -> (nat -> list Z) -> Prop) parts bws seen parts' bws' part part',
    distributed P G dist edist d /\ closed_graph G /\ symmetric_adjacency G /\ undirected G /\ weights_fit 32 G /\ length mx = k /\
    (forall parts bws parts' bws', balance parts bws parts' bws' -> parts' = parts /\ bws' = bws) /\
    partitioned P k G d parts bws part /\ overload k G mx part = 0%Z /\ jet P k d 32 mx balance parts bws seen parts' bws' /\
    partitioned P k G d parts' bws' part' /\ cut_weight G part' = (2 * cut_weight G part)%Z /\ (0 < cut_weight G part < 2 ^ 31)%Z.
Proof. exact large_cut. Qed.
Print Assumptions C66_large_cut_refuted.

(** With dynamic gain factors and one round, the factor is 0 / 0, whatever factors are configured: no move passes the test, and no node is moved. *)
Theorem C66_dynamic_factor_refuted toplevel initial final fine coarse :
  (forall gain degree, passes (gain_factor true toplevel initial final fine coarse 0 1) gain degree = false) /\
  forall P G dist edist d k parts part locked rest parts' locked' moves' sums,
    distributed P G dist edist d -> closed_graph G -> symmetric_adjacency G -> agree P d parts part -> (forall g, g < gn G -> part g < k) ->
    (forall r u, r < P -> u < dn (d r) -> nth_error (locked r) u = Some (rest (nth r dist 0 + u))) ->
    moved P k d (passes (gain_factor true toplevel initial final fine coarse 0 1)) parts locked parts' locked' moves' sums -> agree P d parts' part.
Proof.
  exact (conj (no_factor toplevel initial final fine coarse) (fun P G dist edist d k parts part locked rest parts' locked' moves' sums a b c =>
    cold_stays P G dist edist d k parts part locked rest _ parts' locked' moves' sums a b c (no_factor toplevel initial final fine coarse))).
Qed.
Print Assumptions C66_dynamic_factor_refuted.
