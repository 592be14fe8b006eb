(* Property C21: node ownership and seed nodes in one round of the parallel FM refinement. *)
From Verif Require Import Lib.Prelude Spec.Ownership Model.FmRoundModel Proofs.FmRoundTop.

(** For every number of workers, every list of border nodes (without duplicates) and every interleaving of the workers'
    steps: no access is out of range; a node is locked only while free, and only its owner marks it, receives it as a seed
    or releases it; a border node is handed out at most once; every position of the border list is examined at most once,
    and exactly once when the round is over; the shared state of a node is "unlocked" exactly if it is free; a batch gets
    at most [count] seeds; the nodes owned by a searching worker are exactly those in its queues (so that updating a
    neighbour with owner == id is safe); and an idle worker holds nothing. *)
Theorem C21_fm_round : forall n count unlock_seeds unlock_moved border T es,
  NoDup border -> (forall u, In u border -> u < n) -> (N.of_nat (length border) + count * N.of_nat T < 2 ^ 32)%N ->
  exists r, r_run n count unlock_seeds unlock_moved border es (round_start n T) = Some r /\
    o_exclusive (fun _ => Free) (r_log r) /\
    NoDup (seeds_of (r_log r)) /\ incl (seeds_of (r_log r)) border /\
    NoDup (r_seen r) /\ (forall i, In i (r_seen r) -> i < length border) /\
    ((N.of_nat (length border) <= r_next r)%N -> (forall w, In w (r_ws r) -> polling w = false) ->
       Permutation (r_seen r) (seq 0 (length border))) /\
    (forall u, u < n -> (nth u (r_trk r) 0%Z = 0%Z <-> fold_left o_step (r_log r) (fun _ => Free) u = Free)) /\
    (forall t w, nth_error (r_ws r) t = Some w ->
       (N.of_nat (length (w_seeds w)) <= count)%N /\
       (forall u, nth u (r_trk r) 0%Z = wid t -> fold_left o_step (r_log r) (fun _ => Free) u = Held t) /\
       (w_ph w = Run -> forall u, nth u (r_trk r) 0%Z = wid t <-> In u (w_pq w)) /\
       (w_ph w = Idle -> forall u, fold_left o_step (r_log r) (fun _ => Free) u <> Held t)).
Proof. exact fm_round. Qed.
Print Assumptions C21_fm_round.

(** Two workers, three border nodes, two seeds per batch. Both workers fetch a range; worker 0 touches node 2 between the
    moment worker 1 sees it unlocked and its compare-exchange, so worker 1 gets no seed. *)
Definition ex_round_es : list (nat * act) :=
  [(0, ABatch); (1, ABatch); (0, AStep); (0, AStep); (0, AStep); (0, AStep); (0, AStep); (1, AStep); (1, AStep);
   (1, AStep); (0, AStep); (0, AStep); (0, AStep); (0, ATouch 2); (0, AStep); (1, AStep); (1, AStep); (1, AStep);
   (0, APop 2); (0, ACommit 2); (0, APop 0); (0, AEnd); (0, AStep); (0, AStep); (0, AStep); (0, AStep); (0, AStep); (0, AStep); (0, AStep)].
Example C21_fm_round_ex :
  NoDup [0; 3; 2] /\ (forall u, In u [0; 3; 2] -> u < 4) /\ (N.of_nat 3 + 2 * N.of_nat 2 < 2 ^ 32)%N /\
  match r_run 4 2 true true [0; 3; 2] ex_round_es (round_start 4 2) with
  | Some r => r_trk r = [0; 0; -2; 0]%Z /\ seeds_of (r_log r) = [0; 3] /\ r_seen r = [0; 1; 2] /\ length (r_log r) = 11 /\ map w_ph (r_ws r) = [Idle; Run]
  | None => False
  end.
Proof.
  split; [repeat constructor; cbn; intuition discriminate|]. split; [cbn; intros u Hu; intuition lia|]. split; [lia|]. vm_compute. repeat split.
Qed.
