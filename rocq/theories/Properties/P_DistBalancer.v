(* Property theorems for the sequential round of the distributed node balancer (C59). *)
From Coq Require Import QArith.
From Verif Require Import Lib.Prelude Model.MpiModel Model.DistBalancerModel Spec.Schedules Spec.DistBalancerSpec Proofs.ReduceProofs Proofs.DistRoundProofs Proofs.DistProposeProofs.
Local Open Scope Z_scope.

(** C59: the reduction of any values with any combiner: for every number of ranks and every schedule it ends, only the root has a
    result, and this result combines the values of all ranks, each exactly once, pairwise. *)
Theorem C59_tree_reduction : forall (X : Type) (sy : nat -> nat -> bool) (comb : X -> X -> X) (empty token : X) (P : nat) (x : nat -> X), (0 < P)%nat ->
  exists v, always_returns (map (fun r => reduce_prog sy comb empty token P r (x r)) (seq 0 P)) (fun r => if (r =? 0)%nat then Some v else None) /\
    (P = 1%nat -> v = comb (x 0%nat) empty) /\
    ((1 < P)%nat -> exists a b, Permutation (leaves (Node a b)) (seq 0 P) /\ v = eval comb x (Node a b)).
Proof. exact (fun X sy comb empty token P x => reduction_ok sy comb empty token P x). Qed.
Print Assumptions C59_tree_reduction.
(** Three ranks, list concatenation: a run with sends that wait. *)
Example C59_tree_reduction_ex :
  option_map s_procs (run [2; 1; 1; 2; 1; 0; 0; 1]%nat (start (map (fun r => reduce_prog (fun _ _ => true) (@app nat) [] [] 3 r [r]) (seq 0 3)))) =
    Some [Ret (Some [0; 1; 2]%nat); Ret None; Ret None].
Proof. vm_compute. reflexivity. Qed.

(** C59: for every number of ranks, every order in which they proceed (sends buffered or not) and all proposals sorted by source
    block: the reduction ends, only the root has a result; it consists of some of the proposals, is sorted by source block, and
    all moves in it that have a target can be performed together without exceeding a limit. *)
Theorem C59_reduction : forall (sy : nat -> nat -> bool) P k per_block srt bw mx (x : nat -> list cand),
  (0 < P)%nat -> length bw = k -> length mx = k -> (forall l, Permutation (srt l) l) ->
  (forall r c, (r < P)%nat -> In c (x r) -> (c_from c < k)%nat /\ (c_to c < k)%nat /\ 0 <= c_w c) -> (forall r, (r < P)%nat -> sorted_from (x r)) ->
  exists ws rest, always_returns (map (fun r => reduce_candidates sy bw mx per_block srt k P r (x r)) (seq 0 P)) (fun r => if (r =? 0)%nat then Some (Some ws) else None) /\
    Permutation (ws ++ rest) (flat_map x (seq 0 P)) /\ sorted_from ws /\ compatible bw mx ws.
Proof. exact reduction_safe. Qed.
Print Assumptions C59_reduction.
Example C59_reduction_ex :
  ((forall r c, (r < 2)%nat -> In c (ex_x r) -> (c_from c < 3)%nat /\ (c_to c < 3)%nat /\ 0 <= c_w c) /\ (forall r, (r < 2)%nat -> sorted_from (ex_x r))) /\
  option_map (map c_id) (combine_cands ex_bw ex_mx 5 ex_srt 3 (ex_x 0) (ex_x 1)) = Some [0%nat; 1%nat].
Proof. split; [exact ex_x_ok|vm_compute; reflexivity]. Qed.

(** C59: if the root finds a target for all of them, every node is moved (to its target if it had one), the weights of all blocks
    are those implied by the moves, the other ranks, which replay the moves, have the same weights, and every block is
    within its limit or at most as heavy as before. *)
Theorem C59_round_safe : forall mx k, length mx = k -> forall fuel cs bw cs' bw', length bw = k -> blocks_ok k cs -> (forall c, In c cs -> 0 <= c_w c) ->
  compatible bw mx cs -> root_moves fuel mx k cs bw = Some (cs', bw') ->
  length bw' = k /\ Forall2 same_move cs cs' /\ (forall c, In c cs' -> real c) /\ blocks_ok k cs' /\ perform_moves cs' bw = Some bw' /\
  forall b, (b < k)%nat -> nth b bw' 0 = nth b bw 0 + into cs' b - outof cs' b /\ nth b bw' 0 <= Z.max (nth b mx 0) (nth b bw 0).
Proof. exact root_safe. Qed.
Print Assumptions C59_round_safe.
(** The survivors of the example: node 0 goes to block 1, node 1 has no target and is put into block 2. *)
Example C59_round_safe_ex : option_map (fun p => (map c_to (fst p), snd p)) (root_moves 3 ex_mx 3 (ex_x 0) ex_bw) = Some ([1%nat; 2%nat], [11; 10; 6]).
Proof. vm_compute. reflexivity. Qed.

(** C59 (partial: not for all proposals, see below): the round ends if no rank proposes to take more from a block than its excess
    and one node of maximum weight, and limits exceed the average by the weight of a node less one. *)
Theorem C59_round_ends_partial : forall (sy : nat -> nat -> bool) P k per_block srt bw mx perfect maxw (x : nat -> list cand),
  (0 < P)%nat -> (2 <= k)%nat -> 1 <= maxw -> length bw = k -> length mx = k -> (forall l, Permutation (srt l) l) ->
  (forall r c, (r < P)%nat -> In c (x r) -> (c_from c < k)%nat /\ (c_to c < k)%nat /\ 0 <= c_w c <= maxw /\ nth (c_from c) mx 0 < nth (c_from c) bw 0) ->
  (forall r, (r < P)%nat -> sorted_from (x r) /\ out_bounded bw mx maxw (x r)) ->
  zsum bw <= perfect * Z.of_nat k -> (forall b, (b < k)%nat -> perfect + maxw - 1 <= nth b mx 0) ->
  exists ws ws' bw', always_returns (map (fun r => reduce_candidates sy bw mx per_block srt k P r (x r)) (seq 0 P)) (fun r => if (r =? 0)%nat then Some (Some ws) else None) /\
    root_moves k mx k ws bw = Some (ws', bw').
Proof. exact reduction_bounded. Qed.
Print Assumptions C59_round_ends_partial.
Example C59_round_ends_ex : zsum ex_bw <= 9 * 3 /\ (forall b, (b < 3)%nat -> 9 + 2 - 1 <= nth b ex_mx 0) /\ outof (ex_x 0) 0 <= nth 0 ex_bw 0 - nth 0 ex_mx 0 - 1 + 2.
Proof. repeat split; try (vm_compute; discriminate). intros b Hb. do 3 (destruct b as [|b]; [cbn; lia|]). lia. Qed.

(** C59: with unit node weights and limits of at least the average, the round as a whole (proposals from the queues of all ranks)
    always ends and leaves every block within its limit or at most as heavy as before. *)
Theorem C59_unit_round : forall (sy : nat -> nat -> bool) P k num per_block srt bw mx perfect (nodes : nat -> nat -> list lnode),
  (0 < P)%nat -> (2 <= k)%nat -> length bw = k -> length mx = k -> (forall l, Permutation (srt l) l) ->
  (forall r b u, (r < P)%nat -> (b < k)%nat -> In u (nodes r b) -> l_w u = 1) ->
  zsum bw <= perfect * Z.of_nat k -> (forall b, (b < k)%nat -> perfect <= nth b mx 0) ->
  exists ws ws' bw', always_returns (map (fun r => reduce_candidates sy bw mx per_block srt k P r (propose bw mx num (nodes r))) (seq 0 P))
                                    (fun r => if (r =? 0)%nat then Some (Some ws) else None) /\
    root_moves k mx k ws bw = Some (ws', bw') /\ perform_moves ws' bw = Some bw' /\
    forall b, (b < k)%nat -> nth b bw' 0 <= Z.max (nth b mx 0) (nth b bw 0).
Proof. exact unit_round. Qed.
Print Assumptions C59_unit_round.
Example C59_unit_round_ex :
  let nodes := fun b => match b with 0%nat => map (fun i => LNode i 1 [1; Z.of_nat i]) (seq 0 4) | _ => [LNode 4 1 [0; 1]; LNode 5 1 [0; 1]] end in
  map (fun c => (c_id c, c_to c)) (propose [4; 2] [3; 3] 5 nodes) = [(3, 1)]%nat.
Proof. vm_compute. reflexivity. Qed.

(** C59 is false in general: two blocks, limits average plus maximum node weight, and yet the root searches forever. *)
Theorem C59_round_hangs_refuted : exists (bw mx : list Z) (nodes : nat -> list lnode),
  (forall b, (b < 2)%nat -> nth b bw 0 = zsum (map l_w (nodes b)) /\ nth b mx 0 = zsum bw / 2 + 10 /\ forall u, In u (nodes b) -> 1 <= l_w u <= 10) /\
  forall (sy : nat -> nat -> bool) per_block srt, exists ws,
    always_returns [reduce_candidates sy bw mx per_block srt 2 1 0 (propose bw mx 5 nodes)] (fun _ => Some (Some ws)) /\
    forall fuel, root_moves fuel mx 2 ws bw = None.
Proof. exact round_hangs. Qed.
Print Assumptions C59_round_hangs_refuted.
