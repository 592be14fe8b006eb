(* kaminpar-dist/algorithms/greedy_node_coloring.h: compute_node_coloring_sequentially, the greedy colouring of a distributed graph that
   decides in which order the coloured refiners visit the nodes. Colours are natural numbers without overflow; the marker is the set of
   marked colours (marker.h behaves like this as long as it was reset fewer than 2^31 times, see C30). [None]: an access out of bounds. *)
From Verif Require Import Lib.Prelude Model.GridModel Model.MathModel Model.DistGraphModel.

(** A rank: colouring (own nodes and ghosts; 0: no colour yet) and active (own nodes). *)
Definition cstate : Type := list nat * list bool.

(** :35-37, 50-52. *)
Definition coloring_start (d : dcsr) : cstate := (repeat 0 (dn d + dghost_n d), repeat true (dn d)).
(** :41-44 the largest degree of the own nodes; parallel::max_element of nothing is 0 (unsigned). *)
Definition local_max_degree (d : dcsr) : nat :=
  fold_left Nat.max (map (fun u => nth (u + 1) (dc_nodes d) 0 - nth u (dc_nodes d) 0) (seq 0 (dn d))) 0.
(** :45 the maximum over all ranks, plus one. *)
Definition max_colors (P : nat) (d : nat -> dcsr) : nat := fold_left Nat.max (map (fun r => local_max_degree (d r)) (seq 0 P)) 0 + 1.

(** marker.h first_unmarked_element: the first colour from [e] on that is not marked ([size]: all are). *)
Fixpoint first_unmarked_from (marks : list nat) (e left : nat) : nat :=
  match left with
  | O => e
  | S k => if existsb (Nat.eqb e) marks then first_unmarked_from marks (S e) k else e
  end.
Definition first_unmarked (size : nat) (marks : list nat) : nat := first_unmarked_from marks 0 size.

Section Rank.
Variables (d : dcsr) (size : nat).   (* the graph of this rank, max_colors *)

(** :68-77 the loop over the neighbours of [u]; [cu]: the colour of u, [gu]: its global identifier. *)
Fixpoint mark_neighbors (col : list nat) (cu gu : nat) (nbs : list (nat * Z)) (marks : list nat) (iface : bool) : option (list nat * bool) :=
  match nbs with
  | [] => Some (marks, iface)
  | (v, _) :: t =>
      bind (nth_error col v) (fun cv =>
      bind (dlocal_to_global d v) (fun gv =>
      let iface := iface || dis_ghost d v in
      if negb (cv =? 0) && ((cu =? 0) || negb ((cv =? cu) && (gu <? gv))) then
        if cv - 1 <? size then mark_neighbors col cu gu t ((cv - 1) :: marks) iface else None
      else mark_neighbors col cu gu t marks iface))
  end.
(** :62-95 one node. *)
Definition color_node (s : option cstate) (u : nat) : option cstate :=
  bind s (fun s =>
  bind (nth_error (snd s) u) (fun a =>
  if negb a then Some s else
  bind (nth_error (fst s) u) (fun cu =>
  bind (dlocal_to_global d u) (fun gu =>
  bind (dadj d u) (fun nbs =>
  bind (mark_neighbors (fst s) cu gu nbs [] false) (fun m =>
  let next := first_unmarked size (fst m) + 1 in
  if cu =? 0 then Some (upd u next (fst s), if snd m then snd s else upd u false (snd s))
  else if cu - 1 <? size then
    if existsb (Nat.eqb (cu - 1)) (fst m) then Some (upd u next (fst s), snd s)
    else Some (fst s, upd u false (snd s))
  else None)))))).
Definition color_nodes (us : list nat) (s : cstate) : option cstate := fold_left color_node us (Some s).
End Rank.

(** :59 the nodes of a superstep. *)
Definition step_from (d : dcsr) (steps i : nat) : nat := N.to_nat (fst (compute_local_range (N.of_nat (dn d)) (N.of_nat steps) (N.of_nat i))).
Definition step_to (d : dcsr) (steps i : nat) : nat := N.to_nat (snd (compute_local_range (N.of_nat (dn d)) (N.of_nat steps) (N.of_nat i))).
(** :107 the nodes that are sent. *)
Definition active_filter (act : list bool) (s u : nat) : bool := nth u act false.

(** :58-126 superstep [i] on all ranks: [s] to [s']; [quiet r]: rank r received nothing (:113). [threads]: of the exchange. *)
Definition superstep (P : nat) (d : nat -> dcsr) (size steps i : nat) (s s' : nat -> cstate) (quiet : nat -> bool) : Prop :=
  exists (s1 : nat -> cstate) (threads : nat -> nat) (bufs : nat -> list (list (nat * nat))) (msgs : nat -> list (nat * (nat * nat))),
  forall r, r < P ->
    let lo := step_from (d r) steps i in let hi := step_to (d r) steps i in
    color_nodes (d r) size (seq lo (hi - lo)) (s r) = Some (s1 r) /\
    0 < threads r /\
    buffers_outcome P (d r) (fun u => u) (active_filter (snd (s1 r))) (value_message (fst (s1 r)) 0) (threads r) lo hi (bufs r) /\
    Permutation (msgs r) (inbox P bufs r) /\
    receive_values (d r) (fst (s1 r)) (msgs r) = Some (fst (s' r)) /\
    snd (s' r) = snd (s1 r) /\
    quiet r = match msgs r with [] => true | _ => false end.
(** :56-126 the supersteps [is]; [conv r]: the flag of rank r. *)
Inductive supersteps (P : nat) (d : nat -> dcsr) (size steps : nat) : list nat -> (nat -> cstate) -> (nat -> cstate) -> (nat -> bool) -> Prop :=
| no_superstep s : supersteps P d size steps [] s s (fun _ => true)
| more_supersteps i is s s1 s2 quiet conv :
    superstep P d size steps i s s1 quiet -> supersteps P d size steps is s1 s2 conv ->
    supersteps P d size steps (i :: is) s s2 (fun r => quiet r && conv r).
Definition pass (P : nat) (d : nat -> dcsr) (steps : nat) : (nat -> cstate) -> (nat -> cstate) -> (nat -> bool) -> Prop :=
  supersteps P d (max_colors P d) steps (seq 0 steps).
(** :127 the allreduce. *)
Definition all_converged (P : nat) (conv : nat -> bool) : bool := forallb conv (seq 0 P).
(** :54-127 after [k] passes of which none converged. *)
Inductive running (P : nat) (d : nat -> dcsr) (steps : nat) : nat -> (nat -> cstate) -> Prop :=
| run_start s : (forall r, r < P -> s r = coloring_start (d r)) -> running P d steps 0 s
| run_again k s s' conv : running P d steps k s -> pass P d steps s s' conv -> all_converged P conv = false -> running P d steps (S k) s'.
(** :29-127 and the final loop that subtracts one: what the call may return on the ranks. *)
Definition coloring_outcome (P : nat) (d : nat -> dcsr) (steps : nat) (colors : nat -> list nat) : Prop :=
  exists k s s' conv, running P d steps k s /\ pass P d steps s s' conv /\ all_converged P conv = true /\
    forall r, r < P -> colors r = map (fun c => c - 1) (fst (s' r)).
