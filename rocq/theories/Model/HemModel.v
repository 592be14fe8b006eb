(* kaminpar-dist/coarsening/clustering/hem/hem_clusterer.cc: heavy edge matching, the clusterer for distributed graphs that is selected with the
   algorithms "global-hem" and "global-hem-lp", and hem_lp_clusterer.cc: what the latter does with the result. Nodes are visited by colour classes;
   in a round every rank matches its nodes of one colour, then the ranks agree about the matched edges between them.
   Not modelled: overflow (sums of two node weights, edge weights above 32 bits in the packed bids), the colour blacklist (computed, never
   read), graphs that are sorted by colours already. Reads out of range give a default and writes out of range do nothing. *)
From Verif Require Import Lib.Prelude Model.GridModel Model.DistGraphModel Model.RearrangeModel.

(** An entry of _matching: kInvalidGlobalNodeID, a global node, or (during resolve_global_conflicts, :313) edge weight << 32 | local node.
    (_matching takes over the storage of the caller's array: StaticArray's move leaves its pointer behind, so :65 and :75-79 see the same memory.) *)
Inductive cell := Free | To (g : nat) | Bid (w : Z) (l : nat).
Definition rd (s : list cell) (l : nat) : cell := nth l s Free.
Definition taken (c : cell) : bool := match c with Free => false | _ => true end.
Definition goes_to (c : cell) (g : nat) : bool := match c with To h => h =? g | _ => false end.

(** :302-306 a request of rank [rq_pe]: its node [rq_theirs], our node [rq_mine], the weight of the edge (after the swap in :281). *)
Record req := Req { rq_pe : nat; rq_theirs : nat; rq_mine : nat; rq_w : Z }.

Section Rank.
Variable d : dcsr.
Definition row (u : nat) : list (nat * Z) := match dadj d u with Some l => l | None => [] end.
Definition glob (l : nat) : nat := match dlocal_to_global d l with Some g => g | None => 0 end.
Definition loc (g : nat) : nat := match dglobal_to_local d g with Some l => l | None => 0 end.
Definition offset (pe : nat) : nat := match doffset d pe with Some o => o | None => 0 end.
Definition owner_is (pe l : nat) : bool := match dghost_owner d l with Some q => q =? pe | None => false end.
Definition wt (l : nat) : Z := match dnode_weight (dc_nw d) l with Some w => w | None => 0%Z end.

(** ** :200-256 compute_local_matching *)
Section Local.
Variables (maxw : Z) (ignore : bool).   (* _max_cluster_weight, ignore_weight_limit *)
Variable s0 : list cell.                (* _matching at the beginning of the phase *)
Variable hidden : nat -> nat -> bool.   (* (node, number of the edge): the read in :222 sees a match made during this phase (over-approximation: reads of other
                                           threads' writes in arbitrary order, or not at all) *)
Variable fails : nat -> bool.           (* the weak compare-exchange (:243) of this node fails spuriously *)

(** :220-238 one edge (number, (neighbour, weight)); [b]: best_neighbor, best_weight. *)
Definition better (u : nat) (b : nat * Z) (e : nat * (nat * Z)) : nat * Z :=
  let v := fst (snd e) in let w := snd (snd e) in
  if taken (rd s0 v) || hidden u (fst e) then b
  else if (maxw <? wt u + wt v)%Z && negb ignore then b
  else if (w <? snd b)%Z then b
  else (v, w).
Definition candidate (u : nat) : nat * Z := fold_left (better u) (combine (seq 0 (length (row u))) (row u)) (0, 0%Z).
(** :204-255 one node. The compare-exchange and the store of the node's own entry are one step: no node of the same colour is a neighbour,
    hence nobody reads the own entry before the phase ends. *)
Definition match_node (s : list cell) (u : nat) : list cell :=
  if taken (rd s u) then s
  else
    let b := candidate u in
    if (0 <? snd b)%Z && negb (fails u) && negb (taken (rd s (fst b))) then upd u (To (glob (fst b))) (upd (fst b) (To (glob (fst b))) s)
    else s.
(** The nodes of the class in the order of their compare-exchanges. *)
Definition match_nodes (order : list nat) : list cell := fold_left match_node order s0.
End Local.

(** ** :258-421 resolve_global_conflicts *)

(** :269-283, communication.h:120-240: the requests for rank [pe]; [me]: this rank. *)
Definition requests (me : nat) (class : list nat) (s : list cell) (pe : nat) : list req :=
  flat_map (fun u : nat => flat_map (fun e : nat * Z =>
    if dis_ghost d (fst e) && owner_is pe (fst e) && goes_to (rd s u) (glob (fst e)) then [Req me u (glob (fst e) - offset pe) (snd e)] else []) (row u)) class.
(** :285-291: our node is still free ([s1]: after the local phase). *)
Definition accepted (s1 : list cell) (q : req) : bool := negb (taken (rd s1 (rq_mine q))).
(** :299 the local identifier of their node. *)
Definition their_node (q : req) : nat := loc (rq_theirs q + offset (rq_pe q)).
(** :293-321 one request; [snd x]: its compare-exchange failed (another thread was faster, or spuriously): the loop condition is the wrong way
    round, so the request is dropped. A successful exchange is repeated once, which has no effect: the entry differs from the old one. *)
Definition place_bid (s1 s : list cell) (x : req * bool) : list cell :=
  let q := fst x in
  if snd x || negb (accepted s1 q) then s
  else
    let current := match rd s (rq_mine q) with Bid w _ => w | _ => 0%Z end in
    if (rq_w q <=? current)%Z then s else upd (rq_mine q) (Bid (rq_w q) (their_node q)) s.
Definition place_bids (s1 : list cell) (bids : list (req * bool)) : list cell := fold_left (place_bid s1) bids s1.
(** :323-337: the request wins. (No request that was accepted finds a global node in the entry.) *)
Definition won (s1 s2 : list cell) (q : req) : bool :=
  accepted s1 q && match rd s2 (rq_mine q) with Bid _ l => l =? their_node q | _ => false end.
(** :339-346. *)
Definition normalize (s1 s2 : list cell) (qs : list req) : list cell :=
  fold_left (fun s q => if won s1 s2 q then upd (rq_mine q) (To (glob (rq_mine q))) s else s) qs s2.
(** :352-359: the answers (node, did it win?). *)
Definition unmatch (s : list cell) (answers : list (nat * bool)) : list cell :=
  fold_left (fun (s : list cell) (a : nat * bool) => if snd a then s else upd (fst a) Free s) answers s.
(** :388-408: the nodes for which [add_node] is called; [winners]: the requests that this rank granted. *)
Definition sync_nodes (me : nat) (class : list nat) (s : list cell) (winners : list req) : list nat :=
  flat_map (fun u =>
    match rd s u with
    | Free => []
    | To g => u :: (if (offset me <=? g) && (g <? offset me + dn d) then (if u =? g - offset me then [] else [g - offset me]) else [])
    | Bid _ _ => [u]
    end) class ++ map rq_mine winners.
(** :371-386: the messages (node, entry) for rank [pe]. *)
Definition sync_messages (me : nat) (class : list nat) (s : list cell) (winners : list req) (pe : nat) : list (nat * cell) :=
  flat_map (fun x => if existsb (fun e => dis_ghost d (fst e) && owner_is pe (fst e)) (row x) then [(x, rd s x)] else []) (sync_nodes me class s winners).
(** :410-420: (sender, (node, entry)). *)
Definition receive_cell (s : list cell) (m : nat * (nat * cell)) : list cell := upd (loc (offset (fst m) + fst (snd m))) (snd (snd m)) s.
Definition receive_cells (s : list cell) (ms : list (nat * (nat * cell))) : list cell := fold_left receive_cell ms s.
(** :75-79. *)
Definition label_of (s : list cell) (l : nat) : nat := match rd s l with To g => g | Free => glob l | Bid _ _ => 0 end.
Definition labels (s : list cell) : list nat := map (label_of s) (seq 0 (dn d + dghost_n d)).
End Rank.

Section System.
Variables (P : nat) (d : nat -> dcsr) (maxw : Z) (ignore : bool).
(** All requests for rank [q], all granted ones, all answers for rank [r], all synchronisation messages for rank [q]. *)
Definition incoming (class : nat -> list nat) (s1 : nat -> list cell) (q : nat) : list req := flat_map (fun r => requests (d r) r (class r) (s1 r) q) (seq 0 P).
Definition granted (class : nat -> list nat) (s1 s2 : nat -> list cell) (q : nat) : list req := filter (won (d q) (s1 q) (s2 q)) (incoming class s1 q).
Definition answers (class : nat -> list nat) (s1 s2 : nat -> list cell) (r : nat) : list (nat * bool) :=
  flat_map (fun q => map (fun x => (rq_theirs x, won (d q) (s1 q) (s2 q) x)) (filter (fun x => rq_pe x =? r) (incoming class s1 q))) (seq 0 P).
Definition sync_inbox (class : nat -> list nat) (s1 s2 s4 : nat -> list cell) (q : nat) : list (nat * (nat * cell)) :=
  flat_map (fun r => map (pair r) (sync_messages (d r) r (class r) (s4 r) (granted class s1 s2 r) q)) (seq 0 P).
(** :70-73 the round of one colour, for any interleaving and any order of messages. *)
Definition hem_round (class : nat -> list nat) (s s' : nat -> list cell) : Prop :=
  exists (order : nat -> list nat) (hidden : nat -> nat -> nat -> bool) (fails : nat -> nat -> bool) (bids : nat -> list (req * bool)) (msgs : nat -> list (nat * (nat * cell))),
    let s1 := fun r => match_nodes (d r) maxw ignore (s r) (hidden r) (fails r) (order r) in
    let s2 := fun r => place_bids (d r) (s1 r) (bids r) in
    let s4 := fun r => unmatch (normalize (d r) (s1 r) (s2 r) (incoming class s1 r)) (answers class s1 s2 r) in
    forall r, r < P ->
      Permutation (order r) (class r) /\ Permutation (map fst (bids r)) (incoming class s1 r) /\ Permutation (msgs r) (sync_inbox class s1 s2 s4 r) /\
      s' r = receive_cells (d r) (s4 r) (msgs r).
(** :107-155: the own nodes of colour [c] (the counting sort by colour is RearrangeModel.color_order). *)
Definition color_class (col : nat -> list nat) (c r : nat) : list nat := filter (fun u => nth u (col r) 0 =? c) (seq 0 (dn (d r))).
Inductive hem_rounds (col : nat -> list nat) : list nat -> (nat -> list cell) -> (nat -> list cell) -> Prop :=
| no_round s : hem_rounds col [] s s
| more_rounds c cs s s1 s2 : hem_round (color_class col c) s s1 -> hem_rounds col cs s1 s2 -> hem_rounds col (c :: cs) s s2.
(** :57-84 cluster, given the colouring: what the ranks may return. :107-108: the number of colours ([None]: a rank without nodes reads past the end). *)
Definition hem_outcome (col : nat -> list nat) (result : nat -> list nat) : Prop :=
  exists colors s, num_colors (map col (seq 0 P)) = Some colors /\
    hem_rounds col (seq 0 colors) (fun r => repeat Free (dn (d r) + dghost_n (d r))) s /\ forall r, r < P -> result r = labels (d r) (s r).
(** hem_lp_clusterer.cc:48-67: the number of clusters that is compared with the number of nodes; [n]: global_n. *)
Definition size_after_contraction (n : nat) (result : nat -> list nat) : nat :=
  n - list_sum (map (fun r => length (filter (fun u => negb (nth u (result r) 0 =? glob (d r) u)) (seq 0 (dn (d r))))) (seq 0 P)).
End System.
