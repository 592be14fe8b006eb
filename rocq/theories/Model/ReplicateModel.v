(* kaminpar-dist/graphutils/replicator.cc: copies of a distributed graph for all ranks or for groups of ranks, and the choice of the best
   partition. Collective operations are modelled by their definitions in the MPI standard; counts and displacements (int) are
   unbounded. [None]: an access out of bounds, or arguments of a collective operation that do not fit together. *)
From Verif Require Import Lib.Prelude Model.GridModel Model.DistGraphModel.

(** ** replicate_graph_everywhere *)

(** MPI_Allgatherv: rank r of the communicator sends [nth r pieces], everybody receives [nth r cnts] elements at [nth r dis]. *)
Definition allgatherv {X} (pieces : list (list X)) (cnts dis : list nat) (buf : list X) : option (list X) :=
  fold_left (fun acc r => bind acc (fun b =>
    bind (nth_error pieces r) (fun p => bind (nth_error cnts r) (fun c => bind (nth_error dis r) (fun s =>
    if length p =? c then put b s p else None))))) (seq 0 (length pieces)) (Some buf).
(** kaminpar-mpi/wrapper.h:393-410 build_distribution_recvcounts and build_distribution_displs. *)
Definition dist_counts (dist : list nat) : list nat := map (fun i => nth (S i) dist 0 - nth i dist 0) (seq 0 (length dist - 1)).
Definition dist_displs (dist : list nat) : list nat := firstn (length dist - 1) dist.

Fixpoint store_all (e : nat) (vs buf : list nat) : option (list nat) :=
  match vs with [] => Some buf | v :: t => bind (store e v buf) (store_all (S e) t) end.
(** :134-139, :312-317: the iteration for node [u]. The iterations write to different places, so their order does not matter. (At :316 the
    edges are written at the position of this rank in a larger array, from which MPI_Allgatherv takes them in place; here the part
    of this rank is a buffer of its own.) *)
Definition global_row (d : dcsr) (u : nat) (buf : list nat) : option (list nat) :=
  bind (nth_error (dc_nodes d) u) (fun e => bind (dadj d u) (fun nbs =>
  bind (traverse (fun x => dlocal_to_global d (fst x)) nbs) (fun gs => store_all e gs buf))).
Definition global_edges (d : dcsr) (buf : list nat) : option (list nat) :=
  fold_left (fun acc u => bind acc (global_row d u)) (seq 0 (dn d)) (Some buf).
Definition nonempty {X} (l : list X) : bool := match l with [] => false | _ => true end.

(** :230-239: one piece of the parallel loop; the search for the rank of a node continues from the rank of the previous node. *)
Fixpoint find_pe (fuel : nat) (dist : list nat) (u pe : nat) : option nat :=
  match fuel with
  | O => None
  | S f => bind (nth_error dist (pe + 1)) (fun x => if x <=? u then find_pe f dist u (pe + 1) else Some pe)
  end.
Fixpoint shift_chunk (dist edist us : list nat) (pe : nat) (nodes : list nat) : option (list nat) :=
  match us with
  | [] => Some nodes
  | u :: t =>
      bind (find_pe (length dist) dist u pe) (fun pe' => bind (nth_error edist pe') (fun o => bind (nth_error nodes u) (fun x =>
      shift_chunk dist edist t pe' (upd u (x + o) nodes))))
  end.
(** [chunks]: the ranges (start, length) into which the loop is split, in the order of execution. *)
Definition shift_nodes (dist edist : list nat) (chunks : list (nat * nat)) (nodes : list nat) : option (list nat) :=
  fold_left (fun acc c => bind acc (shift_chunk dist edist (seq (fst c) (snd c)) 0)) chunks (Some nodes).

Record csr := Csr { cs_nodes : list nat; cs_edges : list nat; cs_nw : list Z; cs_ew : list Z }.
(** :113-245, on rank [r]. *)
Definition replicate_everywhere (ds : list dcsr) (r : nat) (chunks : list (nat * nat)) : option csr :=
  bind (nth_error ds r) (fun d =>
  let dist := dc_dist d in let edist := dc_edist d in
  let gn := last dist 0 in let gm := last edist 0 in
  bind (traverse (fun d => slice (dc_nodes d) 0 (dn d)) ds) (fun pn =>
  bind (traverse (fun d => global_edges d (repeat 0 (length (dc_edges d)))) ds) (fun pe =>
  bind (allgatherv pn (dist_counts dist) (dist_displs dist) (repeat 0 (gn + 1))) (fun nodes =>
  bind (allgatherv pe (dist_counts edist) (dist_displs edist) (repeat 0 gm)) (fun edges =>
  bind (if existsb (fun d => nonempty (dc_nw d)) ds then
          bind (traverse (fun d => slice (dc_nw d) 0 (dn d)) ds) (fun p => allgatherv p (dist_counts dist) (dist_displs dist) (repeat 0%Z gn))
        else Some []) (fun nw =>
  bind (if existsb (fun d => nonempty (dc_ew d)) ds then
          bind (traverse (fun d => slice (dc_ew d) 0 (length (dc_edges d))) ds) (fun p => allgatherv p (dist_counts edist) (dist_displs edist) (repeat 0%Z gm))
        else Some []) (fun ew =>
  bind (store (length nodes - 1) gm nodes) (fun nodes =>
  bind (shift_nodes dist edist chunks nodes) (fun nodes => Some (Csr nodes edges nw ew)))))))))).

(** ** distribute_best_partition for partitions of the replicated graph (:575-614) *)

(** MPI_MINLOC: the smallest value, and among equal values the smallest rank. *)
Fixpoint minloc (i : nat) (l : list Z) : option (Z * nat) :=
  match l with
  | [] => None
  | x :: t => match minloc (S i) t with Some (y, j) => if (y <? x)%Z then Some (y, j) else Some (x, i) | None => Some (x, i) end
  end.
(** asserting_cast to a signed integer of [bits] bits: fails in the default build if the value does not fit. *)
Definition checked (bits x : Z) : option Z := if (- 2 ^ (bits - 1) <=? x)%Z && (x <? 2 ^ (bits - 1))%Z then Some x else None.
(** [cuts], [parts]: the cuts and the partitions of all ranks. Result on the rank with the graph [d]: blocks of own nodes and ghosts. *)
Definition best_partition (bits : Z) (cuts : list Z) (parts : list (list nat)) (d : dcsr) : option (list nat) :=
  bind (traverse (checked bits) cuts) (fun cs =>
  bind (minloc 0 cs) (fun best =>
  bind (nth_error parts (snd best)) (fun p =>
  bind (slice p 0 (last (dc_dist d) 0)) (fun p =>
  traverse (fun u => bind (dlocal_to_global d u) (nth_error p)) (seq 0 (dn d + dghost_n d)))))).

(** ** replicate_graph: groups of ranks *)
Section Groups.
Variable P : nat.      (* size of the communicator *)
Variable R : nat.      (* num_replications *)
(** :258-261 the new communicator of rank [r], its size and the rank in it. *)
Definition group (r : nat) : list nat := comm_split P (fun r => r mod R) (fun r => r) (r mod R).
Definition new_rank (r : nat) : nat := match index_of r (group r) with Some i => i | None => P end.
Definition new_size (r : nat) : nat := length (group r).
(** :264-267 the ranks whose data are merged. *)
Definition primary (r : nat) : list nat := comm_split P new_rank (fun r => r) (new_rank r).
(** :269-288. *)
Definition participant (r : nat) : bool :=
  negb (P mod R =? 0) && ((r + 1 =? P) || ((new_size r =? P / R) && (new_rank r + 1 =? new_size r))).
Definition secondary (r : nat) : list nat := comm_split P (fun r => if participant r then 1 else 0) (fun r => r) (if participant r then 1 else 0).

Variable ds : list dcsr.
Definition members_of (l : list nat) : option (list dcsr) := traverse (nth_error ds) l.

(** :290-293, 307-389: what a rank has after the exchange with the ranks in [primary r]: nodes (shifted, without the guard), edges with
    global identifiers, edge weights; and its displacements. *)
Definition primary_data (r : nat) : option (list nat * list nat * list Z) :=
  bind (members_of (primary r)) (fun ms =>
  let ncnt := map dn ms in let ecnt := map (fun d => length (dc_edges d)) ms in
  bind (traverse (fun d => slice (dc_nodes d) 0 (dn d)) ms) (fun pn =>
  bind (traverse (fun d => global_edges d (repeat 0 (length (dc_edges d)))) ms) (fun pe =>
  bind (allgatherv pn ncnt (displs ncnt) (repeat 0 (list_sum ncnt))) (fun nodes =>
  bind (allgatherv pe ecnt (displs ecnt) (repeat 0 (list_sum ecnt))) (fun edges =>
  bind (if existsb (fun d => nonempty (dc_ew d)) ds then
          bind (traverse (fun d => slice (dc_ew d) 0 (length (dc_edges d))) ms) (fun p => allgatherv p ecnt (displs ecnt) (repeat 0%Z (list_sum ecnt)))
        else Some []) (fun ew =>
  bind (fold_left (fun acc p => bind acc (fun nodes =>
          bind (nth_error (displs ecnt) p) (fun o => bind (nth_error (displs ncnt) p) (fun a => bind (nth_error (displs ncnt) (p + 1)) (fun b =>
          fold_left (fun acc u => bind acc (fun l => bind (nth_error l u) (fun x => Some (upd u (x + o) l)))) (seq a (b - a)) (Some nodes))))))
        (seq 0 (length ms)) (Some nodes)) (fun nodes =>
  Some (nodes, edges, ew)))))))).
(** MPI_Bcast: the types (given by their widths) and counts must agree. *)
Definition bcast {X} (width_root width : nat) (data : list X) (count : nat) : option (list X) :=
  if (length data =? count) && ((width_root =? width) || (count =? 0)) then Some data else None.
(** :295-305, 392-445: the participants other than the last rank also get the data of the last rank. [wglobal], [wlocal]: the widths of
    GlobalNodeID and NodeID; the edges are sent as the one and received as the other type. *)
Definition all_data (wglobal wlocal r : nat) : option (list nat * list nat * list Z) :=
  bind (primary_data r) (fun own =>
  if participant r && negb (r + 1 =? P) then
    bind (primary_data (P - 1)) (fun x =>
    bind (bcast 0 0 (fst (fst x)) (length (fst (fst x)))) (fun xn =>
    bind (bcast wglobal wlocal (snd (fst x)) (length (snd (fst x)))) (fun xe =>
    bind (bcast 0 0 (snd x) (length (snd (fst x)))) (fun xw =>
    let o := length (snd (fst own)) in
    Some (fst (fst own) ++ map (fun y => y + o) xn, snd (fst own) ++ xe, snd own ++ xw)))))
  else Some own).
(** :449-456 the distributions of the new graph. *)
Definition new_distribution (size : nat) (dist : list nat) : list nat :=
  map (fun pe => if pe =? size then last dist 0 else nth (Nat.min P (R * pe)) dist 0) (seq 0 (size + 1)).
(** :462-463: the nodes of the new rank. *)
Definition new_from (r : nat) (d : dcsr) (ms : list dcsr) : option nat :=
  bind (index_of r (primary r)) (fun i => bind (nth_error (dc_dist d) r) (fun a => bind (nth_error (displs (map dn ms)) i) (fun b => Some (a - b)))).
(** :483-496: the weights of the own nodes and room for [gh] ghosts. *)
Definition new_weights (r gh : nat) : option (list Z) :=
  if existsb (fun d => nonempty (dc_nw d)) ds then
    bind (members_of (primary r)) (fun ms => bind (traverse (fun d => slice (dc_nw d) 0 (dn d)) ms) (fun p =>
    allgatherv p (map dn ms) (displs (map dn ms)) (repeat 0%Z (list_sum (map dn ms) + gh))))
  else Some [].
(** :247-541 without the final synchronisation of the weights of ghosts: what rank [r] may end up with, for some interleaving of the loop
    over the edges (:466-475, as in dkaminpar.cc) and some order of the traversal of the map. *)
Definition replicate_outcome (wglobal wlocal r : nat) (d' : dcsr) : Prop :=
  exists d ms data n0 junk sched s order gh nw,
    nth_error ds r = Some d /\ members_of (primary r) = Some ms /\ all_data wglobal wlocal r = Some data /\ new_from r d ms = Some n0 /\
    let dist' := new_distribution (new_size r) (dc_dist d) in
    let edist' := new_distribution (new_size r) (dc_edist d) in
    let n := length (fst (fst data)) in
    let adj := snd (fst data) in
    let lo := nth (new_rank r) dist' 0 in let hi := nth (S (new_rank r)) dist' 0 in
    length junk = length adj /\ import_run n0 (n0 + n) adj sched (import_start lo hi adj junk) = Some s /\
    (forall t, In t (im_tasks s) -> t = Finished) /\ Permutation order (entries (im_map s)) /\
    finalize (hi - lo) dist' (im_next s) order = Some gh /\ new_weights r (length (gh_global gh)) = Some nw /\
    d' = Dcsr (new_rank r) dist' edist' (fst (fst data) ++ [length adj]) (im_edges s) nw (snd data) gh.
End Groups.

(** ** distribute_best_partition for groups (:517-573) *)

(** On rank [r] of the large communicator with the graph [d]: [cut i], [parts i]: cut and blocks of the nodes of the [i]-th rank. The
    result are the blocks of the own nodes. :527 the number of replications is computed from the size of the group of the calling rank. *)
Definition scatter_best (P R : nat) (cut : nat -> Z) (parts : nat -> list nat) (dist : list nat) (r : nat) : option (list nat) :=
  let inter := primary P R r in
  bind (minloc 0 (map cut inter)) (fun best =>
  bind (nth_error inter (snd best)) (fun root =>
  bind (index_of r inter) (fun me =>
  let reps := P / new_size P R root in
  let first := new_rank P R root * reps in
  bind (traverse (fun pe => bind (nth_error dist (pe + 1)) (fun b => bind (nth_error dist pe) (fun a => Some (b - a)))) (seq first reps)) (fun cnts =>
  bind (nth_error cnts me) (fun c => bind (nth_error (displs cnts) me) (fun s =>
  bind (nth_error dist (r + 1)) (fun b => bind (nth_error dist r) (fun a =>
  if c =? b - a then slice (parts root) s c else None)))))))).
