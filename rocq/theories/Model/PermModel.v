(* Model of kaminpar-shm/graphutils/permutator.{h,cc}: node permutation by degree buckets, the
   permuted graph, and re-assignment of isolated nodes. *)
From Verif Require Import Lib.Prelude Model.MathModel Model.CsrModel.

(** math.h:152-159 compute_local_range on node IDs. *)
Definition local_range (n p cpu : nat) : nat * nat :=
  let r := compute_local_range (N.of_nat n) (N.of_nat p) (N.of_nat cpu) in
  (N.to_nat (fst r), N.to_nat (snd r)).

(** The nodes of the chunk that deterministic_for hands to [cpu] (parallel/loops.h:83-95). *)
Definition cpu_chunk (n p cpu : nat) : list nat :=
  let r := local_range n p cpu in seq (fst r) (snd r - fst r).

(** permutator.h:51-54: one chunk of the first pass; [row] is local_buckets[cpu + 1]. *)
Definition count_chunk (find_bucket : nat -> nat) (chunk : list nat) (perm row : list nat)
    : list nat * list nat :=
  fold_left (fun (st : list nat * list nat) u =>
      let (perm, row) := st in
      let b := find_bucket u in
      (upd u (nth b row 0) perm, upd b (S (nth b row 0)) row)) chunk (perm, row).

(** permutator.h:45-56: first pass. Chunks touch disjoint parts of permutation and local_buckets,
    so they are executed one after another. Result: permutation and local_buckets[1..cpus]. *)
Definition count_pass (find_bucket : nat -> nat) (n num_buckets cpus : nat) (perm : list nat)
    : list nat * list (list nat) :=
  fold_left (fun (st : list nat * list (list nat)) cpu =>
      let (perm, rows) := st in
      let (perm', row) := count_chunk find_bucket (cpu_chunk n cpus cpu) perm (repeat 0 (S num_buckets)) in
      (perm', rows ++ [row])) (seq 0 cpus) (perm, []).

(** permutator.h:63-69: global_buckets (inclusive prefix sum of the bucket sizes shifted by one). *)
Definition global_buckets (num_buckets : nat) (rows : list (list nat)) : list nat :=
  prefix_sum (0 :: map (fun i => list_sum (map (fun row => nth i row 0) rows)) (seq 0 num_buckets)).

(** permutator.h:70-74: local_buckets[id + 1][i] += local_buckets[id][i]. [rows] is
    local_buckets[1..]; the code does not update the last row, which is not read afterwards. *)
Fixpoint accumulate_rows (prev : list nat) (rows : list (list nat)) : list (list nat) :=
  match rows with
  | [] => []
  | row :: t =>
      let row' := map (fun i => nth i row 0 + nth i prev 0) (seq 0 (length row)) in
      row' :: accumulate_rows row' t
  end.

(** permutator.h:77-88: second pass, adds the offsets. [local] is local_buckets[0..]. *)
Definition offset_pass (find_bucket : nat -> nat) (n cpus : nat) (global : list nat)
    (local : list (list nat)) (perm : list nat) : list nat :=
  fold_left (fun perm cpu =>
      fold_left (fun perm u =>
          let b := find_bucket u in
          upd u (nth u perm 0 + (nth b global 0 + nth b (nth cpu local []) 0)) perm)
        (cpu_chunk n cpus cpu) perm) (seq 0 cpus) perm.

(** permutator.h:90-93: inverse permutation. *)
Definition invert_permutation (n : nat) (perm : list nat) : list nat :=
  fold_left (fun inv u => upd (nth u perm 0) u inv) (seq 0 n) (repeat 0 n).

(** permutator.h:28-96 compute_node_permutation_by_generic_buckets: (old_to_new, new_to_old).
    [concurrency] is tbb::this_task_arena::max_concurrency(). *)
Definition permutation_by_buckets (concurrency n num_buckets : nat) (find_bucket : nat -> nat)
    : list nat * list nat :=
  let cpus := Nat.min concurrency n in
  let (perm, rows) := count_pass find_bucket n num_buckets cpus (repeat 0 n) in
  let global := global_buckets num_buckets rows in
  let local := repeat 0 (S num_buckets) :: accumulate_rows (repeat 0 (S num_buckets)) rows in
  let perm' := offset_pass find_bucket n cpus global local perm in
  (perm', invert_permutation n perm').

(** permutator.h:115-122: bucket of a node, isolated nodes go to the last bucket. *)
Definition placement_bucket (deg : nat) : nat :=
  if deg =? 0 then num_degree_buckets - 1 else bucket_of_degree deg.

(** permutator.h:134-145. *)
Definition permutation_by_degree_buckets (concurrency : nat) (nodes : list nat) : list nat * list nat :=
  permutation_by_buckets concurrency (length nodes - 1) num_degree_buckets
    (fun u => placement_bucket (nth (S u) nodes 0 - nth u nodes 0)).

(** permutator.h:206-213: copy the edges of one node backwards from position [p]; [xs] are the values
    to write (new targets, or edge weights), in the order of the old edges. *)
Definition copy_backwards {A} (xs : list A) (p : nat) (arr : list A) : nat * list A :=
  fold_left (fun (st : nat * list A) x => let (p, arr) := st in (p - 1, upd (p - 1) x arr)) xs (p, arr).

(** permutator.h:165-215 build_permuted_graph (has_ghost_nodes = false). [junk_edges] and
    [junk_weights] are the uninitialised contents of the new arrays. The loop over the nodes writes
    disjoint ranges. *)
Definition build_permuted_graph (nodes edges : list nat) (vw ew : list Z) (old_to_new new_to_old : list nat)
    (junk_edges : list nat) (junk_weights : list Z) : list nat * list nat * list Z * list Z :=
  let n := length nodes - 1 in
  let is_node_weighted := length nodes <=? length vw + 1 in
  let is_edge_weighted := length ew =? length edges in
  let degs := map (fun u => let o := nth u new_to_old 0 in nth (S o) nodes 0 - nth o nodes 0) (seq 0 n) in
  let new_vw := if is_node_weighted then map (fun u => nth (nth u new_to_old 0) vw 0%Z) (seq 0 n) else [] in
  let starts := prefix_sum degs in
  let old_edges u := let o := nth u new_to_old 0 in seq (nth o nodes 0) (nth (S o) nodes 0 - nth o nodes 0) in
  let '(new_nodes, new_edges, new_ew) :=
    fold_left (fun '(ns, es, ws) u =>
        let '(p, es') := copy_backwards (map (fun e => nth (nth e edges 0) old_to_new 0) (old_edges u)) (nth u ns 0) es in
        let ws' := if is_edge_weighted
                   then snd (copy_backwards (map (fun e => nth e ew 0%Z) (old_edges u)) (nth u ns 0) ws)
                   else ws in
        (upd u p ns, es', ws'))
      (seq 0 n) (starts, junk_edges, junk_weights) in
  (new_nodes ++ [last starts 0], new_edges, new_vw, new_ew).

(** permutator.cc:21-72 rearrange_graph and 74-96 rearrange_by_degree_buckets. *)
Definition rearrange_by_degree_buckets (concurrency : nat) (junk_edges : list nat) (junk_weights : list Z)
    (g : csr_graph) : csr_graph :=
  let nodes := sa_list (cg_nodes g) in
  let vw := sa_list (cg_node_weights g) in
  let (old_to_new, new_to_old) := permutation_by_degree_buckets concurrency nodes in
  let '(nodes', edges', vw', ew') :=
    build_permuted_graph nodes (cg_edges g) vw (cg_edge_weights g) old_to_new new_to_old
      junk_edges junk_weights in
  cg_set_permutation old_to_new (cg_make (sa_make nodes') edges' (sa_make vw') ew' true).

(** permutator.cc:261-267: the loop over the isolated nodes; [ws] are their weights. State: current
    block and block weights; result: blocks of the nodes. *)
Fixpoint skip_full (fuel k : nat) (maxw : nat -> Z) (w : Z) (bw : list Z) (b : nat) : nat :=
  match fuel with
  | 0 => b
  | S f => if (b + 1 <? k) && (maxw b <? nth b bw 0 + w)%Z then skip_full f k maxw w bw (S b) else b
  end.
Fixpoint assign_isolated_loop (k : nat) (maxw : nat -> Z) (ws : list Z) (b : nat) (bw : list Z)
    : list nat * list Z :=
  match ws with
  | [] => ([], bw)
  | w :: t =>
      let b' := skip_full k k maxw w bw b in
      let (bs, bw') := assign_isolated_loop k maxw t b' (upd b' (nth b' bw 0 + w)%Z bw) in
      (b' :: bs, bw')
  end.

(** permutator.cc:241-270 assign_isolated_nodes: the new partition. *)
Definition assign_isolated_nodes (g : csr_graph) (k : nat) (part : list nat) (bw : list Z)
    (num_isolated : nat) (maxw : nat -> Z) : list nat :=
  let num_nonisolated := cg_n g - num_isolated in
  firstn num_nonisolated part ++
  fst (assign_isolated_loop k maxw (map (cg_node_weight g) (seq num_nonisolated num_isolated)) 0 bw).
