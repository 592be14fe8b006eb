(* Model of the randomised order in which label propagation visits nodes: ChunkRandomLabelPropagation in
   kaminpar-shm/label_propagation.h:1515-2015 (init_chunks, shuffle_chunks, perform, perform_first_phase, perform_iteration)
   and kaminpar-shm/initial_partitioning/initial_coarsener.cc:116-160. The graph is given by the degrees of its nodes and
   the bucket index ([bk]: first nodes of the buckets, [nb]: number_of_buckets()). *)
From Verif Require Import Lib.Prelude Model.MathModel.

(** :1506-1509 AbstractChunk. *)
Definition chunk := (nat * nat)%type.

Section Order.
Variables (degs bk : list nat) (nb : nat).
Definition deg (u : nat) : nat := nth u degs 0.
Definition first_in (b : nat) : nat := nth b bk 0.
Definition bucket_size (b : nat) : nat := first_in (S b) - first_in b.

(** Parameters of a run: max_chunk_size and max_node_chunk_size (:1738-1740, at least kMinChunkSize = 1024; they depend on
    square roots of doubles), kPermutationSize, the number of values of NodeID, and _max_degree. *)
Variables (maxe maxn psize range : nat) (max_degree : nat).

(** :1775-1793 the loop over the nodes u, ..., u + cnt - 1 of a block that ends at [stop]. *)
Fixpoint cut_chunks (cnt u chunk_start cur stop : nat) : list chunk :=
  match cnt with
  | O => if 0 <? cur then [(chunk_start, stop)] else []
  | S c =>
      let cur' := cur + deg u in
      if maxe <=? cur' then (chunk_start, S u) :: cut_chunks c (S u) (S u) 0 stop
      else cut_chunks c (S u) chunk_start cur' stop
  end.

(** :1767-1793 the chunks that result from the fetch_adds on a bucket, one list per fetch_add. Simplification: the counter
    does not wrap. *)
Definition node_blocks (start size : nat) : list (list chunk) :=
  map (fun j => let b := j * maxn in let e := Nat.min (b + maxn) size in cut_chunks (e - b) (start + b) (start + b) 0 (start + e))
      (seq 0 (N.to_nat (div_ceil (N.of_nat size) (N.of_nat maxn)))).

(** :1759-1813: the j-th fetch_add is executed by worker [nth j who]; the workers' vectors are concatenated in the order
    [order] of their second fetch_adds. *)
Definition deal (who order : list nat) (blocks : list (list chunk)) : list chunk :=
  flat_map (fun t => concat (map snd (filter (fun p => fst p =? t) (combine who blocks)))) order.

(** :1743-1818 the loop over the buckets b, ..., b + cnt - 1; [position] is the number of nodes in earlier buckets. One list
    of chunks per entry of _buckets. [dist b m]: who and order for the m fetch_adds on bucket b. *)
Fixpoint bucket_loop (from to : nat) (dist : nat -> nat -> list nat * list nat) (cnt b position : nat) : list (list chunk) :=
  match cnt with
  | O => []
  | S c =>
      let size := bucket_size b in
      if (position + size <? from) || (size =? 0) then bucket_loop from to dist c (S b) (position + size)
      else if to <=? position then []
      else
        let remaining := if first_in b <? from then size - (from - first_in b) else size in
        let bsize := Nat.min remaining (Nat.min (to - position) (to - from)) in
        let bstart := Nat.max (first_in b) from in
        let blocks := node_blocks bstart bsize in
        deal (fst (dist b (length blocks))) (snd (dist b (length blocks))) blocks :: bucket_loop from to dist c (S b) (position + size)
  end.

(** :1736-1737 max_bucket; [None] for _max_degree = 0 (floor_log2 is undefined). *)
Definition max_bucket : option nat :=
  option_map (fun l => Nat.min (N.to_nat l) nb) (floor_log2 32 (N.of_nat max_degree)).

(** :1730-1737, :1743-1852 init_chunks; [to] = None is the default argument, the largest NodeID. *)
Definition clamp_to (to : option nat) : nat := match to with Some t => Nat.min t (length degs) | None => length degs end.
Definition init_chunks (from : nat) (to : option nat) (dist : nat -> nat -> list nat * list nat) : option (list (list chunk)) :=
  option_map (fun mb => bucket_loop from (clamp_to to) dist mb 0 0) max_bucket.

(** :1880-1907, :1955-1983 the nodes of a chunk in the order in which they are visited; [subs]: the shuffled sub-chunks,
    [perm]: one of the precomputed permutations. NodeIDs wrap around. (The number of sub-chunks is computed with doubles;
    the quotient by 64 is exact.) *)
Definition num_sub_chunks (c : chunk) : nat := N.to_nat (div_ceil (N.of_nat (snd c - fst c)) (N.of_nat psize)).
Definition chunk_visits (perm subs : list nat) (c : chunk) : list nat :=
  filter (fun u => u <? snd c) (flat_map (fun j => map (fun p => (fst c + psize * j + p) mod range) perm) subs).

(** :1864-1931, :1938-2011 one pass over the chunks; [perms i c]: permutation and sub-chunk order used for the i-th chunk c;
    [active u]: what the visit of node u reads from _active; [passed]: the number of tasks that did not see should_stop()
    (None: all of them). Tasks run concurrently: an execution visits the nodes in some interleaving of these sequences. *)
Definition perform (perms : nat -> chunk -> list nat * list nat) (active : nat -> bool) (passed : option nat) (cs : list chunk) : list nat :=
  let tasks := combine (seq 0 (length cs)) cs in
  filter (fun u => active u && (deg u <? max_degree))
    (flat_map (fun ic => let pp := perms (fst ic) (snd ic) in chunk_visits (fst pp) (snd pp) (snd ic))
       (match passed with Some p => firstn p tasks | None => tasks end)).

(** :1675-1727 perform_iteration: the chunks that are kept for the next iteration (one list per bucket) and the visited
    nodes. [shuffle b]: shuffle_chunks (:1855-1860) on bucket b. *)
Record iteration := Iteration { it_from : nat; it_to : option nat; it_dist : nat -> nat -> list nat * list nat;
  it_shuffle : nat -> list chunk -> list chunk; it_perms : nat -> chunk -> list nat * list nat;
  it_active : nat -> bool; it_passed : option nat }.
Definition perform_iteration (it : iteration) (chunks : list (list chunk)) : option (list (list chunk) * list nat) :=
  let cleared := negb (it_from it =? 0) || match it_to it with Some _ => true | None => false end in
  let chunks1 := if cleared then [] else chunks in
  let chunks2 := match concat chunks1 with [] => init_chunks (it_from it) (it_to it) (it_dist it) | _ => Some chunks1 end in
  option_map (fun cs => let cs' := map (fun bc => it_shuffle it (fst bc) (snd bc)) (combine (seq 0 (length cs)) cs) in
                        (cs', perform (it_perms it) (it_active it) (it_passed it) (concat cs'))) chunks2.

(** The nodes visited by the iterations of one call (:1647-1651 initialize clears the chunks). *)
Fixpoint iterations (its : list iteration) (chunks : list (list chunk)) : option (list (list nat)) :=
  match its with
  | [] => Some []
  | it :: rest =>
      match perform_iteration it chunks with
      | Some (cs, vs) => option_map (fun l => vs :: l) (iterations rest cs)
      | None => None
      end
  end.
End Order.

(** initial_coarsener.cc:119-160 the node order of the label propagation of initial bipartitioning; [csize]: kChunkSize = 256;
    [shuf b], [perms b]: shuffled chunk numbers of bucket b and the permutation of each of them. *)
Section Initial.
Variables (bk : list nat) (nb csize threshold : nat) (shuf : nat -> list nat) (perms : nat -> nat -> list nat).
Definition initial_bucket (b : nat) : list nat :=
  let first := nth b bk 0 in
  let size := nth (S b) bk 0 - first in
  let last_size := size mod csize in
  let last_start := first + size - last_size in
  concat (map (fun ic => map (fun p => first + snd ic * csize + p) (perms b (fst ic))) (combine (seq 0 (length (shuf b))) (shuf b))) ++
  map (fun p => last_start + p) (seq 0 last_size).
Definition initial_order : option (list nat) :=
  option_map (fun l => flat_map initial_bucket (seq 0 (Nat.min (N.to_nat l) nb))) (floor_log2 32 (N.of_nat threshold)).
End Initial.
