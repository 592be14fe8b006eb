(* Model of kaminpar-shm/coarsening/contraction/unbuffered_cluster_contraction.cc (the default contraction) and
   kaminpar-common/datastructures/concurrent_fast_reset_array.h. The parallel loops are modelled by events of
   threads that interleave arbitrarily; every store to a shared array is an event of its own. Integers are
   unbounded; remapping is a plain array (CompactStaticArray). *)
From Verif Require Import Lib.Prelude Spec.Graph Spec.Quotient Spec.RatingMap Model.CsrModel Model.RatingMapModel Model.ContractModel.

(** [Ub]: an access outside of an array, a read of uninitialised memory, or a loop that does not end.
    [Bad]: the schedule is not one the program can follow. *)
Inductive out (A : Type) := Ok (a : A) | Ub | Bad.
Arguments Ok {A}. Arguments Ub {A}. Arguments Bad {A}.
Definition obind {A B} (x : out A) (f : A -> out B) : out B := match x with Ok a => f a | Ub => Ub | Bad => Bad end.

(** Shared arrays: remapping, c_nodes, c_node_weights, c_edges, c_edge_weights (:153-172). *)
Inductive warr := ARemap | ANode | ANw | AEdge | AEw.
Definition warr_eqb (a b : warr) : bool :=
  match a, b with ARemap, ARemap | ANode, ANode | ANw, ANw | AEdge, AEdge | AEw, AEw => true | _, _ => false end.
Definition mem := warr -> nat -> option Z.
Definition mem_empty : mem := fun _ _ => None.
Record wr := mkWr { w_arr : warr; w_idx : nat; w_val : Z }.
Definition store (m : mem) (w : wr) : mem :=
  fun a i => if warr_eqb (w_arr w) a && (w_idx w =? i) then Some (w_val w) else m a i.

Section Machine.
Variables (MAXN MAXE : nat).  (* kMaxNumNodes = 4096, kMaxNumEdges = 32768 (:34-35) *)
Variables (T : nat).          (* number of threads *)
Variables (c_n m : nat).      (* number of coarse nodes, number of fine edges *)
Variable wt : nat -> Z.       (* the weight of a coarse node, summed up by aggregate_edges *)
(** The result of aggregate_edges: [None] if the rating map does not terminate, [Some None] if the node is left to
    the second phase. *)
Variable agg : nat -> option (option (list (nat * Z))).

(** :153-160 the sizes of the arrays. *)
Definition arr_size (a : warr) : nat := match a with ARemap | ANw => c_n | ANode => S c_n | AEdge | AEw => m end.

(** :104-119 NeighborhoodsBuffer; _num_buffered_nodes and _num_buffered_edges are the lengths of the lists. *)
Record nbuf := mkNb { nb_remap : list nat; nb_node : list nat; nb_nw : list Z; nb_edge : list nat; nb_ew : list Z }.
Definition nb_empty : nbuf := mkNb [] [0] [] [] [].
(** :38-40, :66-68 *)
Definition exceeds_capacity (degree : nat) : bool := MAXE <=? degree.
Definition overfills (b : nbuf) (degree : nat) : bool :=
  (MAXN <=? length (nb_remap b) + 1) || (MAXE <=? length (nb_edge b) + degree).
(** :70-83 add, with the bounds of the arrays. *)
Definition nb_add (b : nbuf) (c_u : nat) (weight : Z) (entries : list (nat * Z)) : out nbuf :=
  if (length (nb_remap b) + 1 <? MAXN) && (length (nb_edge b) + length entries <=? MAXE)
  then Ok (mkNb (nb_remap b ++ [c_u]) (nb_node b ++ [length entries + last (nb_node b) 0]) (nb_nw b ++ [weight])
             (nb_edge b ++ map fst entries) (nb_ew b ++ map snd entries))
  else Ub.
(** :85-102 flush: the stores of the memcpys and of the loop. *)
Definition nb_flush_writes (b : nbuf) (c_u e : nat) : list wr :=
  map (fun j => mkWr AEw (e + j) (nth j (nb_ew b) 0%Z)) (seq 0 (length (nb_ew b))) ++
  map (fun j => mkWr AEdge (e + j) (Z.of_nat (nth j (nb_edge b) 0))) (seq 0 (length (nb_edge b))) ++
  map (fun i => mkWr ANw (c_u + i) (nth i (nb_nw b) 0%Z)) (seq 0 (length (nb_nw b))) ++
  flat_map (fun i => [mkWr ARemap (nth i (nb_remap b) 0) (Z.of_nat (c_u + i));
                      mkWr ANode (c_u + i) (Z.of_nat (nth i (nb_node b) 0 + e))]) (seq 0 (length (nb_remap b))).

(** :173-187 write_neighbourhood: the stores. *)
Definition edge_writes (e : nat) (entries : list (nat * Z)) : list wr :=
  flat_map (fun j => [mkWr AEdge (e + j) (Z.of_nat (fst (nth j entries (0, 0%Z))));
                      mkWr AEw (e + j) (snd (nth j entries (0, 0%Z)))]) (seq 0 (length entries)).
Definition neighbourhood_writes (c_u : nat) (weight : Z) (new_c_u edge : nat) (entries : list (nat * Z)) : list wr :=
  mkWr ARemap c_u (Z.of_nat new_c_u) :: mkWr ANode new_c_u (Z.of_nat edge) :: mkWr ANw new_c_u weight :: edge_writes edge entries.

(** The shared counter (:192-200), the memory, the buffer and the outstanding stores of every thread, the coarse
    nodes that have been taken and second_phase_nodes. *)
Record ust := mkUst { u_c : nat; u_e : nat; u_mem : mem; u_buf : list nbuf; u_pend : list (list wr); u_done : list nat; u_second : list nat }.
Definition u_init : ust := mkUst 0 0 mem_empty (repeat nb_empty T) (repeat [] T) [] [].

(** :202-217 atomic_fetch_next_coarse_node_info, followed by scheduling stores of thread [t]. *)
Definition fetch (st : ust) (t nodes degree : nat) (writes : nat -> nat -> list wr) (buf : list nbuf) : ust :=
  mkUst (u_c st + nodes) (u_e st + degree) (u_mem st) buf (upd t (writes (u_c st) (u_e st)) (u_pend st)) (u_done st) (u_second st).

(** :225-256 transfer_edges *)
Definition transfer (st : ust) (t c_u : nat) (entries : list (nat * Z)) : out ust :=
  let b := nth t (u_buf st) nb_empty in
  let degree := length entries in
  if exceeds_capacity degree
  then Ok (fetch st t 1 degree (fun new_c_u edge => neighbourhood_writes c_u (wt c_u) new_c_u edge entries) (u_buf st))
  else if overfills b degree
  then let bn := length (nb_remap b) in
       let be := length (nb_edge b) in
       Ok (fetch st t (bn + 1) (be + degree)
             (fun new_c_u edge => nb_flush_writes b new_c_u edge ++ neighbourhood_writes c_u (wt c_u) (new_c_u + bn) (edge + be) entries)
             (upd t nb_empty (u_buf st)))
  else obind (nb_add b c_u (wt c_u) entries) (fun b' => Ok (mkUst (u_c st) (u_e st) (u_mem st) (upd t b' (u_buf st)) (u_pend st) (u_done st) (u_second st))).

(** [UProc t c_u]: thread [t] aggregates and transfers [c_u] (:311-321, :344-355, :397-412; the aggregation only
    touches its own map). [UFlush t]: flush_edges on the buffer of thread [t] (:260-270). [UWrite t]: the next
    store of thread [t]. *)
Inductive uevent := UProc (t c_u : nat) | UFlush (t : nat) | UWrite (t : nat).
Definition do_write (st : ust) (t : nat) : out ust :=
  match nth t (u_pend st) [] with
  | [] => Bad
  | w :: rest =>
      if w_idx w <? arr_size (w_arr w)
      then Ok (mkUst (u_c st) (u_e st) (store (u_mem st) w) (u_buf st) (upd t rest (u_pend st)) (u_done st) (u_second st))
      else Ub
  end.
Definition ustep (st : ust) (ev : uevent) : out ust :=
  match ev with
  | UWrite t => do_write st t
  | UProc t c_u =>
      if negb (t <? T) || negb (c_u <? c_n) || existsb (Nat.eqb c_u) (u_done st) then Bad
      else match nth t (u_pend st) [] with
           | _ :: _ => Bad
           | [] =>
               let st' := mkUst (u_c st) (u_e st) (u_mem st) (u_buf st) (u_pend st) (u_done st ++ [c_u]) (u_second st) in
               match agg c_u with
               | None => Ub
               | Some None => Ok (mkUst (u_c st) (u_e st) (u_mem st) (u_buf st) (u_pend st) (u_done st ++ [c_u]) (u_second st ++ [c_u]))
               | Some (Some entries) => transfer st' t c_u entries
               end
           end
  | UFlush t =>
      if negb (t <? T) then Bad
      else match nth t (u_pend st) [] with
           | _ :: _ => Bad
           | [] =>
               let b := nth t (u_buf st) nb_empty in
               if length (nb_remap b) =? 0 then Ok st
               else Ok (fetch st t (length (nb_remap b)) (length (nb_edge b)) (fun new_c_u edge => nb_flush_writes b new_c_u edge)
                          (upd t nb_empty (u_buf st)))
           end
  end.
Definition urun (evs : list uevent) (st : out ust) : out ust := fold_left (fun st ev => obind st (fun st => ustep st ev)) evs st.

(** The end of the first phase: all nodes taken, all buffers empty, all stores performed. *)
Definition no_pending (st : ust) : bool := forallb (fun p : list wr => match p with [] => true | _ => false end) (u_pend st).
Definition phase1_complete (st : ust) : bool :=
  forallb (fun c => existsb (Nat.eqb c) (u_done st)) (seq 0 c_n) &&
  forallb (fun b => length (nb_remap b) =? 0) (u_buf st) && no_pending st.

(** ** Second phase (:423-540) *)
(** Collecting the neighbours of one coarse node: the thread-local maps of the first phase (accumulators, see C31),
    the entries a thread is about to flush, the concurrent array and the lists of used entries per thread. *)
Record sst := mkSst { s_local : list (list (nat * Z)); s_flush : list (list (nat * Z)); s_arr : list Z; s_used : list (list nat); s_todo : list nat }.
(** [SAdd t i]: thread [t] visits the i-th edge (any distribution of the edges to threads, :455-504); [SFlush l t]:
    thread [t] flushes the map of thread [l] (:506-511); [SFetch t]: one fetch-and-add of a flush (:437-447). *)
Inductive sevent := SAdd (t i : nat) | SFlush (l t : nat) | SFetch (t : nat).
Definition sstep (thr : nat) (ops : list (nat * Z)) (st : sst) (ev : sevent) : out sst :=
  match ev with
  | SAdd t i =>
      if negb (t <? T) || negb (existsb (Nat.eqb i) (s_todo st)) then Bad
      else match nth t (s_flush st) [] with
           | _ :: _ => Bad
           | [] =>
               let todo := filter (fun j => negb (j =? i)) (s_todo st) in
               let l := acc_add (fst (nth i ops (0, 0%Z))) (snd (nth i ops (0, 0%Z))) (nth t (s_local st) []) in
               if thr <=? length l
               then Ok (mkSst (upd t [] (s_local st)) (upd t l (s_flush st)) (s_arr st) (s_used st) todo)
               else Ok (mkSst (upd t l (s_local st)) (s_flush st) (s_arr st) (s_used st) todo)
           end
  | SFlush l t =>
      if negb (t <? T) || negb (l <? T) then Bad
      else match nth t (s_flush st) [] with
           | _ :: _ => Bad
           | [] => Ok (mkSst (upd l [] (s_local st)) (upd t (nth l (s_local st) []) (s_flush st)) (s_arr st) (s_used st) (s_todo st))
           end
  | SFetch t =>
      match nth t (s_flush st) [] with
      | [] => Bad
      | (v, w) :: rest =>
          if v <? length (s_arr st)
          then Ok (mkSst (s_local st) (upd t rest (s_flush st)) (upd v (nth v (s_arr st) 0 + w)%Z (s_arr st))
                     (if (nth v (s_arr st) 0 =? 0)%Z then upd t (nth t (s_used st) [] ++ [v]) (s_used st) else s_used st) (s_todo st))
          else Ub
      end
  end.
Definition srun (thr : nat) (ops : list (nat * Z)) (evs : list sevent) (st : out sst) : out sst :=
  fold_left (fun st ev => obind st (fun st => sstep thr ops st ev)) evs st.
Definition is_nil {A} (l : list A) : bool := match l with [] => true | _ => false end.
Definition s_complete (st : sst) : bool := is_nil (s_todo st) && forallb is_nil (s_local st) && forallb is_nil (s_flush st).

(** concurrent_fast_reset_array.h:102-125 and :528-537: thread [t] claims a range for the t-th list of used entries and
    stores it ([CClaim t]); [CWrite t]: its next store. [claimed] are the lists already visited. *)
Inductive cevent := CClaim (t : nat) | CWrite (t : nat).
Definition cstep (arr : list Z) (used : list (list nat)) (x : list nat * ust) (ev : cevent) : out (list nat * ust) :=
  let '(claimed, st) := x in
  match ev with
  | CWrite t => obind (do_write st t) (fun st' => Ok (claimed, st'))
  | CClaim t =>
      if negb (t <? T) || existsb (Nat.eqb t) claimed then Bad
      else match nth t (u_pend st) [] with
           | _ :: _ => Bad
           | [] =>
               let entries := map (fun v => (v, nth v arr 0%Z)) (nth t used []) in
               Ok (claimed ++ [t], fetch st t 0 (length entries) (fun _ edge => edge_writes edge entries) (u_buf st))
           end
  end.
Definition crun (arr : list Z) (used : list (list nat)) (evs : list cevent) (x : out (list nat * ust)) : out (list nat * ust) :=
  fold_left (fun x ev => obind x (fun x => cstep arr used x ev)) evs x.

(** One coarse node of the second phase. The array and the maps are all zero / empty before (:423-424); they are reset
    at the end (concurrent_fast_reset_array.h:119-122), see the theorem about the collected entries. The partial sums
    of the node weight per thread are not distinguished (:513-519). *)
Definition second_node (thr : nat) (ops : list (nat * Z)) (c_u : nat) (sev : list sevent) (cev : list cevent) (st : ust) : out ust :=
  obind (srun thr ops sev (Ok (mkSst (repeat [] T) (repeat [] T) (repeat 0%Z c_n) (repeat [] T) (seq 0 (length ops))))) (fun s =>
    if negb (s_complete s) then Bad
    else if negb (c_u <? c_n) || negb (u_c st <? c_n) then Ub
    else
      let mem1 := store (store (store (u_mem st) (mkWr ARemap c_u (Z.of_nat (u_c st)))) (mkWr ANode (u_c st) (Z.of_nat (u_e st))))
                    (mkWr ANw (u_c st) (wt c_u)) in
      let st1 := mkUst (S (u_c st)) (u_e st) mem1 (u_buf st) (u_pend st) (u_done st) (u_second st) in
      obind (crun (s_arr s) (s_used s) cev (Ok ([], st1))) (fun x =>
        let '(claimed, st2) := x in
        if forallb (fun t => existsb (Nat.eqb t) claimed) (seq 0 T) && no_pending st2 then Ok st2 else Bad)).

Definition second_phase (thr : nat) (ops : nat -> list (nat * Z)) (sched : nat -> list sevent * list cevent) (st : ust) : out ust :=
  fold_left (fun st c_u => obind st (second_node thr (ops c_u) c_u (fst (sched c_u)) (snd (sched c_u)))) (u_second st) (Ok st).

(** ** :542-592 the sentinel, the remapping of the edges and of the mapping, the result. *)
Fixpoint all_some {A} (l : list (option A)) : option (list A) :=
  match l with
  | [] => Some []
  | x :: t => match x, all_some t with Some a, Some r => Some (a :: r) | _, _ => None end
  end.
Definition remapped (st : ust) (c : nat) : option nat := option_map Z.to_nat (u_mem st ARemap c).
Definition finish (mapping : list nat) (st : ust) : out (list nat * (list nat * list nat * list Z * list Z)) :=
  let c_m := u_e st in
  match all_some (map (fun i => option_map Z.to_nat (u_mem st ANode i)) (seq 0 c_n)),
        all_some (map (fun e => match u_mem st AEdge e with Some v => remapped st (Z.to_nat v) | None => None end) (seq 0 c_m)),
        all_some (map (u_mem st ANw) (seq 0 c_n)),
        all_some (map (u_mem st AEw) (seq 0 c_m)),
        all_some (map (remapped st) mapping) with
  | Some nodes, Some edges, Some nw, Some ew, Some mapping' => Ok (mapping', (nodes ++ [c_m], edges, nw, ew))
  | _, _, _, _, _ => Ub
  end.

(** :121-592 with the preprocessed mapping. *)
Definition contract_unbuffered (thr : nat) (ops : nat -> list (nat * Z)) (mapping : list nat) (evs : list uevent)
  (sched : nat -> list sevent * list cevent) : out (list nat * (list nat * list nat * list Z * list Z)) :=
  obind (urun evs (Ok u_init)) (fun st1 =>
    if negb (phase1_complete st1) then Bad
    else obind (second_phase thr ops sched st1) (finish mapping)).
End Machine.

(** :273-292 aggregate_edges of SINGLE_PHASE, :328-351: the rating map is chosen by the sum of the fine degrees. *)
Definition agg_single_phase (hash : nat -> nat) (c_n : nat) (bound : nat) (ops : list rop) : option (option (list (nat * Z))) :=
  option_map Some (rmap_execute hash c_n bound ops).
(** :359-395 aggregate_edges of TWO_PHASE: give up when the map holds [thr] = kDegreeThreshold keys. *)
Fixpoint agg_two_phase (hash : nat -> nat) (ms thr : nat) (ops : list rop) (mp : fsm) : option (option (list (nat * Z))) :=
  match ops with
  | [] => Some (Some (fsm_entries mp))
  | RAdd k v :: rest =>
      match fsm_modify hash ms mp k (fun x => (x + v)%Z) with
      | None => None
      | Some mp' => if thr <=? fm_size mp' then Some None else agg_two_phase hash ms thr rest mp'
      end
  | RClear :: rest => agg_two_phase hash ms thr rest (fsm_clear mp)
  end.
Definition add_pairs (ops : list rop) : list (nat * Z) := flat_map (fun o => match o with RAdd k v => [(k, v)] | RClear => [] end) ops.

(** :594-607 contract_clustering_unbuffered; [single] selects SINGLE_PHASE, otherwise TWO_PHASE (the default). *)
Definition contract_clustering_unbuffered (MAXN MAXE T ms thr : nat) (hash : nat -> nat) (g : graph) (clustering order0 order1 order2 garbage : list nat)
  (single : bool) (evs : list uevent) (sched : nat -> list sevent * list cevent)
  : out (list nat * (list nat * list nat * list Z * list Z)) :=
  let '(c_n, mapping) := compute_mapping (gn g) clustering order0 in
  let bi := fill_cluster_buckets c_n mapping order1 order2 garbage in
  let rops c := collect_ops g mapping c (bucket_of bi c) in
  let agg c := if single then agg_single_phase hash c_n (fine_degree g (bucket_of bi c)) (rops c)
               else agg_two_phase hash ms thr (rops c) (fsm_make ms) in
  contract_unbuffered MAXN MAXE T c_n (list_sum (map (fun u => length (gadj g u)) (seq 0 (gn g))))
    (fun c => zsum (map (gvw g) (bucket_of bi c))) agg thr (fun c => add_pairs (rops c)) mapping evs sched.
