(* C34: block-induced subgraphs. *)
From Verif Require Import Lib.Prelude Spec.Induced Spec.Level Spec.ExtendSpec Model.SubgraphModel Proofs.ExtendCases Proofs.SubgraphSeq.

(** C34. Whatever order the nodes draw their positions in, [listing] lists exactly the nodes of the block. *)
Theorem C34_listing_is_block : forall part order b, Permutation order (seq 0 (length part)) ->
  NoDup (listing part order b) /\ forall u, In u (listing part order b) <-> u < length part /\ nth u part 0 = b.
Proof. exact listing_in. Qed.
Print Assumptions C34_listing_is_block.

(** C34. Extraction of all blocks into preallocated memory (n + k node entries, m edge entries), for every
    order [order] in which the nodes draw their positions, every order [border] of constructing the blocks
    and every previous contents of the memory: no access is out of bounds; reading the subgraph of block b
    gives exactly the subgraph induced by its nodes; [mapping] gives the position of every node; the node
    regions of the blocks are consecutive and each leaves room for as many further blocks as block b will
    be split into; the edge regions are consecutive. *)
Theorem C34_extract_subgraphs : forall ub g part kp k order border mem,
  lg_ok g -> labelled g kp part -> level_ok kp k -> (N.of_nat k < 2 ^ 31)%N ->
  Permutation order (seq 0 (length g)) -> Permutation border (seq 0 kp) -> mem_fits g k mem ->
  exists mem' mapping views nst est,
  extract_subgraphs ub g part kp k order border mem = Some (mem', mapping, views, nst, est) /\
  length views = kp /\ length mapping = length g /\
  nth 0 nst 0 = 0 /\ nth kp nst 0 = length g + k /\ nth 0 est 0 = 0 /\ nth kp est 0 <= lg_m g /\
  forall b, b < kp ->
    read_view mem' (nth b views (View 0 0 0 0 false false)) = Some (induced (listing part order b) g) /\
    (forall u, In u (listing part order b) -> nth u mapping 0 = index_of u (listing part order b)) /\
    (exists fk, final_k ub b kp k = Some fk /\ 1 <= fk /\
       nth (S b) nst 0 = nth b nst 0 + length (listing part order b) + fk /\
       nth (S b) est 0 = nth b est 0 + lg_m (induced (listing part order b) g) /\
       v_ns (nth b views (View 0 0 0 0 false false)) = nth b nst 0 /\ v_es (nth b views (View 0 0 0 0 false false)) = nth b est 0).
Proof. exact extract_listing. Qed.
Print Assumptions C34_extract_subgraphs.

Example C34_extract_ex : lg_ok path4 /\ labelled path4 2 ex_part /\ level_ok 2 8 /\ mem_fits path4 8 ex_mem /\
  match extract_subgraphs 0 path4 ex_part 2 8 (rev (seq 0 4)) [1; 0] ex_mem with
  | Some (mem', mapping, views, nst, est) => Some (mapping, nst, est, map (read_view mem') views)
  | None => None
  end = Some ([1; 1; 0; 0], [0; 6; 12], [0; 0; 2], [Some (mkg [(3, []); (2, [])]); Some (mkg [(1, [(1, 3)]); (1, [(0, 3)])])]).
Proof. exact (conj path4_ok (conj ex_part_labelled (conj ex_level (conj ex_mem_fits ex_extract)))). Qed.

(** C34. Extraction of the two sides of a bipartition during recursive bipartitioning, into the region of
    the memory that belongs to the graph: the two views are the subgraphs induced by the two sides, side 1
    starts after side 0 and the room reserved for its recursion, and nothing outside the region changes,
    whatever the temporary buffers contained before. *)
Theorem C34_extract_sequential : forall g part fk0 fk1 npos epos gar garz mem,
  lg_ok g -> length part = length g -> (forall s, In s part -> s < 2) -> 1 <= fk0 -> 1 <= fk1 ->
  fits (lg_is_nw g) (lg_is_ew g) npos (length g + (fk0 + fk1)) epos (lg_m g) mem ->
  let g0 := induced (members part 0) g in
  let g1 := induced (members part 1) g in
  let v0 := View npos (length g0) epos (lg_m g0) (lg_is_nw g) (lg_is_ew g) in
  let v1 := View (npos + length g0 + fk0) (length g1) (epos + lg_m g0) (lg_m g1) (lg_is_nw g) (lg_is_ew g) in
  exists mem', extract_sequential g part fk0 fk1 npos epos gar garz mem = Some (mem', (v0, v1)) /\
    frame npos (length g + (fk0 + fk1)) epos (lg_m g) mem mem' /\
    read_view mem' v0 = Some g0 /\ read_view mem' v1 = Some g1 /\
    lg_m g0 + lg_m g1 <= lg_m g.
Proof. exact extract_seq_ok. Qed.
Print Assumptions C34_extract_sequential.

Example C34_sequential_ex :
  match extract_sequential path4 ex_part 2 3 1 0 77 77%Z ex_mem with
  | Some (mem', (v0, v1)) => (read_view mem' v0, read_view mem' v1)
  | None => (None, None)
  end = (Some (mkg [(2, []); (3, [])]), Some (mkg [(1, [(1, 3)]); (1, [(0, 3)])])).
Proof. exact ex_seq. Qed.

(** C34. Lazy extraction: the preprocessing lists the nodes and counts the internal edges of every block for
    every order of the fetch-adds; extracting one block into memory of that size gives its induced
    subgraph and touches nothing beyond it. *)
Theorem C34_lazy_extraction : forall g part kp order garbage, lg_ok g -> labelled g kp part -> Permutation order (seq 0 (length g)) ->
  exists mapping offs block_nodes ecnt,
  lazy_preprocess g part kp order garbage = Some (mapping, offs, block_nodes, ecnt) /\
  forall b, b < kp ->
    let us := listing part order b in
    nth (S b) offs 0 - nth b offs 0 = length us /\
    firstn (length us) (skipn (nth b offs 0) block_nodes) = us /\
    nth b ecnt 0 = lg_m (induced us g) /\
    (forall u, In u us -> nth u mapping 0 = index_of u us) /\
    forall mem, fits (lg_is_nw g) (lg_is_ew g) 0 (length us + 1) 0 (lg_m (induced us g)) mem ->
      exists mem' v, extract_subgraph g part b us mapping mem = Some (mem', v) /\
        frame 0 (length us + 1) 0 (lg_m (induced us g)) mem mem' /\
        read_view mem' v = Some (induced us g).
Proof. exact lazy_listing. Qed.
Print Assumptions C34_lazy_extraction.

Example C34_lazy_ex : lg_ok path4 /\ labelled path4 2 ex_part /\
  lazy_preprocess path4 ex_part 2 (rev (seq 0 4)) [] = Some ([1; 1; 0; 0], [0; 2; 4], [3; 0; 2; 1], [0; 2]).
Proof. exact (conj path4_ok (conj ex_part_labelled eq_refl)). Qed.
