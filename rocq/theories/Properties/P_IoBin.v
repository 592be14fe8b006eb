(* C43, C44: binary files. *)
From Verif Require Import Lib.Prelude Spec.Graph Spec.TextFormat Spec.BinFormat Spec.BinBuild Model.CompressModel Model.CompressedGraphModel
  Model.CompactArrayModel Model.CsrModel Model.IoTextModel Model.IoBinModel Proofs.CompressFacts Proofs.CompressExamples Proofs.IoTextRound
  Proofs.IoBinBase Proofs.IoBinDeg Proofs.IoBinWrite Proofs.IoBinRound Proofs.IoBinTop.
Local Open Scope Z_scope.

(** C43: reading a ParHIP file returns the graph that the file describes, for every combination of 32- and 64-bit fields
    that the build can hold and with or without node and edge weights. *)
Theorem C43_read_what_is_described : forall c bn bi bnw bew nw ew g file sorted,
  can_read c bn bi bnw bew nw ew -> parhip_file bn bi bnw bew nw ew g file -> Z.of_nat (length file) < 2 ^ 64 ->
  closed_graph g -> weights_ok g nw ew -> num_arcs g < 2 ^ io_wi c -> weights_fit c g ->
  exists h, parhip_csr_read c file sorted = Ok h /\ same_graph (cg_graph h) g /\ Z.of_nat (cg_m h) = num_arcs g /\
    cg_sorted h = sorted.
Proof.
  intros c bn bi bnw bew nw ew g t sorted H1 H2 H3 H4 H5 H6 H7.
  exact (parhip_read_ok c bn bi bnw bew nw ew g t H1 H2 H3 H4 H5 H6 H7 sorted).
Qed.
Print Assumptions C43_read_what_is_described.
(** The path 0 - 1 - 2 with node weights 3, 1, 2 and edge weights 7, 9. *)
Definition ex_path : csr_graph := cg_make (sa_make [0; 1; 3; 4]%nat) [1; 0; 2; 1]%nat (sa_make [3; 1; 2]) [7; 7; 9; 9] false.
Definition ex_path_spec : graph := user_graph [0; 1; 3; 4]%nat [1; 0; 2; 1]%nat [3; 1; 2] [7; 7; 9; 9].
Example ex_path_wf : wf_csr [0; 1; 3; 4]%nat [1; 0; 2; 1]%nat [3; 1; 2] [7; 7; 9; 9].
Proof.
  unfold wf_csr. cbn. split; [lia|]. split; [auto|]. split; [intros [|[|[|[|i]]]]; cbn; lia|]. split; [auto|].
  split; [intros v [<-|[<-|[<-|[<-|[]]]]]; lia|]. split; right; reflexivity.
Qed.
Example C43_read_what_is_described_ex :
  can_read conf64 4 4 4 4 true true /\ parhip_file 4 4 4 4 true true ex_path_spec (parhip_write conf32 ex_path) /\
  length (parhip_write conf32 ex_path) = 84%nat /\
  closed_graph ex_path_spec /\ weights_ok ex_path_spec true true /\ weights_fit conf64 ex_path_spec /\
  parhip_csr_read conf64 (parhip_write conf32 ex_path) false = Ok ex_path.
Proof.
  split; [unfold can_read, w8; cbn; repeat split; auto; discriminate|]. split.
  { apply (write_file conf32 [0; 1; 3; 4]%nat [1; 0; 2; 1]%nat [3; 1; 2] [7; 7; 9; 9] false);
      [left; reflexivity|left; reflexivity|left; reflexivity|exact ex_path_wf| | |reflexivity|reflexivity|reflexivity]; intros x Hx; repeat (destruct Hx as [<-|Hx]; [cbn; lia|]); destruct Hx. }
  split; [vm_compute; reflexivity|].
  split; [intros [|[|[|u]]] v w Hu Hi; cbn in Hu, Hi; try lia; repeat (destruct Hi as [Hi|Hi]; [injection Hi as <- <-; cbn; lia|]); destruct Hi|].
  split.
  { split; [intros [|[|[|u]]] Hu; cbn in Hu; try lia; cbn; split; try lia; discriminate|].
    intros [|[|[|u]]] v w Hu Hi; cbn in Hu, Hi; try lia; repeat (destruct Hi as [Hi|Hi]; [injection Hi as <- <-; split; [lia|discriminate]|]); destruct Hi. }
  split; [|vm_compute; reflexivity].
  intros [|[|[|u]]] Hu; cbn in Hu; try lia; (split; [reflexivity|repeat constructor]).
Qed.

(** C43: reading with the nodes rearranged by degree buckets returns the described graph up to renaming; the renaming is
    a bijection and is stored in the graph; the degree buckets are ascending. *)
Theorem C43_read_degree_buckets : forall c bn bi bnw bew nw ew g file threads,
  can_read c bn bi bnw bew nw ew -> parhip_file bn bi bnw bew nw ew g file -> Z.of_nat (length file) < 2 ^ 64 ->
  closed_graph g -> weights_ok g nw ew -> num_arcs g < 2 ^ io_wi c -> weights_fit c g -> num_arcs g < 2 ^ 31 ->
  (0 < threads)%nat ->
  exists h f n', parhip_csr_read_deg_buckets c threads file = Ok h /\ isomorphic_by f g (cg_graph h) /\
    cg_permutation h = map f (seq 0 (gn g)) /\ sorted_by_degree_class (sa_list (cg_nodes h)) n' /\ cg_sorted h = true.
Proof.
  intros c bn bi bnw bew nw ew g t threads H1 H2 H3 H4 H5 H6 H7 H8 H9.
  exact (parhip_deg_ok c bn bi bnw bew nw ew g t H1 H2 H3 H4 H5 H6 H7 H8 threads H9).
Qed.
Print Assumptions C43_read_degree_buckets.
Example C43_read_degree_buckets_ex : exists h, parhip_csr_read_deg_buckets conf32 2 (parhip_write conf32 ex_path) = Ok h /\
  cg_permutation h = [0; 2; 1]%nat /\ cg_graph h = cg_graph (cg_set_permutation [0; 2; 1]%nat
    (cg_make (sa_make [0; 1; 2; 4]%nat) [2; 2; 0; 1]%nat (sa_make [3; 2; 1]) [7; 9; 7; 9] true)).
Proof. eexists. split; [vm_compute; reflexivity|]. split; reflexivity. Qed.

(** C43: reading directly into a compressed graph gives what the compressor builds from the described neighbourhoods
    (the subject of C23 and C27). *)
Theorem C43_compressed_read : forall c bn bi bnw bew nw ew g file cc sort,
  can_read c bn bi bnw bew nw ew -> parhip_file bn bi bnw bew nw ew g file -> Z.of_nat (length file) < 2 ^ 64 ->
  closed_graph g -> weights_ok g nw ew -> num_arcs g < 2 ^ io_wi c -> weights_fit c g ->
  (forall u, (u < gn g)%nat -> Z.of_nat (length (gadj g u)) < 2 ^ io_wn c) ->
  parhip_compressed_read c cc sort file =
    Ok (cgr_build (cc ew) sort (num_arcs g)
         (map (fun u => map (fun e => (Z.of_nat (fst e), snd e)) (gadj g u)) (seq 0 (gn g)))
         (if nw then Some (map (gvw g) (seq 0 (gn g))) else None)).
Proof.
  intros c bn bi bnw bew nw ew g t cc sort H1 H2 H3 H4 H5 H6 H7 H8.
  exact (parhip_compressed_ok c bn bi bnw bew nw ew g t H1 H2 H3 H4 H5 H6 H7 cc sort H8).
Qed.
Print Assumptions C43_compressed_read.
Example C43_compressed_read_ex : parhip_compressed_read conf32 (fun _ => cfg32) isort (parhip_write conf32 ex_path) =
  Ok (cgr_build cfg32 isort 4 [[(1, 7)]; [(0, 7); (2, 9)]; [(1, 9)]] (Some [3; 1; 2])).
Proof. vm_compute. reflexivity. Qed.

(** C43: writing produces a file in the format that describes the graph, as long as the byte positions fit into the type of
    edge IDs. *)
Theorem C43_write_describes : forall c xadj adjncy vwgt adjwgt deg_sorted,
  widths c -> wf_csr xadj adjncy vwgt adjwgt ->
  (forall x, In x vwgt -> 1 <= x < 2 ^ (io_ww c - 1)) -> (forall x, In x adjwgt -> 1 <= x < 2 ^ (io_ww c - 1)) ->
  let g := user_graph xadj adjncy vwgt adjwgt in
  let h := cg_make (sa_make xadj) adjncy (sa_make vwgt) adjwgt deg_sorted in
  let bytes w := nbytes w in
  Z.of_nat (gn g) + 1 < 2 ^ io_wn c -> num_arcs g < 2 ^ io_wi c ->
  24 + Z.of_nat (bytes (io_wi c)) * (Z.of_nat (gn g) + 1) + Z.of_nat (bytes (io_wn c)) * num_arcs g < 2 ^ io_wi c ->
  parhip_file (bytes (io_wn c)) (bytes (io_wi c)) (bytes (io_ww c)) (bytes (io_ww c))
    (cg_is_node_weighted h) (cg_is_edge_weighted h) g (parhip_write c h).
Proof.
  intros c xadj adjncy vw ew ds (W1 & W2 & W3) H1 H2 H3 g h bytes H4 H5 H6.
  exact (write_file c xadj adjncy vw ew ds W1 W2 W3 H1 H2 H3 H4 H5 H6).
Qed.
Print Assumptions C43_write_describes.
Example C43_write_describes_ex : widths conf32 /\ firstn 40 (parhip_write conf32 ex_path) =
  [60; 0; 0; 0; 0; 0; 0; 0; 3; 0; 0; 0; 0; 0; 0; 0; 4; 0; 0; 0; 0; 0; 0; 0; 40; 0; 0; 0; 44; 0; 0; 0; 52; 0; 0; 0; 56; 0; 0; 0].
Proof. split; [unfold widths; cbn; auto|vm_compute; reflexivity]. Qed.

(** C43: writing with one build and reading with the same or a wider one returns the graph. *)
Theorem C43_round_trip : forall c1 c2 xadj adjncy vwgt adjwgt deg_sorted sorted,
  widths c1 -> widths c2 -> io_wn c1 <= io_wn c2 -> io_wi c1 <= io_wi c2 -> io_ww c1 <= io_ww c2 ->
  wf_csr xadj adjncy vwgt adjwgt ->
  (forall x, In x vwgt -> 1 <= x < 2 ^ (io_ww c1 - 1)) -> (forall x, In x adjwgt -> 1 <= x < 2 ^ (io_ww c1 - 1)) ->
  let g := user_graph xadj adjncy vwgt adjwgt in
  Z.of_nat (gn g) + 1 < 2 ^ io_wn c1 ->
  24 + Z.of_nat (nbytes (io_wi c1)) * (Z.of_nat (gn g) + 1) + Z.of_nat (nbytes (io_wn c1)) * num_arcs g < 2 ^ io_wi c1 ->
  let file := parhip_write c1 (cg_make (sa_make xadj) adjncy (sa_make vwgt) adjwgt deg_sorted) in
  Z.of_nat (length file) < 2 ^ 64 ->
  exists h, parhip_csr_read c2 file sorted = Ok h /\ same_graph (cg_graph h) g /\ cg_sorted h = sorted.
Proof. exact parhip_round_trip. Qed.
Print Assumptions C43_round_trip.
Example C43_round_trip_ex : widths conf64 /\ parhip_csr_read conf64 (parhip_write conf64 ex_path) false = Ok ex_path /\
  length (parhip_write conf64 ex_path) = 144%nat.
Proof. split; [unfold widths; cbn; auto|]. vm_compute. split; reflexivity. Qed.

(** C43: a file with 64-bit data is refused with a message, not misread, by a build with the corresponding 32-bit type. *)
Theorem C43_narrow_build_refuses : forall c bn bi bnw bew nw ew g file sorted, parhip_file bn bi bnw bew nw ew g file ->
  (bn = 8%nat /\ io_wn c = 32 \/ bi = 8%nat /\ io_wi c = 32 \/ nw = true /\ bnw = 8%nat /\ io_ww c = 32 \/
   ew = true /\ bew = 8%nat /\ io_ww c = 32) ->
  parhip_csr_read c file sorted = Throws.
Proof. exact parhip_refuses. Qed.
Print Assumptions C43_narrow_build_refuses.
Example C43_narrow_build_refuses_ex : parhip_csr_read conf32 (parhip_write conf64 ex_path) false = Throws.
Proof. vm_compute. reflexivity. Qed.

(** C43 is false of 32-bit builds when the positions in the file reach 2^32 bytes: for the graph with 2^30 nodes and a
    single edge, the file that the 32-bit build writes is read without complaint, but the edges of node 0 then start at
    position 3 * 2^30 of an edge array of length 2. *)
Theorem C43_large_file_refuted : exists n h, wf_csr (big_xadj n) [1; 0]%nat [] [] /\ Z.of_nat n = 2 ^ 30 /\ cg_m h = 2%nat /\
  parhip_csr_read conf32 (parhip_write conf32 (cg_make (sa_make (big_xadj n)) [1; 0]%nat (sa_make []) [] false)) false = Ok h /\
  Z.of_nat (sa_get 0%nat (cg_nodes h) 0) = 3 * 2 ^ 30.
Proof. exact parhip_overflow. Qed.
Print Assumptions C43_large_file_refuted.

(** C44: writing a compressed graph to disk and reading it with a build of the same settings returns the same bytes,
    counters and node weights. *)
Theorem C44_round_trip : forall c c' g, settings_ok c -> settings_ok c' -> held_by c g -> positive_node_weights g ->
  same_settings c c' -> exists h, compressed_read c' (compressed_write c g) = Ok h /\ same_stored h g.
Proof. exact compressed_same. Qed.
Print Assumptions C44_round_trip.
Definition ex_settings : bconf := {| bc_io := conf32; bc_hd := true; bc_iv := true; bc_sv := false; bc_thr := 10000; bc_part := 1000; bc_len := 3 |}.
Definition ex_stored : stored_graph :=
  {| sg_nodes := ca_of_bytes 4 1 [0; 2; 4; 4; 0; 0; 0]; sg_edges := [2; 1; 3; 9]; sg_node_weights := [5; 1; 2]; sg_sorted := false;
     sg_max_degree := 1; sg_num_edges := 2; sg_has_edge_weights := false; sg_total_edge_weight := 2;
     sg_num_high_degree_nodes := 0; sg_num_high_degree_parts := 0; sg_num_interval_nodes := 0; sg_num_intervals := 0 |}.
Example C44_round_trip_ex : settings_ok ex_settings /\ held_by ex_settings ex_stored /\ positive_node_weights ex_stored /\
  sg_n ex_stored = 3 /\ length (compressed_write ex_settings ex_stored) = 146%nat /\
  compressed_read ex_settings (compressed_write ex_settings ex_stored) = Ok ex_stored.
Proof.
  split; [unfold settings_ok, widths; cbn; lia|]. split.
  { unfold held_by. cbn. repeat split; try reflexivity; try discriminate; try lia; repeat constructor; try discriminate; try lia. }
  split; [right; split; [reflexivity|repeat constructor; discriminate]|]. vm_compute. repeat split; reflexivity.
Qed.

(** C44: a build with any other setting (widths of the types, encodings, constants) refuses the file with a message. *)
Theorem C44_other_settings_refused : forall c c' g, settings_ok c -> settings_ok c' -> held_by c g -> ~ same_settings c c' ->
  compressed_read c' (compressed_write c g) = Throws.
Proof. exact compressed_other. Qed.
Print Assumptions C44_other_settings_refused.
Example C44_other_settings_refused_ex : let c' := {| bc_io := conf32; bc_hd := true; bc_iv := true; bc_sv := false; bc_thr := 10000; bc_part := 1000; bc_len := 4 |} in
  settings_ok c' /\ ~ same_settings ex_settings c' /\ compressed_read c' (compressed_write ex_settings ex_stored) = Throws.
Proof.
  split; [unfold settings_ok, widths; cbn; lia|]. split; [|vm_compute; reflexivity].
  intros (_ & _ & _ & _ & _ & _ & _ & _ & H). discriminate H.
Qed.

(** C44: compressed files are recognised as such; METIS and ParHIP files written by the library never are. *)
Theorem C44_detection : forall c io g csr,
  is_compressed (compressed_write c g) = true /\
  is_compressed (parhip_write io csr) = false /\ is_compressed (metis_write io csr) = false.
Proof.
  intros c io g csr. exact (conj (compressed_detected c g) (conj (parhip_not_compressed io csr) (metis_not_compressed io csr))).
Qed.
Print Assumptions C44_detection.
