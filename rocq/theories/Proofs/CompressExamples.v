(* Concrete graphs for the examples and refutations of P_Compress.v. *)
From Coq Require Import Sorted.
From Verif Require Import Lib.Prelude Spec.Compress Spec.CompressInput Model.VarintModel Model.CompressModel
  Model.CompressedGraphModel Proofs.CompressSize Proofs.CompressFacts.
Local Open Scope Z_scope.

Definition cfg32 : cconf := {| c_wn := 32; c_wi := 32; c_we := 32; c_hd := true; c_iv := true; c_ew := true |}.
Definition ex_graph : list (list nbr) :=
  [[(5, 2); (1, 7); (2, 1); (3, 9); (4, 1)]; [(0, 7)]; [(0, 1)]; [(0, 9)]; [(0, 1)]; [(0, 2)]; []].
Definition collect (s : list nbr) (v w : Z) : list nbr * bool := (s ++ [(v, w)], false).

(** A neighbourhood of size 10500: an interval of 6000 IDs and 4500 isolated IDs. *)
Definition big_nb : list nbr := map (fun i => (20 + Z.of_nat i, Z.of_nat i mod 7)) (seq 0 (Z.to_nat 6000)) ++
  map (fun i => (7000 + 3 * Z.of_nat i, 5)) (seq 0 (Z.to_nat 4500)).
Definition big_graph : list (list nbr) := [[]; big_nb].

Lemma cfg32_ok : conf_ok cfg32.
Proof. vm_compute. auto. Qed.
Lemma ex_graph_ok : graph_ok cfg32 ex_graph.
Proof. split; [reflexivity|]. repeat constructor; vm_compute; congruence. Qed.
Lemma ex_graph_simple : Forall (fun nb => simple_nb cfg32 7 (isort nb)) ex_graph.
Proof.
  apply (proj1 (Forall_map isort (simple_nb cfg32 7) ex_graph)).
  change (map isort ex_graph) with [[(1, 7); (2, 1); (3, 9); (4, 1); (5, 2)]; [(0, 7)]; [(0, 1)]; [(0, 9)]; [(0, 1)]; [(0, 2)]; []].
  unfold simple_nb. repeat constructor; cbn [fst snd cfg32 c_we]; try reflexivity; try discriminate.
Qed.
Lemma big_length : Z.of_nat (length big_nb) = 10500.
Proof. unfold big_nb. rewrite app_length, !map_length, !seq_length. reflexivity. Qed.
Lemma big_nbr_ok : Forall (nbr_ok cfg32) big_nb.
Proof.
  unfold big_nb. apply Forall_app. split; apply Forall_map, Forall_forall; intros i Hi; apply in_seq in Hi;
    unfold nbr_ok; cbn [fst snd cfg32 c_wn c_we].
  - pose proof (Z.mod_pos_bound (Z.of_nat i) 7 eq_refl). change (2 ^ (32 - 1)) with 2147483648.
    change (2 ^ 32 - 1) with 4294967295. lia.
  - change (2 ^ (32 - 1)) with 2147483648. change (2 ^ 32 - 1) with 4294967295. lia.
Qed.
Lemma big_graph_ok : graph_ok cfg32 big_graph.
Proof.
  split; [reflexivity|]. constructor; [split; [constructor|reflexivity]|].
  constructor; [|constructor]. split; [exact big_nbr_ok|]. rewrite big_length. reflexivity.
Qed.
Lemma big_num_edges : num_edges_of big_graph = 10500.
Proof. unfold num_edges_of, big_graph. cbn [map zsum fold_right]. unfold zsum; cbn [fold_right]. rewrite big_length. reflexivity. Qed.
Lemma big_size : Z.of_nat (length (cn_edges (cn_build cfg32 isort 10500 big_graph))) < 2 ^ 32.
Proof.
  pose proof (size_bound_any cfg32 isort big_graph 10500 cfg32_ok isort_perm big_graph_ok) as H.
  rewrite big_num_edges in H. change (2 ^ 32) with 4294967296. lia.
Qed.
Lemma big_small : Forall (fun nb => 40 * Z.of_nat (length nb) < 2 ^ (c_wn cfg32 - 1)) big_graph.
Proof.
  constructor; [reflexivity|]. constructor; [|constructor]. rewrite big_length. reflexivity.
Qed.
Lemma big_degree : cn_degree cfg32 (cn_build cfg32 isort 10500 big_graph) 1 = Some 10500.
Proof.
  destruct (lossless cfg32 isort big_graph 10500 cfg32_ok isort_perm big_graph_ok big_size big_small 1 (le_n 2)) as (E & _).
  rewrite E. change (nth 1 big_graph []) with big_nb. rewrite big_length. reflexivity.
Qed.

Definition edge_graph : list (list nbr) := [[(1, 4)]; [(0, 4)]].
Lemma edge_graph_ok : graph_ok cfg32 edge_graph.
Proof. split; [reflexivity|]. repeat constructor; vm_compute; congruence. Qed.
Lemma limit_zero : exists c sort nbs u,
  conf_ok c /\ (forall l, Permutation (sort l) l) /\ graph_ok c nbs /\
  cn_adjacent_nodes_max c (cn_build c sort 2 nbs) u 0 collect [] <> Some [].
Proof.
  exists cfg32, isort, edge_graph, 0%nat. split; [exact cfg32_ok|]. split; [exact isort_perm|].
  split; [exact edge_graph_ok|]. vm_compute. discriminate.
Qed.
Lemma zero_weights : exists vwgt,
  length vwgt = 2%nat /\ Forall (fun x => 0 <= x) vwgt /\
  cgr_node_weight (cgr_build cfg32 isort 2 edge_graph (Some vwgt)) 0 <> nth_error vwgt 0.
Proof.
  exists [0; 1]. split; [reflexivity|]. split; [repeat constructor; vm_compute; congruence|].
  vm_compute. discriminate.
Qed.
