(* Top-level statements about graph compression, assembled from the proof files; examples' inputs. *)
From Coq Require Import Sorted.
From Verif Require Import Lib.Prelude Lib.Count Spec.Compress Spec.CompressInput Model.VarintModel Model.CompressModel
  Model.CompressedGraphModel Proofs.VarintProofs Proofs.CompressProofs Proofs.CompressGraphProofs Proofs.CompressSize.
Local Open Scope Z_scope.

Lemma lossless c sort nbs m : conf_ok c -> (forall l, Permutation (sort l) l) -> graph_ok c nbs ->
  let g := cn_build c sort m nbs in
  Z.of_nat (length (cn_edges g)) < 2 ^ c_wi c ->
  Forall (fun nb => 40 * Z.of_nat (length nb) < 2 ^ (c_wn c - 1)) nbs ->
  forall u, (u < length nbs)%nat ->
  cn_degree c g u = Some (Z.of_nat (length (nth u nbs []))) /\
  exists order, Permutation order (nth u nbs []) /\
    (forall (St : Type) (cb : St -> Z -> Z -> St * bool) s,
      cn_adjacent_nodes c g u cb s = Some (fst (visit cb s (map (eff c) order)))) /\
    (forall (St : Type) (cb : St -> Z -> Z -> St * bool) s k, 1 <= k ->
      cn_adjacent_nodes_max c g u k cb s = Some (fst (visit cb s (firstn (Z.to_nat k) (map (eff c) order))))).
Proof.
  intros Hc Hsort Hok g Hsz Hdeg u Hu.
  destruct (graph_lossless_lemma c Hc sort Hsort nbs m Hok (fits_of c sort m nbs Hc Hsort Hok Hsz Hdeg)) as (_ & H).
  destruct (H u Hu) as (Hd & (order & Hp & Hv) & _). split; [exact Hd|]. exists order. split; [exact Hp|]. split; [exact Hv|].
  intros St cb s k Hk. unfold cn_adjacent_nodes_max. fold g in Hv. rewrite Hv. f_equal.
  rewrite visit_max by lia. f_equal. f_equal. f_equal. lia.
Qed.

Lemma lossless_par c sort nbs m : conf_ok c -> (forall l, Permutation (sort l) l) -> graph_ok c nbs ->
  let g := cn_build c sort m nbs in
  Z.of_nat (length (cn_edges g)) < 2 ^ c_wi c ->
  Forall (fun nb => 40 * Z.of_nat (length nb) < 2 ^ (c_wn c - 1)) nbs ->
  forall u sched, (u < length nbs)%nat -> (forall np, Permutation (sched np) (seq 0 np)) ->
  exists order, Permutation order (nth u nbs []) /\
      forall (St : Type) (cb : St -> Z -> Z -> St * bool) s, (forall s v w, snd (cb s v w) = false) ->
        cn_parallel_adjacent_nodes c g u sched cb s = Some (fst (visit cb s (map (eff c) order))).
Proof.
  intros Hc Hsort Hok g Hsz Hdeg u sched Hu Hs.
  destruct (graph_lossless_lemma c Hc sort Hsort nbs m Hok (fits_of c sort m nbs Hc Hsort Hok Hsz Hdeg)) as (_ & H).
  destruct (H u Hu) as (_ & _ & Hp). exact (Hp sched Hs).
Qed.

Lemma size_bound_any c sort nbs m : conf_ok c -> (forall l, Permutation (sort l) l) -> graph_ok c nbs ->
  Z.of_nat (length (cn_edges (cn_build c sort m nbs))) <= 40 * num_edges_of nbs.
Proof.
  intros Hc Hsort Hok. pose proof (build_loop_size c sort (fun d => 40 * d) nbs 0 [] 0) as Hb.
  unfold cn_build. destruct (build_loop c sort 0 nbs [] 0) as [[o d] t]. cbn [cn_edges].
  assert (Hl : Z.of_nat (length d) <= Z.of_nat (length (@nil Z)) + zsum (map (fun nb => 40 * Z.of_nat (length (sort nb))) nbs)).
  { apply Hb. intros u t' Hu. cbn [Nat.add]. rewrite (Permutation_length (Hsort (nth u nbs []))). apply (build_loop_crude c sort nbs Hc Hsort Hok u t' Hu). }
  cbn [length] in Hl. unfold num_edges_of.
  assert (E : zsum (map (fun nb => 40 * Z.of_nat (length (sort nb))) nbs) = 40 * zsum (map (fun nb => Z.of_nat (length nb)) nbs)).
  { clear -Hsort. induction nbs as [|nb nbs IH]; [reflexivity|]. cbn [map zsum]. rewrite IH, (Permutation_length (Hsort nb)). lia. }
  lia.
Qed.

(** Metadata. *)
Lemma nodes_length c sort m nbs : length (cn_nodes (cn_build c sort m nbs)) = S (length nbs).
Proof.
  unfold cn_build. assert (H : forall node data tot, length (fst (fst (build_loop c sort node nbs data tot))) = length nbs).
  { induction nbs as [|nb nbs IH]; intros; [reflexivity|]. cbn [build_loop].
    destruct (add_sorted _ _ _ _) as [b t]. specialize (IH (S node) (data ++ b) t).
    destruct (build_loop _ _ _ _ _ _) as [[o d] t']. cbn [fst length] in *. lia. }
  specialize (H 0%nat [] 0). destruct (build_loop c sort 0 nbs [] 0) as [[o d] t]. cbn [cn_nodes fst] in *.
  rewrite app_length, H. cbn. lia.
Qed.

Lemma metadata_edges c sort nbs vwgt : conf_ok c -> (forall l, Permutation (sort l) l) -> graph_ok c nbs ->
  num_edges_of nbs < 2 ^ (c_we c - 1) -> total_weight nbs < 2 ^ (c_we c - 1) ->
  let g := cgr_build c sort (num_edges_of nbs) nbs vwgt in
  cgr_n g = Z.of_nat (length nbs) /\ cgr_m g = num_edges_of nbs /\
  cgr_total_edge_weight g = (if c_ew c then total_weight nbs else num_edges_of nbs).
Proof.
  intros Hc Hsort (Hn & Hok) Hm Ht. cbv zeta. unfold cgr_n, cgr_m, cgr_total_edge_weight, cgr_build, cgr_make. cbn [cgr_neighborhoods].
  rewrite nodes_length. split; [lia|].
  assert (Hok' : Forall (Forall (nbr_ok c)) nbs) by (eapply Forall_impl; [|exact Hok]; intros nb (H & _); exact H).
  pose proof (fun Hew => build_total c sort nbs Hc Hsort Hew Hok' 0 [] 0 ltac:(lia) ltac:(lia)) as Hb.
  unfold cn_build. destruct (build_loop c sort 0 nbs [] 0) as [[o d] t]. cbn [cn_num_edges cn_total_edge_weight snd] in *.
  split; [reflexivity|]. destruct (c_ew c) eqn:Ew; [rewrite Hb by reflexivity; lia|].
  apply wrap_s_small; [pose proof (we_pos c Hc); lia|].
  assert (0 <= num_edges_of nbs). { unfold num_edges_of. clear. induction nbs; cbn [map zsum]; lia. }
  pose proof (pow2_pos (c_we c - 1) ltac:(pose proof (we_pos c Hc); lia)). lia.
Qed.

Lemma zsum_ge_len l : Forall (fun x => 1 <= x) l -> Z.of_nat (length l) <= zsum l.
Proof. induction 1; cbn [length zsum]; lia. Qed.
Lemma zsum_unit l : Forall (fun x => 1 <= x) l -> zsum l = Z.of_nat (length l) -> forall u, (u < length l)%nat -> nth_error l u = Some 1.
Proof.
  induction 1 as [|x l Hx Hl IH]; intros Hs u Hu; cbn [length zsum] in *; [lia|].
  pose proof (zsum_ge_len l Hl). destruct u as [|u]; cbn [nth_error]; [f_equal; lia|]. apply IH; lia.
Qed.
Lemma fold_max_spec l : forall x, (forall y, In y (x :: l) -> y <= fold_left Z.max l x) /\ In (fold_left Z.max l x) (x :: l).
Proof.
  induction l as [|z l IH]; intros x; [split; [intros y [->|[]]; cbn; lia|left; reflexivity]|].
  cbn [fold_left]. destruct (IH (Z.max x z)) as (H1 & H2). split.
  - intros y [->|[->|Hy]].
    + eapply Z.le_trans; [|apply H1; left; reflexivity]. lia.
    + eapply Z.le_trans; [|apply H1; left; reflexivity]. lia.
    + apply H1. right. exact Hy.
  - destruct H2 as [H2|H2]; [|right; right; exact H2].
    rewrite <- H2. destruct (Z.max_spec x z) as [[_ E]|[_ E]]; rewrite E; [right; left|left]; reflexivity.
Qed.

Lemma node_weights c sort m nbs vwgt : (0 < length nbs)%nat -> length vwgt = length nbs -> Forall (fun x => 1 <= x) vwgt ->
  let g := cgr_build c sort m nbs (Some vwgt) in
  (forall u, (u < length nbs)%nat -> cgr_node_weight g u = nth_error vwgt u) /\
  cgr_total_node_weight g = zsum vwgt /\
  In (cgr_max_node_weight g) vwgt /\ (forall w, In w vwgt -> w <= cgr_max_node_weight g).
Proof.
  intros Hn Hl Hp. cbv zeta. pose proof (zsum_ge_len vwgt Hp) as Hge.
  assert (Hu : zsum vwgt + 1 =? Z.of_nat (length (cn_nodes (cn_build c sort m nbs))) - 1 = false) by (rewrite nodes_length; lia).
  unfold cgr_build. rewrite Hu. unfold cgr_node_weight, cgr_is_node_weighted, cgr_n, cgr_make.
  cbn [cgr_neighborhoods cgr_node_weights cgr_total_node_weight cgr_max_node_weight]. rewrite nodes_length.
  destruct vwgt as [|x l]; [cbn [length] in Hl; lia|].
  split; [|split; [reflexivity|destruct (fold_max_spec l x); auto]].
  intros u Hu'. destruct (Z.eqb_spec (Z.of_nat (S (length nbs)) - 1) (zsum (x :: l))) as [E|E]; cbn [negb]; [|reflexivity].
  symmetry. apply zsum_unit; [exact Hp|lia|lia].
Qed.

Lemma no_node_weights c sort m nbs :
  let g := cgr_build c sort m nbs None in
  (forall u, (u < length nbs)%nat -> cgr_node_weight g u = Some 1) /\
  cgr_total_node_weight g = Z.of_nat (length nbs) /\ cgr_max_node_weight g = 1.
Proof.
  cbv zeta. unfold cgr_build.
  assert (E : (if zsum [] + 1 =? Z.of_nat (length (cn_nodes (cn_build c sort m nbs))) - 1 then [] else []) = @nil Z) by (destruct (_ =? _); reflexivity).
  rewrite E. unfold cgr_node_weight, cgr_is_node_weighted, cgr_n, cgr_make. 
  cbn [cgr_neighborhoods cgr_node_weights cgr_total_node_weight cgr_max_node_weight]. rewrite nodes_length.
  split; [|split; [lia|reflexivity]]. intros u Hu. rewrite Z.eqb_refl. reflexivity.
Qed.

(** Insertion sort: a concrete instance for the examples. *)
Fixpoint ins (x : nbr) (l : list nbr) : list nbr :=
  match l with [] => [x] | y :: l' => if fst x <=? fst y then x :: l else y :: ins x l' end.
Fixpoint isort (l : list nbr) : list nbr := match l with [] => [] | x :: l' => ins x (isort l') end.
Lemma ins_perm x l : Permutation (ins x l) (x :: l).
Proof.
  induction l as [|y l IH]; [reflexivity|]. cbn [ins]. destruct (_ <=? _); [reflexivity|].
  eapply perm_trans; [apply perm_skip, IH|]. apply perm_swap.
Qed.
Lemma isort_perm l : Permutation (isort l) l.
Proof. induction l as [|x l IH]; [constructor|]. cbn [isort]. eapply perm_trans; [apply ins_perm|]. apply perm_skip, IH. Qed.

Lemma max_degree_zero c sort m nbs vwgt : cgr_max_degree (cgr_build c sort m nbs vwgt) = 0.
Proof.
  unfold cgr_max_degree, cgr_build, cgr_make, cn_build. cbn [cgr_neighborhoods].
  destruct (build_loop c sort 0 nbs [] 0) as [[o d] t]. reflexivity.
Qed.
