(* Examples for the colouring, and what a self-loop does to it. *)
From Verif Require Import Lib.Prelude Model.GridModel Model.MathModel Model.PermModel Model.DistGraphModel Model.RearrangeModel Model.ColoringModel Spec.Graph Spec.DistGraphSpec Spec.ReplicateSpec
  Spec.RearrangeSpec Spec.ColoringSpec Proofs.ImportProofs Proofs.DistViewProofs Proofs.ExchangeProofs Proofs.DistSystemProofs Proofs.ReplicateProofs Proofs.ReplicateExamples Proofs.RearrangeSystem
  Proofs.RearrangeFinal Proofs.RearrangeExamples Proofs.ColoringFinal.

Lemma w_loops : no_self_loops w_graph.
Proof. intros u v w Hu Hin. do 5 (destruct u as [|u]; [cbn in Hin; repeat (destruct Hin as [[= <- <-]|Hin]; [discriminate|]); destruct Hin|]). cbn in Hu. lia. Qed.
(** The first pass with one superstep: the ranks do not know each other's choices, so 0 and 3, 0 and 4, and 2 and 3 clash or not by luck. *)
Lemma w_first : map (fun r => color_nodes (w_dcsr r) (max_colors 2 w_dcsr) (seq 0 (dn (w_dcsr r))) (coloring_start (w_dcsr r))) [0; 1] =
  [Some ([1; 2; 2; 0; 0], [true; false; true]); Some ([1; 1; 0; 0], [true; true])].
Proof. vm_compute. reflexivity. Qed.

(** Sorting by the colours that were computed: no two nodes of a class are adjacent. *)
Theorem colored_classes P G dist edist d steps col colors o1 o2 s d' :
  distributed P G dist edist d -> closed_graph G -> symmetric_adjacency G -> no_self_loops G -> 0 < steps -> room_for_ghosts P d ->
  coloring_outcome P d steps col -> num_colors (map col (seq 0 P)) = Some colors ->
  (forall r, r < P -> Permutation (o1 r) (seq 0 (dn (d r))) /\ Permutation (o2 r) (seq 0 (dn (d r))) /\ color_order colors (dn (d r)) (col r) (o1 r) (o2 r) = Some (s r)) ->
  rearrange_outcome P d (fun r => pl_o2n (s r)) (fun r => pl_n2o (s r)) d' ->
  exists f G', isomorphic_by f G G' /\ keeps_ranks P dist f /\ distributed P G' dist edist d' /\
    (forall r, r < P -> length (pl_sizes (s r)) = colors + 1 /\ nth 0 (pl_sizes (s r)) 0 = 0 /\ nth colors (pl_sizes (s r)) 0 = dn (d' r) /\
       forall a, a < colors -> nth a (pl_sizes (s r)) 0 <= nth (S a) (pl_sizes (s r)) 0) /\
    forall a r q u v w, a < colors -> r < P -> q < P -> nth a (pl_sizes (s r)) 0 <= u < nth (S a) (pl_sizes (s r)) 0 -> nth a (pl_sizes (s q)) 0 <= v < nth (S a) (pl_sizes (s q)) 0 ->
       ~ In (nth q dist 0 + v, w) (gadj G' (nth r dist 0 + u)).
Proof.
  intros HDs HC HS HL Hst Rm Out Nc Or Re. destruct (coloring_correct P G dist edist d steps HDs HC HS HL Hst col Out) as (c & Pr & Hb & _).
  destruct (color_sorted P G dist edist d col c colors o1 o2 s d' HDs HC HS Rm) as (f & G' & A1 & A2 & A3 & A4 & A5 & A6 & A7 & A8 & A9).
  - intros r Hr. exact (proj1 (Hb r Hr)).
  - intros r l g Hr Hl. exact (nth_error_nth _ _ 0 (proj2 (Hb r Hr) l g Hl)).
  - exact Nc.
  - exact Or.
  - exact Re.
  - exists f, G'. split; [exact A1|]. split; [exact A4|]. split; [exact A5|]. split; [exact A7|]. exact (A9 Pr).
Qed.

(** Two nodes on two ranks, 0 - 1, and a self-loop at 0. *)
Definition y_dist := [0; 1; 2].
Definition y_edist := [0; 2; 3].
Definition y_graph : graph := mkGraph 2 (fun u => nth u [[(0, 1%Z); (1, 1%Z)]; [(0, 1%Z)]] []) (fun _ => 1%Z).
Definition y_xadj r := nth r [[0; 2]; [0; 1]] [].
Definition y_adj r := nth r [[0; 1]; [0]] [].
Definition y_sched r := nth r [[0; 1; 1; 1]; [0; 0; 0]] [].
Definition y_state r := import_run (nth r y_dist 0) (nth (S r) y_dist 0) (y_adj r) (y_sched r)
  (import_start (nth r y_dist 0) (nth (S r) y_dist 0) (y_adj r) (map (fun _ => 99) (y_adj r))).
Definition y_dcsr r : dcsr :=
  match y_state r with
  | Some s => match import_graph 32 (fun _ => 7%Z) r y_dist y_edist (y_xadj r) [] [] s (entries (im_map s)) with Some d => d | None => Dcsr 0 [] [] [] [] [] [] (Ghosts [] [] []) end
  | None => Dcsr 0 [] [] [] [] [] [] (Ghosts [] [] [])
  end.
Lemma y_distribution : distribution 2 (gn y_graph) y_dist.
Proof. repeat split. intros [|[|r]] H; cbn; lia. Qed.
Lemma y_closed : closed_graph y_graph.
Proof. intros u v w Hu Hin. do 2 (destruct u as [|u]; [cbn in Hin; repeat (destruct Hin as [[= <- <-]|Hin]; [cbn; lia|]); destruct Hin|]). cbn in Hu. lia. Qed.
Lemma y_fit : weights_fit 32 y_graph.
Proof. split; [lia|]. intros u Hu. do 2 (destruct u as [|u]; [split; [cbn; lia|]; intros v w Hin; cbn in Hin; repeat (destruct Hin as [[= <- <-]|Hin]; [cbn; lia|]); destruct Hin|]). cbn in Hu. lia. Qed.
Lemma y_symmetric : symmetric_adjacency y_graph.
Proof. intros u v w Hu Hin. do 2 (destruct u as [|u]; [cbn in Hin; repeat (destruct Hin as [[= <- <-]|Hin]; [eexists; cbn; eauto 10|]); destruct Hin|]). cbn in Hu. lia. Qed.
Lemma y_undirected : undirected y_graph.
Proof. intros u v Hu Hv. cbn in Hu, Hv. do 2 (destruct u as [|u]; [do 2 (destruct v as [|v]; [reflexivity|]); lia|]). lia. Qed.
Lemma y_arrays r : r < 2 -> rank_arrays y_graph y_dist r (y_xadj r) (y_adj r) [] [].
Proof.
  intros Hr. do 2 (destruct r as [|r]; [split; [reflexivity|]; split; [reflexivity|]; split; [intros [|i] Hi; cbn in *; lia|]; split; [reflexivity|]; split; [auto|]; split; [auto|];
    intros [|u] Hu; cbn in Hu; try lia; split; reflexivity|]). lia.
Qed.
Lemma y_import r : r < 2 -> import_outcome 32 y_dist y_edist r (y_xadj r) (y_adj r) [] [] (y_dcsr r).
Proof.
  intros Hr. exists (map (fun _ => 99) (y_adj r)), (y_sched r).
  do 2 (destruct r as [|r]; [do 2 eexists; exists (fun _ => 7%Z); split; [reflexivity|]; split; [vm_compute; reflexivity|]; split; [intros t Ht; cbn in Ht; intuition congruence|]; split; [reflexivity|vm_compute; reflexivity]|]). lia.
Qed.
Lemma y_distributed : distributed 2 y_graph y_dist y_edist y_dcsr.
Proof.
  apply (from_import 2 y_graph 32 y_dist y_edist y_xadj y_adj (fun _ => []) (fun _ => [])); [exact y_distribution|exact y_closed|exact y_fit|reflexivity|reflexivity| |exact y_arrays|exact y_import|].
  - intros r Hr. do 2 (destruct r as [|r]; [vm_compute; reflexivity|]). lia.
  - intros r Hr. do 2 (destruct r as [|r]; [split; [vm_compute; lia|]; split; [vm_compute; reflexivity|]; split; [intros [|i] Hi; first [vm_compute in Hi; lia | vm_compute; lia]|]; split; [vm_compute; reflexivity|left; vm_compute; reflexivity]|]). lia.
Qed.

Lemma receive_length {V} d (msgs : list (nat * (nat * V))) : forall arr arr', receive_values d arr msgs = Some arr' -> length arr' = length arr.
Proof.
  unfold receive_values. induction msgs as [|m t IH]; intros arr arr' E; cbn [fold_left] in E; [injection E as <-; reflexivity|].
  destruct (receive_value d (Some arr) m) as [a1|] eqn:E1.
  - rewrite (IH a1 arr' E). unfold receive_value in E1. cbn [bind] in E1. destruct (doffset d (fst m)); [|discriminate]. cbn [bind] in E1. destruct (dglobal_to_local d _); [|discriminate]. cbn [bind] in E1.
    unfold store in E1. destruct (_ <? _); [|discriminate]. injection E1 as <-. apply upd_length.
  - exfalso. clear - E. induction t as [|x t IH]; [discriminate|]. cbn [fold_left receive_value bind] in E. exact (IH E).
Qed.
Lemma y_size : max_colors 2 y_dcsr = 3. Proof. vm_compute. reflexivity. Qed.
Lemma y_rank0 : y_dcsr 0 = Dcsr 0 [0; 1; 2] [0; 2; 3] [0; 2] [0; 1] [] [] (Ghosts [1] [1] [(2, 1)]). Proof. vm_compute. reflexivity. Qed.
Lemma y_node x y s : color_nodes (y_dcsr 0) 3 (seq 0 1) ([x; y], [true]) = Some s -> exists x', s = ([x'; y], [true]).
Proof.
  rewrite y_rank0. intros E. unfold color_nodes in E. cbn [seq fold_left] in E.
  set (dd := Dcsr 0 [0; 1; 2] [0; 2; 3] [0; 2] [0; 1] [] [] (Ghosts [1] [1] [(2, 1)])) in *.
  unfold color_node in E. cbn [bind snd fst nth_error negb] in E. replace (dlocal_to_global dd 0) with (Some 0) in E by reflexivity. replace (dadj dd 0) with (Some [(0, 1%Z); (1, 1%Z)]) in E by reflexivity. cbn [bind] in E.
  destruct (mark_neighbors dd 3 [x; y] x 0 [(0, 1%Z); (1, 1%Z)] [] false) as [[m i]|] eqn:Em; [|discriminate]. cbn [bind fst snd] in E.
  cbn [mark_neighbors nth_error bind] in Em. replace (dlocal_to_global dd 0) with (Some 0) in Em by reflexivity. replace (dlocal_to_global dd 1) with (Some 1) in Em by reflexivity.
  replace (dis_ghost dd 0) with false in Em by reflexivity. replace (dis_ghost dd 1) with true in Em by reflexivity. cbn [bind orb] in Em.
  destruct x as [|x].
  - cbn [Nat.eqb negb andb orb] in *. destruct (Nat.eqb_spec y 0); cbn [negb andb] in Em.
    + injection Em as <- <-. injection E as <-. eexists. reflexivity.
    + destruct (y - 1 <? 3); [|discriminate]. injection Em as <- <-. injection E as <-. eexists. reflexivity.
  - cbn [Nat.eqb negb andb orb] in *. rewrite Nat.eqb_refl in Em. replace (0 <? 0) with false in Em by reflexivity. cbn [andb negb] in Em.
    replace (S x - 1) with x in * by lia. destruct (x <? 3) eqn:Lx; [|discriminate].
    assert (Hm : In x m).
    { destruct (negb (y =? 0) && negb ((y =? S x) && (0 <? 1))); [destruct (y - 1 <? 3); [|discriminate]|]; injection Em as <- <-; cbn; auto. }
    assert (Ex : existsb (Nat.eqb x) m = true) by (apply existsb_exists; exists x; rewrite Nat.eqb_refl; auto). rewrite Ex in E. injection E as <-. eexists. reflexivity.
Qed.
Definition y_inv (s : nat -> cstate) : Prop := exists x y, s 0 = ([x; y], [true]).
Lemma y_step s s' quiet : y_inv s -> superstep 2 y_dcsr 3 1 0 s s' quiet -> y_inv s' /\ quiet 1 = false.
Proof.
  intros (x & y & E) (s1 & threads & bufs & msgs & H). destruct (H 0 ltac:(lia)) as (H1 & H2 & H3 & _ & H5 & H6 & _). destruct (H 1 ltac:(lia)) as (_ & _ & _ & K4 & _ & _ & K7).
  replace (step_from (y_dcsr 0) 1 0) with 0 in * by (vm_compute; reflexivity). replace (step_to (y_dcsr 0) 1 0) with 1 in * by (vm_compute; reflexivity).
  rewrite E in H1. replace (1 - 0) with 1 in H1 by reflexivity. destruct (y_node x y _ H1) as (x' & E1). rewrite E1 in *. cbn [fst snd] in *. split.
  - pose proof (receive_length _ _ _ _ H5) as L. cbn [length] in L. destruct (s' 0) as [c a] eqn:Es. cbn [fst snd] in *. destruct c as [|c1 [|c2 [|]]]; try discriminate L. exists c1, c2. rewrite Es, H6. reflexivity.
  - destruct (buffers_ok 2 y_graph y_dist y_distribution (fun u => u) (active_filter [true]) (value_message [x'; y] 0) 0 (y_dcsr 0) (threads 0) 0 1) with (bufs := bufs 0) as [_ K];
      [lia|exact (proj1 (rank_data 2 y_graph y_dist y_edist y_dcsr y_distributed 0 ltac:(lia)))|exact y_closed|exact H2|intros u Hu; replace (dn (y_dcsr 0)) with 1 by (vm_compute; reflexivity); lia|exact H3|].
    destruct (K 1 ltac:(lia)) as (sn & _ & S2 & S3).
    assert (I : In 0 sn). { apply S2. split; [lia|]. split; [reflexivity|]. split; [lia|]. split; [lia|]. exists 1, 1%Z. split; [unfold owns; cbn; lia|cbn; auto]. }
    apply (in_map (fun s => value_message [x'; y] 0 s s 1)) in I. apply (Permutation_in _ (Permutation_sym S3)) in I.
    assert (J : In (0, value_message [x'; y] 0 0 0 1) (inbox 2 bufs 1)) by (unfold inbox; apply in_flat_map; exists 0; split; [apply in_seq; lia|apply in_map; exact I]).
    apply (Permutation_in _ (Permutation_sym K4)) in J. rewrite K7. destruct (msgs 1); [destruct J|reflexivity].
Qed.
Lemma y_pass s s' conv : y_inv s -> pass 2 y_dcsr 1 s s' conv -> y_inv s' /\ all_converged 2 conv = false.
Proof.
  unfold pass. rewrite y_size. intros I H. cbn [seq] in H. inversion H as [|? ? ? s1 ? quiet conv' H1 H2]; subst. inversion H2; subst. destruct (y_step s s' quiet I H1) as [I' Q]. split; [exact I'|].
  unfold all_converged. cbn [seq forallb]. rewrite Q. cbn [andb]. apply andb_false_r.
Qed.
Lemma y_running k s : running 2 y_dcsr 1 k s -> y_inv s.
Proof.
  induction 1 as [s H|k s s' conv H IH Hp _]; [|exact (proj1 (y_pass s s' conv IH Hp))]. unfold y_inv. rewrite (H 0 ltac:(lia)). exists 0, 0. vm_compute. reflexivity.
Qed.
Theorem self_loop : exists P G dist edist d steps, 0 < steps /\ distributed P G dist edist d /\ closed_graph G /\ undirected G /\ symmetric_adjacency G /\ forall colors, ~ coloring_outcome P d steps colors.
Proof.
  exists 2, y_graph, y_dist, y_edist, y_dcsr, 1. split; [lia|]. split; [exact y_distributed|]. split; [exact y_closed|]. split; [exact y_undirected|]. split; [exact y_symmetric|].
  intros colors (k & s & s' & conv & H & Hp & Hc & _). destruct (y_pass s s' conv (y_running k s H) Hp). congruence.
Qed.
