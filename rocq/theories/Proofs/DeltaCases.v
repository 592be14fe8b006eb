(* Concrete cases for the local view. *)
From Verif Require Import Lib.Prelude Spec.Graph Spec.Gain Spec.KeyedList Spec.LocalView Model.DynMapModel Model.DeltaModel Model.GainModel
  Proofs.GainTop Proofs.DeltaTop.

(** Node 0 in block 0 has neighbours 1 (weight 10, block 0), 2 (weight 3, block 1) and 3 (weight 4, block 0). *)
Definition ex_star : graph :=
  {| gn := 4;
     gadj u := nth u (map (map (fun e => (fst e, Z.of_nat (snd e)))) [[(1, 10); (2, 3); (3, 4)]; [(0, 10)]; [(0, 3)]; [(0, 4)]]) [];
     gvw u := 1%Z |}.
Lemma ex_star_ok : closed_graph ex_star /\ undirected ex_star /\ simple_graph ex_star /\
  positive_edges ex_star /\ labels_ok ex_star 3 [0; 0; 1; 0] /\ exact_block_weights ex_star [0; 0; 1; 0] [3; 1; 0]%Z.
Proof.
  assert (H4 : forall P : nat -> Prop, (P 0 /\ P 1 /\ P 2 /\ P 3) -> forall u, u < 4 -> P u).
  { intros P (H0 & H1 & H2 & H3) u Hu. do 4 (destruct u as [|u]; auto). lia. }
  repeat match goal with |- _ /\ _ => split end.
  - intros u v w Hu. revert u Hu v w. apply (H4 (fun u => forall v w, In (v, w) (gadj ex_star u) -> v < 4)).
    repeat split; intros v w Hin; cbn in Hin; repeat (destruct Hin as [Hin|Hin]; [injection Hin as <- <-; lia|]); destruct Hin.
  - intros u v Hu Hv. revert u Hu v Hv. apply (H4 (fun u => forall v, v < 4 -> conn ex_star u v = conn ex_star v u)).
    repeat split; apply H4; repeat split; reflexivity.
  - intros u Hu. revert u Hu. apply (H4 (fun u => NoDup (map fst (gadj ex_star u)) /\ ~ In u (map fst (gadj ex_star u)))).
    repeat split; try (cbn; intuition discriminate); cbn; repeat constructor; cbn; intuition discriminate.
  - intros u v w Hu. revert u Hu v w. apply (H4 (fun u => forall v w, In (v, w) (gadj ex_star u) -> (0 < w)%Z)).
    repeat split; intros v w Hin; cbn in Hin; repeat (destruct Hin as [Hin|Hin]; [injection Hin as <- <-; lia|]); destruct Hin.
  - split; [reflexivity|]. intros u Hu. revert u Hu. apply (H4 (fun u => label_of [0; 0; 1; 0] u < 3)). repeat split; cbn; lia.
  - split; [reflexivity|]. split.
    + intros u Hu. revert u Hu. apply (H4 (fun u => nth u [0; 0; 1; 0] 0 < 3)). repeat split; cbn; lia.
    + intros b Hb. change (b < 3) in Hb. do 3 (destruct b as [|b]; [reflexivity|]). lia.
Qed.

Lemma large_k_refuted : exists (g : graph) (k : nat) (lab : list nat) (es : list lev) (u b b' : nat) (s : lsys) (l : list (nat * Z)) (x x' : Z),
  closed_graph g /\ undirected g /\ simple_graph g /\ positive_edges g /\ labels_ok g k lab /\
  let c := dense_cache g k false false in
  let q := view (label_of lab) (snd (lv_run (gn g) k lab es)) in
  l_run g k (fun i => i) c true es {| x_lab := lab; x_bw := [3; 1; 0]%Z; x_d := dl_make k |} = Some s /\
  lk_gains k (fun i => i) false (c (x_lab s)) (x_d s) u (q u) = Some l /\
  In (b, x) l /\ In (b', x') l /\ (block_conn g q u b < block_conn g q u b')%Z /\ (x' < x)%Z.
Proof.
  destruct ex_star_ok as (H1 & H2 & H3 & H4 & H5 & _).
  destruct (l_run ex_star 3 (fun i => i) (dense_cache ex_star 3 false false) true [LMove 3 2] {| x_lab := [0; 0; 1; 0]; x_bw := [3; 1; 0]%Z; x_d := dl_make 3 |}) as [s|] eqn:E; [|vm_compute in E; discriminate].
  exists ex_star, 3, [0; 0; 1; 0], [LMove 3 2], 0, 1, 2, s, [(1, 3%Z); (2, (-10)%Z)], 3%Z, (-10)%Z.
  split; auto. split; auto. split; auto. split; auto. split; auto. cbv zeta. split; [exact E|].
  vm_compute in E. injection E as <-. split; [vm_compute; reflexivity|]. split; [left; reflexivity|]. split; [right; left; reflexivity|].
  split; [vm_compute; reflexivity|lia].
Qed.
