(* Examples for the sparse gain cache. *)
From Verif Require Import Lib.Prelude Spec.Graph Spec.Gain Spec.SparseGainSpec Model.GainModel Model.SparseGainModel Proofs.Decide Proofs.SparseGainLayout Proofs.SparseGainTop.

(** A path on four nodes (numbered 0, 2, 3, 1 along the path) and a hub joined to all: degrees 2, 2, 3, 3, 4. *)
Definition sp_graph : graph :=
  {| gn := 5;
     gadj u := nth u (map (map (fun e => (fst e, Z.of_nat (snd e))))
       [[(2, 3); (4, 1)]; [(3, 2); (4, 1)]; [(0, 3); (3, 7); (4, 5)]; [(1, 2); (2, 7); (4, 1)]; [(0, 1); (1, 1); (2, 5); (3, 1)]]) [];
     gvw u := 1%Z |}.
Definition sp_bk (b : nat) : nat := nth b [0; 0; 0; 4; 5] 5.
Lemma five (P : nat -> Prop) : P 0 -> P 1 -> P 2 -> P 3 -> P 4 -> forall u, u < 5 -> P u.
Proof. intros H0 H1 H2 H3 H4 u Hu. do 5 (destruct u as [|u]; [assumption|]). lia. Qed.
Lemma sp_ok : closed_graph sp_graph /\ undirected sp_graph /\ simple_graph sp_graph /\ positive_edges sp_graph /\
  bucket_ordered sp_graph sp_bk 4 /\ sparse_fits sp_graph 4 32 true 4 4 /\ labels_ok sp_graph 4 [0; 1; 2; 3; 0].
Proof.
  split; [apply check_closed_ok; reflexivity|]. split; [apply check_undirected_ok; reflexivity|]. split; [|split; [|split; [|split]]].
  - intros u Hu. revert u Hu. apply (five (fun u => NoDup (map fst (gadj sp_graph u)) /\ ~ In u (map fst (gadj sp_graph u))));
      (split; [cbn; repeat constructor; cbn; intuition discriminate|cbn; intuition discriminate]).
  - intros u v y Hu. revert u Hu v y. apply (five (fun u => forall v y, In (v, y) (gadj sp_graph u) -> (0 < y)%Z)); intros v y Hin; cbn in Hin; repeat (destruct Hin as [Hin|Hin]; [injection Hin as <- <-; lia|]); destruct Hin.
  - split; [reflexivity|]. split; [reflexivity|]. split.
    + intros b Hb. do 4 (destruct b as [|b]; [cbn; lia|]). lia.
    + intros b u Hb Hu. do 4 (destruct b as [|b]; [cbn in Hu; try lia; do 5 (destruct u as [|u]; [cbn; lia|]); lia|]). lia.
  - split; [lia|]. split; [lia|]. split.
    + intros u Hu. revert u Hu. apply (five (fun u => (weighted_degree sp_graph u < 2 ^ (32 - 1))%Z)); reflexivity.
    + intros _. split; [split; [lia|]; change 4 with (2 ^ 2); apply Nat.pow_lt_mono_r; lia|]. exists 2%Z. split; [lia|]. split; [cbn; lia|].
      intros u Hu _. revert u Hu. apply (five (fun u => (weighted_degree sp_graph u < 2 ^ (32 - 2))%Z)); reflexivity.
  - split; [reflexivity|]. intros u Hu. revert u Hu. apply (five (fun u => label_of [0; 1; 2; 3; 0] u < 4)); cbn; lia.
Qed.

(** Two nodes joined by an edge of weight 2^30; weights fit 32-bit signed integers. *)
Definition hv_graph : graph := {| gn := 2; gadj u := nth u [[(1%nat, 2 ^ 30)%Z]; [(0%nat, 2 ^ 30)%Z]] []; gvw u := 1%Z |}.
Definition hv_bk (b : nat) : nat := nth b [0; 0; 2] 2.
Lemma two (P : nat -> Prop) : P 0 -> P 1 -> forall u, u < 2 -> P u.
Proof. intros H0 H1 u Hu. do 2 (destruct u as [|u]; [assumption|]). lia. Qed.
Lemma wide_weights : exists g k bk nb thr lab L m0 u b,
  closed_graph g /\ undirected g /\ simple_graph g /\ positive_edges g /\ bucket_ordered g bk nb /\ 2 <= k /\ nb <= 31 /\
  (zsum (map (weighted_degree g) (seq 0 (gn g))) <= 2 ^ 31)%Z /\ labels_ok g k lab /\
  sg_layout g k true bk thr [] = Some L /\ sg_init g k 32 bk nb L lab = Some m0 /\ u < gn g /\ b < k /\
  sg_conn g k 32 bk nb L m0 u b = Some 0%Z /\ block_conn g (label_of lab) u b = (2 ^ 30)%Z.
Proof.
  exists hv_graph, 4, hv_bk, 2, 4, [1; 0].
  destruct (sg_layout hv_graph 4 true hv_bk 4 []) as [L|] eqn:EL; [|vm_compute in EL; discriminate].
  exists L. destruct (sg_init hv_graph 4 32 hv_bk 2 L [1; 0]) as [m0|] eqn:EM; [|vm_compute in EL; injection EL as <-; vm_compute in EM; discriminate].
  exists m0, 0, 0.
  split; [apply check_closed_ok; reflexivity|]. split; [apply check_undirected_ok; reflexivity|]. split; [|split; [|split]].
  - intros u Hu. revert u Hu. apply (two (fun u => NoDup (map fst (gadj hv_graph u)) /\ ~ In u (map fst (gadj hv_graph u))));
      (split; [cbn; repeat constructor; cbn; intuition discriminate|cbn; intuition discriminate]).
  - intros u v y Hu. revert u Hu v y. apply (two (fun u => forall v y, In (v, y) (gadj hv_graph u) -> (0 < y)%Z)); intros v y Hin; cbn in Hin; repeat (destruct Hin as [Hin|Hin]; [injection Hin as <- <-; lia|]); destruct Hin.
  - split; [reflexivity|]. split; [reflexivity|]. split.
    + intros b Hb. do 2 (destruct b as [|b]; [cbn; lia|]). lia.
    + intros b u Hb Hu. do 2 (destruct b as [|b]; [cbn in Hu; try lia; do 2 (destruct u as [|u]; [cbn; lia|]); lia|]). lia.
  - split; [lia|]. split; [lia|]. split; [vm_compute; discriminate|]. split; [split; [reflexivity|intros u Hu; revert u Hu; apply (two (fun u => label_of [1; 0] u < 4)); cbn; lia]|].
    split; [exact eq_refl|]. split; [exact eq_refl|]. split; [cbn; lia|]. split; [lia|].
    vm_compute in EL. injection EL as <-. vm_compute in EM. injection EM as <-. split; vm_compute; reflexivity.
Qed.
