(* Concrete data for the contraction theorems. *)
From Verif Require Import Lib.Prelude Spec.Graph Spec.Quotient Model.ContractModel Proofs.ContractProofs.

(** 0-1 (1), 0-2 (5), 0-3 (4), 1-2 (2), 2-3 (3); node weights 1, 2, 3, 4. *)
Definition ex_graph : graph :=
  user_graph [0; 3; 5; 8; 10] [1; 2; 3; 0; 2; 1; 0; 3; 2; 0] [1; 2; 3; 4]%Z [1; 5; 4; 1; 2; 2; 5; 3; 3; 4]%Z.
Definition ex_clustering : list nat := [3; 3; 1; 2].
(** Two threads, reversed orders. *)
Definition ex_sched (a b : nat) : chunk_sched := mkSched (fun c => c mod 2) (rev (seq a (b - a))) [1; 0] (rev (seq 0 (b - a))).

Lemma ex_sched_valid a b : a <= b -> valid_sched 2 a b (ex_sched a b).
Proof.
  intros _. repeat split; cbn [ex_sched cs_owner cs_order cs_lists cs_writes].
  - intros c. apply Nat.mod_upper_bound. lia.
  - symmetry. apply Permutation_rev.
  - apply perm_swap.
  - symmetry. apply Permutation_rev.
Qed.


Lemma ex_undirected : undirected ex_graph.
Proof.
  intros u v Hu Hv. cbn in Hu, Hv.
  do 4 (destruct u as [|u]; [do 4 (destruct v as [|v]; [reflexivity|]); lia|]). lia.
Qed.
Lemma ex_closed : closed_graph ex_graph.
Proof.
  intros u v w Hu H. cbn in Hu. cbn [gn ex_graph user_graph length Nat.sub].
  do 4 (destruct u as [|u]; [cbn in H; repeat (destruct H as [H|H]; [injection H as <- <-; lia|]); destruct H|]). lia.
Qed.
Lemma ex_positive : positive_edges ex_graph.
Proof.
  intros u v w Hu H. cbn in Hu.
  do 4 (destruct u as [|u]; [cbn in H; repeat (destruct H as [H|H]; [injection H as <- <-; lia|]); destruct H|]). lia.
Qed.
Lemma ex_labels : forall u, u < gn ex_graph -> nth u ex_clustering 0 < gn ex_graph.
Proof. intros u Hu. cbn in *. do 4 (destruct u as [|u]; [lia|]). lia. Qed.

Lemma ex_inputs : valid_inputs ex_graph ex_clustering [3; 1; 0; 2] [2; 0; 3; 1] [1; 0; 2; 3] (repeat 9 4) (repeat 7 10) (repeat 5%Z 10).
Proof.
  assert (P : forall l, Permutation l (seq 0 4) -> Permutation l (seq 0 (gn ex_graph))) by (intros l H; exact H).
  unfold valid_inputs. split; [cbn; lia|]. split; [apply ex_closed|]. split; [apply ex_positive|]. split; [apply ex_labels|].
  split; [|split; [|split]].
  - apply P, NoDup_Permutation_bis; cbn; [repeat constructor; cbn; lia|lia|]. intros x H. cbn in *. lia.
  - apply P, NoDup_Permutation_bis; cbn; [repeat constructor; cbn; lia|lia|]. intros x H. cbn in *. lia.
  - apply P, NoDup_Permutation_bis; cbn; [repeat constructor; cbn; lia|lia|]. intros x H. cbn in *. lia.
  - repeat split.
Qed.

(** The result with chunk size 2 and splitting after 4 edges: three coarse nodes; coarse node 2 = {0, 1}. *)
Lemma ex_result : contract_clustering_buffered 2 2 (fun x => x) ex_graph ex_clustering [3; 1; 0; 2] [2; 0; 3; 1] [1; 0; 2; 3]
    (repeat 9 4) true 4 ex_sched (repeat 7 10) (repeat 5%Z 10)
  = Some ([2; 2; 0; 1], ([0; 2; 4; 6], [2; 1; 0; 2; 0; 1], [3; 4; 3]%Z, [7; 3; 3; 4; 7; 4]%Z)).
Proof. vm_compute. reflexivity. Qed.

Lemma ex_hierarchy :
  let h := user_graph [0; 2; 4; 6] [2; 1; 0; 2; 0; 1] [3; 4; 3]%Z [7; 3; 3; 4; 7; 4]%Z in
  closed_graph ex_graph /\ undirected ex_graph /\ hierarchy ex_graph [([2; 2; 0; 1], h)] /\
  uncoarsen_all ex_graph [([2; 2; 0; 1], h)] [0; 1; 1] = [1; 1; 0; 1] /\
  cut_weight h (fun c => nth c [0; 1; 1] 0) = 10%Z.
Proof.
  cbv zeta. split; [exact ex_closed|]. split; [exact ex_undirected|]. split; [|split; reflexivity].
  destruct (buffered_quotient 2 2 (fun x => x) ex_graph ex_clustering [3; 1; 0; 2] [2; 0; 3; 1] [1; 0; 2; 3] (repeat 9 4) true 4 ex_sched
    (repeat 7 10) (repeat 5%Z 10) ltac:(lia) ex_inputs ex_sched_valid) as (mapping & nodes & edges & nw & ew & E & _ & Q & _).
  rewrite ex_result in E. injection E as <- <- <- <- <-. split; [exact Q|exact I].
Qed.
