(* Concrete label propagation refinements. *)
From Verif Require Import Lib.Prelude Spec.Graph Spec.Gain Model.LpRefineModel Spec.LpRefineSpec Proofs.LpRefineProofs.
Local Open Scope Z_scope.

(** A path 2 - 0 - 1 - 3 whose middle edge has weight 2. *)
Definition path_adj (u : nat) : list (nat * Z) :=
  match u with
  | 0%nat => [(1%nat, 2); (2%nat, 1)] | 1%nat => [(0%nat, 2); (3%nat, 1)] | 2%nat => [(0%nat, 1)] | 3%nat => [(1%nat, 1)] | _ => []
  end.
Definition path4 : graph := mkGraph 4 path_adj (fun _ => 1).
Definition ten (b : nat) : Z := 10.
Definition start4 : pstate := PState [0%nat; 1%nat; 0%nat; 1%nat] [2; 2].

Lemma path4_refinable : refinable path4.
Proof.
  split; [|split; [|split]].
  - intros u v w Hu I. cbn in Hu, I. do 4 (destruct u as [|u]; [cbn in I; intuition (try congruence); match goal with H : (_, _) = (_, _) |- _ => injection H; intros; subst end; cbn; lia|]). lia.
  - intros u v Hu Hv. cbn in Hu, Hv. do 4 (destruct u as [|u]; [do 4 (destruct v as [|v]; [reflexivity|]); lia|]). lia.
  - intros u Hu. cbn in Hu. do 4 (destruct u as [|u]; [cbn; intuition discriminate|]). lia.
  - intros u v w Hu I. cbn in Hu, I. do 4 (destruct u as [|u]; [cbn in I; intuition (try congruence); match goal with H : (_, _) = (_, _) |- _ => injection H; intros; subst end; cbn; lia|]). lia.
Qed.
Lemma path4_symmetric : symmetric_lists path4.
Proof.
  intros u v Hu I. cbn in Hu. do 4 (destruct u as [|u]; [cbn in I; intuition (subst; cbn; tauto)|]). lia.
Qed.
Lemma start4_exact : exact_block_weights path4 (p_label start4) (p_weight start4).
Proof.
  split; [reflexivity|]. split.
  - intros u Hu. cbn in Hu. do 4 (destruct u as [|u]; [cbn; lia|]). lia.
  - intros b Hb. cbn in Hb. do 2 (destruct b as [|b]; [reflexivity|]). lia.
Qed.

(** A single-threaded round visits 0, 1, 2, 3: node 0 joins node 1, then node 2 follows; the cut drops from 2 to 0. *)
Definition plain (u : nat) : choice := Choice u (fun _ => false) 0 (fun l => l).
Example path4_round : p_label (lp_sequential path4 ten true None [plain 0; plain 1; plain 2; plain 3] start4) = [1; 1; 1; 1]%nat /\
  cut_weight path4 (label_of (p_label start4)) = 2 /\ choices_ok path4 [plain 0; plain 1; plain 2; plain 3].
Proof.
  split; [vm_compute; reflexivity|]. split; [reflexivity|]. unfold choices_ok. repeat apply Forall_cons; try apply Forall_nil; (split; [cbn; lia|intros; apply Permutation_refl]).
Qed.
(** With tight limits only ties that even out the weights are taken. *)
Example path4_tight : p_label (lp_sequential path4 (fun _ => 3) true None [plain 0; plain 1; plain 2; plain 3] start4) = [0; 1; 0; 1]%nat.
Proof. vm_compute. reflexivity. Qed.

(** Two threads visit nodes 0 and 1 at the same time; both see the blocks at the start. *)
Definition view0 : rview := InOnePiece [REntry 1 2 2 false; REntry 0 1 2 false] 0.
Definition view1 : rview := InOnePiece [REntry 0 2 2 false; REntry 1 1 2 false] 0.
Lemma concurrent_swap : exists g limit s0 u v vu vv, refinable g /\ exact_block_weights g (p_label s0) (p_weight s0) /\ (u < gn g)%nat /\ (v < gn g)%nat /\ u <> v /\
  exact_view g (p_label s0) u vu /\ exact_view g (p_label s0) v vv /\
  cut_weight g (label_of (p_label s0)) < cut_weight g (label_of (p_label (lp_visit g limit true v 2 vv (lp_visit g limit true u 2 vu s0)))).
Proof.
  exists path4, ten, start4, 0%nat, 1%nat, view0, view1. split; [exact path4_refinable|]. split; [exact start4_exact|]. split; [cbn; lia|]. split; [cbn; lia|].
  split; [discriminate|]. split; [|split].
  - split.
    + intros e [<-|[<-|[]]]; (split; [reflexivity|]); [exists 1%nat, 2|exists 2%nat, 1]; (split; [cbn; tauto|reflexivity]).
    + intros w x [E|[E|[]]]; injection E as <- <-; [exists (REntry 1 2 2 false)|exists (REntry 0 1 2 false)]; (split; [cbn; tauto|reflexivity]).
  - split.
    + intros e [<-|[<-|[]]]; (split; [reflexivity|]); [exists 0%nat, 2|exists 3%nat, 1]; (split; [cbn; tauto|reflexivity]).
    + intros w x [E|[E|[]]]; injection E as <- <-; [exists (REntry 0 2 2 false)|exists (REntry 1 1 2 false)]; (split; [cbn; tauto|reflexivity]).
  - vm_compute. reflexivity.
Qed.

(** Only the first neighbour is looked at: node 0 follows its lighter edge. *)
Definition light_first : graph := mkGraph 3 (fun u => match u with 0%nat => [(1%nat, 1); (2%nat, 5)] | 1%nat => [(0%nat, 1)] | 2%nat => [(0%nat, 5)] | _ => [] end) (fun _ => 1).
Lemma limited_neighbours : exists g limit s0 cs, refinable g /\ exact_block_weights g (p_label s0) (p_weight s0) /\ choices_ok g cs /\
  cut_weight g (label_of (p_label s0)) < cut_weight g (label_of (p_label (lp_sequential g limit true (Some 1%nat) cs s0))).
Proof.
  exists light_first, ten, (PState [0; 1; 0]%nat [2; 1]), [plain 0]. split; [|split; [|split]].
  - split; [|split; [|split]].
    + intros u v w Hu I. cbn in Hu, I. do 3 (destruct u as [|u]; [cbn in I; intuition (try congruence); match goal with H : (_, _) = (_, _) |- _ => injection H; intros; subst end; cbn; lia|]). lia.
    + intros u v Hu Hv. cbn in Hu, Hv. do 3 (destruct u as [|u]; [do 3 (destruct v as [|v]; [reflexivity|]); lia|]). lia.
    + intros u Hu. cbn in Hu. do 3 (destruct u as [|u]; [cbn; intuition discriminate|]). lia.
    + intros u v w Hu I. cbn in Hu, I. do 3 (destruct u as [|u]; [cbn in I; intuition (try congruence); match goal with H : (_, _) = (_, _) |- _ => injection H; intros; subst end; cbn; lia|]). lia.
  - split; [reflexivity|]. split.
    + intros u Hu. cbn in Hu. do 3 (destruct u as [|u]; [cbn; lia|]). lia.
    + intros b Hb. cbn in Hb. do 2 (destruct b as [|b]; [reflexivity|]). lia.
  - unfold choices_ok. repeat apply Forall_cons; try apply Forall_nil; (split; [cbn; lia|intros; apply Permutation_refl]).
  - vm_compute. reflexivity.
Qed.

(** Node 0 looks at node 1, node 1 moves and wakes node 0, then node 0 clears its flag. *)
Lemma lost_activation : exists g m0 tr u v b, refinable g /\ symmetric_lists g /\ (u < gn g)%nat /\ (v < gn g)%nat /\ In v (map fst (gadj g u)) /\
  am_flags m0 = repeat true (gn g) /\ length (am_label m0) = gn g /\
  interleaved (visit_steps u None) (visit_steps v (Some b)) tr /\
  let m := fold_left (do_astep g) tr m0 in
  nth u (am_flags m) false = false /\ am_seen m u v <> nth v (am_label m) 0%nat.
Proof.
  exists path4, (AMem [0; 1; 0; 1]%nat (repeat true 4) (fun _ _ => 0%nat)), [Look 0; Look 1; Clear 1; Store 1 0; Clear 0], 0%nat, 1%nat, 0%nat.
  split; [exact path4_refinable|]. split; [exact path4_symmetric|]. split; [cbn; lia|]. split; [cbn; lia|]. split; [cbn; tauto|]. split; [reflexivity|]. split; [reflexivity|].
  split; [cbn; repeat constructor|]. split; [reflexivity|]. vm_compute. discriminate.
Qed.

Lemma path4_run : exists h s, lp_refine_run path4 ten true start4 h s /\ p_label s = [1; 1; 1; 1]%nat.
Proof.
  destruct (sequential_is_run path4 ten true start4 [plain 0; plain 1; plain 2; plain 3] None (proj1 path4_refinable) (proj2 (proj2 path4_round))) as (h & R & _).
  exists h. eexists. split; [exact R|vm_compute; reflexivity].
Qed.
Lemma visit_case : refinable path4 /\ exact_view path4 (p_label start4) 0 view0 /\
  cut_weight path4 (label_of (p_label (lp_visit path4 ten true 0 2 view0 start4))) = 1.
Proof.
  split; [exact path4_refinable|]. split; [|vm_compute; reflexivity]. split.
  - intros e [<-|[<-|[]]]; (split; [reflexivity|]); [exists 1%nat, 2|exists 2%nat, 1]; (split; [cbn; tauto|reflexivity]).
  - intros w x [E|[E|[]]]; injection E as <- <-; [exists (REntry 1 2 2 false)|exists (REntry 0 1 2 false)]; (split; [cbn; tauto|reflexivity]).
Qed.
