(* Concrete runs of the heap model. *)
From Verif Require Import Lib.Prelude Spec.PrioQueue Model.HeapModel.
Local Open Scope Z_scope.

Definition ex_ops : list hop :=
  [HPush 0 0 10; HPush 0 1 20; HPush 0 2 30; HPush 0 3 5; HPush 0 4 7; HPush 0 5 1; HPush 1 6 (-5); HPush 1 7 (-3);
   HPop 0; HChange 0 5 40; HRemove 0 0; HChange 0 4 12; HPush 0 0 12; HPop 0; HPush 0 5 40; HRemove 0 1].
Ltac vhops := cbn [ex_ops valid_hops];
  repeat match goal with
  | |- _ /\ _ => split
  | |- valid_hop _ _ _ _ => vm_compute; repeat split; auto 10; try lia; try congruence
  | |- forall f', _ = Some f' -> _ => let f := fresh in let E := fresh in intros f E; vm_compute in E; injection E as <-
  | |- True => exact I
  end.
Lemma ex_ops_ok : valid_hops true 32 ex_ops (forest_init 10 2) /\
  match fo_run true 32 ex_ops (forest_init 10 2) with
  | Some f => fo_peek f 0 = Some (5%nat, 40) /\ fo_peek f 1 = Some (7%nat, -3) /\ fo_contains f 2 = false /\
              fo_key f 0 4 = Some 12
  | None => False
  end.
Proof.
  split; [|vm_compute; auto]. unfold ex_ops. vhops.
Qed.
Lemma remove_extreme : exists f f',
  fo_run true 32 [HPush 0 0 (2 ^ 31 - 1); HPush 0 1 5] (forest_init 2 1) = Some f /\
  fo_step true 32 f (HRemove 0 1) = Some f' /\ fo_contains f' 1 = true /\ fo_contains f' 0 = false.
Proof. do 2 eexists. vm_compute. repeat split; reflexivity. Qed.
