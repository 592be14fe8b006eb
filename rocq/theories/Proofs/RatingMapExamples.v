(* Concrete histories for C31. *)
From Verif Require Import Lib.Prelude Spec.RatingMap Model.RatingMapModel Proofs.RatingMapProofs.

Lemma fra_zero_twice : exists n ops, keys_below n ops /\ ~ NoDup (map fst (fra_entries (fra_run ops (fra_make n)))).
Proof.
  exists 1, [RAdd 0 0%Z; RAdd 0 1%Z]. split.
  - intros k v [H|[H|[]]]; inversion H; lia.
  - cbn. intros H. inversion H. apply H2. left. reflexivity.
Qed.

Lemma fsm_full_loops : exists hash ms ops m, at_most_keys ms ops /\
  fsm_run hash ms ops (Some (fsm_make ms)) = Some m /\ fsm_contains hash ms m 7 = None.
Proof.
  exists (fun k => k), 1, [RAdd 0 1%Z], (mkFsm [(0, 1)] [(0, 1%Z)] 1 1). split; [|split; reflexivity].
  intros [|[|j]]; cbn; lia.
Qed.
