(* Move sets: the strategy greedy-batch-prefix loses a node. *)
From Coq Require Import Sorting.Sorted.
From Verif Require Import Lib.Prelude Model.DistGraphModel Model.HemModel Model.MoveSetModel Model.MoveSetGreedyModel Spec.MoveSetSpec Proofs.MoveSetMoves Proofs.MoveSetGhosts Proofs.MoveSetFinal.

(** Own nodes 0 - 1 (weight 1) and 2, both 0 and 1 are adjacent to ghost 3 (weight 5). Block 0 = {0, 1, 2} has limit 2, block 1 = {3} as well. *)
Definition x_d : dcsr := Dcsr 0 [0; 3; 4] [0; 4; 6] [0; 2; 4; 4] [1; 3; 0; 3] [] [1; 5; 1; 5]%Z (Ghosts [3] [1] [(3, 3)]).
Lemma x_graph : rank_graph (dn x_d) (dghost_n x_d) (row x_d).
Proof.
  constructor.
  - intros u v w Hu Hin. do 3 (destruct u as [|u]; [vm_compute in Hin; repeat (destruct Hin as [[= <- <-]|Hin]; [repeat split; vm_compute; lia|]); destruct Hin|]). vm_compute in Hu. lia.
  - intros u v Hu Hv. do 3 (destruct u as [|u]; [do 3 (destruct v as [|v]; [vm_compute; reflexivity|]); vm_compute in Hv; lia|]). vm_compute in Hu. lia.
Qed.
Definition x_blk := [0; 0; 0; 1].
Lemma x_valid : valid_blocks x_d 2 x_blk.
Proof. split; [reflexivity|]. intros v Hv. do 4 (destruct v as [|v]; [cbn; lia|]). vm_compute in Hv. lia. Qed.
Theorem greedy_spoils : exists d k blk bw lim maxw, rank_graph (dn d) (dghost_n d) (row d) /\ valid_blocks d k blk /\ 2 < dn d /\
  forall stop, (forall c steps, steps <= 1 -> stop c steps = false) -> forall nodes0 idx0 conn0, length nodes0 = dn d -> length idx0 = dn d + 1 -> length conn0 = dn d * k ->
  exists b, greedy_sets d k blk bw lim maxw stop (nodes0, idx0, conn0) = Some b /\ (exists s, constructed d b s) /\ forall s, constructed d b s ->
    (exists u, u < dn d /\ (nth (nth u blk 0%nat) lim 0 < nth (nth u blk 0%nat) bw 0)%Z /\ nth u (ms_of s) None = Some 0 /\ forall l, In l (set_list s) -> ~ In u l) /\
    (exists to, to < k /\ gain k s blk 0 to <> (cut_of (row d) (fun u => nth u blk 0%nat) (nth 0 (set_list s) []) - cut_of (row d) (moved (nth 0 (set_list s) []) to (fun u => nth u blk 0%nat)) (nth 0 (set_list s) []))%Z).
Proof.
  exists x_d, 2, x_blk, [3; 1]%Z, [2; 2]%Z, 9%Z. split; [exact x_graph|]. split; [exact x_valid|]. split; [vm_compute; lia|]. intros stop Hstop nodes0 idx0 conn0 L1 L2 L3.
  change (dn x_d) with 3 in *. cbn [Nat.add Nat.mul] in *.
  destruct nodes0 as [|a0 [|a1 [|a2 [|? ?]]]]; try discriminate. destruct idx0 as [|i0 [|i1 [|i2 [|i3 [|? ?]]]]]; try discriminate. destruct conn0 as [|c0 [|c1 [|c2 [|c3 [|c4 [|c5 [|? ?]]]]]]]; try discriminate.
  exists (Building [Some 0; Some 0; Some 1] [0; 2; a2] [0; 1; 2] [0; 5; 0; 0; c4; c5]%Z 2). split.
  - pose proof (Hstop 0 0 ltac:(lia)) as S0. pose proof (Hstop 0 1 ltac:(lia)) as S1. pose proof (Hstop 1 0 ltac:(lia)) as S2.
    unfold greedy_sets. change (dn x_d) with 3. cbn [seq fold_left]. cbv. rewrite ?S0. cbv. rewrite ?S1. cbv. rewrite ?S2. cbv. reflexivity.
  - split; [eexists; eexists _, [7; 7]; split; [reflexivity|]; split; [vm_compute; repeat constructor|]; split; reflexivity|]. intros s (ts & junk & HP & HS & HJ & ->). split.
    + exists 1. split; [lia|]. split; [cbn; lia|]. split; [reflexivity|]. intros l Hl. vm_compute in Hl. destruct Hl as [<-|[<-|[]]]; intros [H|[]]; discriminate.
    + exists 1. split; [lia|]. vm_compute. discriminate.
Qed.
