(* Move sets: the strategies, and any sequence of moves. *)
From Coq Require Import Sorting.Sorted.
From Verif Require Import Lib.Prelude Model.DistGraphModel Model.HemModel Model.MoveSetModel Spec.MoveSetSpec Proofs.MoveSetMoves Proofs.MoveSetGhosts Proofs.MoveSetSingles Proofs.MoveSetLocal.

Section Final.
Variables (d : dcsr) (k : nat) (over : nat -> bool) (blk : list nat) (s : sets).
Hypothesis HG : rank_graph (dn d) (dghost_n d) (row d).
Hypothesis HV : valid_blocks d k blk.
Hypothesis HS : built d k over blk s.
Lemma built_good : good d k s blk /\ forall u, u < dn d -> (nth u (ms_of s) None <> None <-> over (nth u blk 0) = true).
Proof.
  destruct HV as [V1 V2]. destruct HS as [H|cl junk b H1 H2 (M1 & M2 & M3) H3 H4].
  - exact (singles_good d k over blk HG V1 V2 s H).
  - destruct (local_good d k over blk cl HG V1 V2 H1 H2 junk b s M1 M2 M3 H3 H4) as (A & B & _). exact (conj A B).
Qed.
Theorem built_exact : exact_sets d k s blk /\ forall u, u < dn d -> ((exists l, In l (set_list s) /\ In u l) <-> over (nth u blk 0) = true).
Proof.
  destruct built_good as [A B]. pose proof (go_con _ _ _ _ A) as C. split; [exact C|]. intros u Hu. rewrite <- B by exact Hu. split.
  - intros (l & Hl & Hin). apply sets_in in Hl. destruct Hl as (c & Hc & ->). apply (members d k s blk c u A Hc) in Hin. destruct Hin as [_ ->]. discriminate.
  - intros Hne. destruct (nth u (ms_of s) None) as [c|] eqn:E; [|contradiction]. pose proof (co_range _ _ _ _ _ _ _ C u c Hu E) as Hc. rewrite sets_len in Hc. exists (nodes_of s c). split; [apply sets_in; exists c; auto|apply (members d k s blk c u A Hc); auto].
Qed.
Lemma blocks_after ms : forall s0 blk0, good d k s0 blk0 -> (forall m, In m ms -> allowed_move d k s0 m) ->
  forall v, v < dn d + dghost_n d -> nth v (snd (perform_all d k ms (s0, blk0))) 0 = fold_left (block_after (set_list s0)) ms (fun u => nth u blk0 0) v.
Proof.
  assert (Ext : forall ms sl f g N, (forall v, v < N -> f v = g v) -> forall v, v < N -> fold_left (block_after sl) ms f v = fold_left (block_after sl) ms g v).
  { induction ms0 as [|m ms0 IH]; intros sl f g N E v Hv; [exact (E v Hv)|]. cbn [fold_left]. apply (IH sl _ _ N); [|exact Hv]. intros x Hx. destruct m; cbn [block_after]; unfold moved; rewrite (E x Hx); reflexivity. }
  induction ms as [|m ms IH]; intros s0 blk0 Gd Hm v Hv; [reflexivity|].
  destruct (moves_good d k HG [m] s0 blk0 Gd) as [G1 E1]. { intros m' [<-|[]]. specialize (Hm m (or_introl eq_refl)). destruct m; exact Hm. }
  cbn [perform_all fold_left] in *. assert (B1 : forall x, x < dn d + dghost_n d -> nth x (snd (perform d k (s0, blk0) m)) 0 = block_after (set_list s0) (fun u => nth u blk0 0) m x).
  { intros x Hx. specialize (Hm m (or_introl eq_refl)). destruct m as [c to|g to]; cbn [perform snd fst block_after allowed_move] in *.
    - rewrite set_blocks_nth. + unfold moved. change (set_list s0) with (sets_of s0). rewrite sets_nth by apply Hm. reflexivity.
      + intros u Hu. apply (members d k s0 blk0 c u Gd (proj1 Hm)) in Hu. rewrite (go_blk _ _ _ _ Gd). lia.
    - unfold moved. cbn [existsb]. rewrite orb_false_r. destruct (Nat.eqb_spec x g) as [->|Ne]; [apply upd_nth_same; rewrite (go_blk _ _ _ _ Gd); lia|apply upd_nth_other; congruence]. }
  destruct (perform d k (s0, blk0) m) as [s1 blk1]. cbn [fst snd] in *. assert (Hn : num_sets s1 = num_sets s0) by (rewrite <- !sets_len, E1; reflexivity).
  unfold perform_all in IH. rewrite (IH s1 blk1 G1); [|intros m' Hm'; specialize (Hm m' (or_intror Hm')); destruct m'; cbn [allowed_move] in *; rewrite ?Hn; exact Hm|exact Hv].
  change (set_list s1) with (sets_of s1). rewrite E1. apply (Ext ms (sets_of s0) _ _ (dn d + dghost_n d)); [exact B1|exact Hv].
Qed.
Theorem moves_exact ms : (forall m, In m ms -> allowed_move d k s m) -> let r := perform_all d k ms (s, blk) in
  set_list (fst r) = set_list s /\ exact_sets d k (fst r) (snd r) /\ valid_blocks d k (snd r) /\
  (forall v, v < dn d + dghost_n d -> nth v (snd r) 0 = fold_left (block_after (set_list s)) ms (fun u => nth u blk 0) v) /\
  (forall c to, c < length (set_list s) -> to < k ->
    gain k (fst r) (snd r) c to = (cut_of (row d) (fun u => nth u (snd r) 0%nat) (nth c (set_list s) []) - cut_of (row d) (moved (nth c (set_list s) []) to (fun u => nth u (snd r) 0%nat)) (nth c (set_list s) []))%Z).
Proof.
  intros Hm r. destruct (moves_good d k HG ms s blk (proj1 built_good)) as [G1 E1]; [intros m Hin; specialize (Hm m Hin); destruct m; exact Hm|]. fold r in G1, E1.
  split; [exact E1|]. split; [exact (go_con _ _ _ _ G1)|]. split; [split; [exact (go_blk _ _ _ _ G1)|exact (go_k _ _ _ _ G1)]|]. split; [exact (blocks_after ms s blk (proj1 built_good) Hm)|].
  intros c to Hc Ht. change (set_list s) with (sets_of s) in *. rewrite <- E1 in *. rewrite sets_len in Hc. rewrite sets_nth by exact Hc. exact (gain_exact d k (fst r) (snd r) c to G1 Hc Ht).
Qed.
End Final.

(** ** Examples: own nodes 0 - 1 - 2 (weights 2, 3), 1 - ghost 3 (weight 4), 2 - ghost 4 (weight 5). *)
Definition y_d : dcsr := Dcsr 0 [0; 3; 5] [0; 6; 8] [0; 1; 4; 6] [1; 0; 2; 3; 1; 4] [] [2; 2; 3; 4; 3; 5]%Z (Ghosts [3; 4] [1; 1] [(3, 3); (4, 4)]).
Lemma y_graph : rank_graph (dn y_d) (dghost_n y_d) (row y_d).
Proof.
  constructor.
  - intros u v w Hu Hin. do 3 (destruct u as [|u]; [vm_compute in Hin; repeat (destruct Hin as [[= <- <-]|Hin]; [repeat split; vm_compute; lia|]); destruct Hin|]). vm_compute in Hu. lia.
  - intros u v Hu Hv. do 3 (destruct u as [|u]; [do 3 (destruct v as [|v]; [vm_compute; reflexivity|]); vm_compute in Hv; lia|]). vm_compute in Hu. lia.
Qed.
Definition y_blk := [0; 0; 1; 1; 2].
Lemma y_valid : valid_blocks y_d 3 y_blk.
Proof. split; [reflexivity|]. intros v Hv. do 5 (destruct v as [|v]; [cbn; lia|]). vm_compute in Hv. lia. Qed.
Definition y_over (b : nat) : bool := b <? 2.
Definition with_ghosts (b : building) (ts : list (nat * (Z * nat))) (junk : list nat) : sets := Sets (bu_of b) (bu_nodes b) (bu_idx b) (bu_conn b) (fst (ghost_arrays y_d ts junk)) (snd (ghost_arrays y_d ts junk)).
(** Nodes 0 and 1 are a cluster, node 2 is one. *)
Definition y_cl := [1; 1; 2].
Definition y_junk : list (option nat) * list nat * list nat := ([Some 9; Some 9; Some 9], [9; 9; 9], [9; 9; 9; 9]).
Definition y_b : building := match local_sets y_d 3 y_over y_blk y_cl y_junk with Some b => b | None => Building [] [] [] [] 0 end.
Definition y_s : sets := with_ghosts y_b (triples y_d y_b) [7; 7; 7].
Lemma y_constructed : constructed y_d y_b y_s.
Proof. exists (triples y_d y_b), [7; 7; 7]. split; [reflexivity|]. split; [vm_compute; repeat constructor|]. split; reflexivity. Qed.
Lemma y_built : built y_d 3 y_over y_blk y_s.
Proof.
  apply (built_local _ _ _ _ _ y_cl y_junk y_b); [..|exact y_constructed].
  - intros u Hu _. do 3 (destruct u as [|u]; [vm_compute; lia|]). vm_compute in Hu. lia.
  - intros u v Hu Hv E. do 3 (destruct u as [|u]; [do 3 (destruct v as [|v]; [vm_compute in *; congruence|]); vm_compute in Hv; lia|]). vm_compute in Hu. lia.
  - repeat split.
  - vm_compute. reflexivity.
Qed.
Definition y_single : sets := with_ghosts (singletons y_d 3 y_over y_blk) (triples y_d (singletons y_d 3 y_over y_blk)) [7; 7; 7].
Lemma y_built_single : built y_d 3 y_over y_blk y_single.
Proof. apply built_singletons. exists (triples y_d (singletons y_d 3 y_over y_blk)), [7; 7; 7]. split; [reflexivity|]. split; [vm_compute; repeat constructor|]. split; reflexivity. Qed.
Lemma y_values : set_list y_s = [[0; 1]; [2]] /\ map (conn 3 y_s 0) [0; 1; 2] = [0; 7; 0]%Z /\ (forall m, In m [Ghost 3 0; OwnSet 0 2; Ghost 4 1; OwnSet 1 0] -> allowed_move y_d 3 y_s m) /\
  map (conn 3 (fst (perform_all y_d 3 [Ghost 3 0; OwnSet 0 2; Ghost 4 1; OwnSet 1 0] (y_s, y_blk))) 0) [0; 1; 2] = [7; 0; 0]%Z.
Proof. repeat split; try (vm_compute; reflexivity). intros m [<-|[<-|[<-|[<-|[]]]]]; vm_compute; lia. Qed.

(** ** Clusters with nodes of two blocks: 1 and 2 are a cluster. *)
Definition z_s (over : nat -> bool) : sets := let b := match local_sets y_d 3 over y_blk [0; 2; 2] y_junk with Some b => b | None => Building [] [] [] [] 0 end in with_ghosts b (triples y_d b) [7; 7; 7].
Theorem two_blocks_spoil : exists d k over blk cl junk b s, rank_graph (dn d) (dghost_n d) (row d) /\ valid_blocks d k blk /\ own_clusters d over blk cl /\ memory d junk /\ local_sets d k over blk cl junk = Some b /\ constructed d b s /\
  exists l u v, In l (set_list s) /\ In u l /\ In v l /\ nth u blk 0 <> nth v blk 0.
Proof.
  exists y_d, 3, y_over, y_blk, [0; 2; 2], y_junk. eexists. exists (z_s y_over). split; [exact y_graph|]. split; [exact y_valid|]. split; [intros u Hu _; do 3 (destruct u as [|u]; [vm_compute; lia|]); vm_compute in Hu; lia|]. split; [repeat split|]. split; [vm_compute; reflexivity|]. split.
  - eexists _, [7; 7; 7]. split; [reflexivity|]. split; [vm_compute; repeat constructor|]. split; vm_compute; reflexivity.
  - exists [1; 2], 1, 2. split; [vm_compute; auto|]. split; [left; reflexivity|]. split; [right; left; reflexivity|vm_compute; discriminate].
Qed.
Theorem other_block_spoils : exists d k over blk cl junk b s, rank_graph (dn d) (dghost_n d) (row d) /\ valid_blocks d k blk /\ own_clusters d over blk cl /\ memory d junk /\ local_sets d k over blk cl junk = Some b /\ constructed d b s /\
  exists c to, set_list s = [[0]; [1]] /\ c < 2 /\ to < k /\
    gain k s blk c to <> (cut_of (row d) (fun u => nth u blk 0%nat) (nth c (set_list s) []) - cut_of (row d) (moved (nth c (set_list s) []) to (fun u => nth u blk 0%nat)) (nth c (set_list s) []))%Z.
Proof.
  exists y_d, 3, (fun b => b =? 0), y_blk, [0; 2; 2], y_junk. eexists. exists (z_s (fun b => b =? 0)). split; [exact y_graph|]. split; [exact y_valid|]. split; [intros u Hu _; do 3 (destruct u as [|u]; [vm_compute; lia|]); vm_compute in Hu; lia|]. split; [repeat split|]. split; [vm_compute; reflexivity|]. split.
  - eexists _, [7; 7; 7]. split; [reflexivity|]. split; [vm_compute; repeat constructor|]. split; vm_compute; reflexivity.
  - exists 1, 1. split; [vm_compute; reflexivity|]. split; [lia|]. split; [lia|]. vm_compute. discriminate.
Qed.
Theorem no_nodes_spoil : exists d k blk, rank_graph (dn d) (dghost_n d) (row d) /\ valid_blocks d k blk /\ forall over cl junk, memory d junk -> local_sets d k over blk cl junk = None.
Proof.
  exists (Dcsr 1 [0; 3; 3] [0; 4; 4] [0] [] [] [] (Ghosts [] [] [])), 3, []. split; [constructor; [intros u v w Hu; vm_compute in Hu; lia|intros u v Hu; vm_compute in Hu; lia]|]. split; [split; [reflexivity|intros v Hv; vm_compute in Hv; lia]|]. intros over cl [[a b] c] _. reflexivity.
Qed.
