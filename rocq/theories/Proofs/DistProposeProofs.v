(* The proposals of a rank; unit weights; a round that hangs. *)
From Coq Require Import Sorting.Sorted QArith.
From Verif Require Import Lib.Prelude Model.MpiModel Model.DistBalancerModel Spec.Schedules Spec.DistBalancerSpec Proofs.ReduceProofs Proofs.DistCombineProofs Proofs.DistRoundProofs.
Open Scope nat_scope.

Lemma remove_best_perm : forall better q m r, remove_best better q = Some (m, r) -> Permutation q (m :: r).
Proof.
  intros better. induction q as [|e t IH]; intros m r E; [discriminate|]. cbn [remove_best] in E.
  destruct (remove_best better t) as [[m' r']|] eqn:Et.
  - destruct (better (fst m') (fst e)); injection E as <- <-.
    + eapply perm_trans; [apply perm_skip, IH; reflexivity|]. apply perm_swap.
    + apply Permutation_refl.
  - injection E as <- <-. destruct t as [|e' t']; [apply Permutation_refl|]. cbn [remove_best] in Et.
    destruct (remove_best better t') as [[? ?]|]; [destruct (better _ _)|]; discriminate.
Qed.
Local Open Scope Z_scope.
Lemma pq_weight_cons : forall e q, pq_weight (e :: q) = l_w (snd e) + pq_weight q.
Proof. reflexivity. Qed.
Lemma pq_weight_perm : forall a b, Permutation a b -> pq_weight a = pq_weight b.
Proof. intros a b H. unfold pq_weight. apply zsum_perm, Permutation_map, H. Qed.

Definition from_nodes (ns : list lnode) (q : pq) : Prop := forall e, In e q -> In (snd e) ns.
Lemma try_insert_nodes : forall o ns q key u, from_nodes ns q -> In u ns -> from_nodes ns (try_insert o q key u).
Proof.
  intros o ns q key u H Hu. unfold try_insert. destruct ((_ || _)%bool); [|exact H].
  assert (H' : from_nodes ns ((key, u) :: q)) by (intros e [<-|He]; [exact Hu|apply H; exact He]).
  destruct (pop_min ((key, u) :: q)) as [[m r]|] eqn:E; [|exact H']. destruct (_ && _)%bool; [|exact H'].
  intros e He. apply H'. eapply Permutation_in; [apply Permutation_sym, (remove_best_perm _ _ _ _ E)|]. right. exact He.
Qed.
Lemma build_nodes : forall bw mx from o ns, from_nodes ns (build_pq bw mx from o ns).
Proof.
  intros bw mx from o ns. unfold build_pq.
  assert (G : forall l q, (forall u, In u l -> In u ns) -> from_nodes ns q -> from_nodes ns (fold_left (fun q u => try_insert o q (gain_of bw mx from u) u) l q)).
  { induction l as [|u t IH]; intros q HL Hq; [exact Hq|]. cbn [fold_left]. apply IH; [intros v Hv; apply HL; right; exact Hv|]. apply try_insert_nodes; [exact Hq|]. apply HL. left. reflexivity. }
  apply G; [auto|]. intros e [].
Qed.

(** With unit weights a queue holds at most as much as has to be moved. *)
Lemma try_insert_unit : forall o q key u, 1 <= o -> (forall e, In e q -> l_w (snd e) = 1) -> l_w u = 1 -> pq_weight q <= o -> pq_weight (try_insert o q key u) <= o.
Proof.
  intros o q key u Ho HU Hu Hq. unfold try_insert.
  assert (HU' : forall e, In e ((key, u) :: q) -> l_w (snd e) = 1) by (intros e [<-|He]; [exact Hu|apply HU; exact He]).
  assert (HP : forall m r, pop_min ((key, u) :: q) = Some (m, r) -> pq_weight r = pq_weight q).
  { intros m r E. apply remove_best_perm in E. assert (Hm : l_w (snd m) = 1) by (apply HU'; eapply Permutation_in; [apply Permutation_sym, E|left; reflexivity]).
    apply pq_weight_perm in E. rewrite !pq_weight_cons in E. cbn [snd] in E. lia. }
  destruct (Z.ltb_spec (pq_weight q) o) as [H|H]; cbn [orb].
  - destruct (pop_min ((key, u) :: q)) as [[m r]|] eqn:E; [|rewrite pq_weight_cons; cbn [snd]; lia].
    destruct (_ && _)%bool; [rewrite (HP m r eq_refl); lia|rewrite pq_weight_cons; cbn [snd]; lia].
  - destruct q as [|e q]; [unfold pq_weight in H; cbn in H; lia|].
    destruct (pop_min (e :: q)) as [[m r]|] eqn:Em.
    2:{ exfalso. unfold pop_min in Em. cbn [remove_best] in Em. destruct (remove_best _ q) as [[? ?]|]; [destruct (Qlt_bool _ _)|]; discriminate. }
    destruct (Qlt_bool (fst m) key) eqn:Ek; [|exact Hq].
    assert (E : pop_min ((key, u) :: e :: q) = Some (m, (key, u) :: r)).
    { unfold pop_min in *. change (remove_best Qlt_bool ((key, u) :: e :: q)) with
        (match remove_best Qlt_bool (e :: q) with None => Some ((key, u), []) | Some (m, r) => if Qlt_bool (fst m) key then Some (m, (key, u) :: r) else Some ((key, u), e :: q) end).
      rewrite Em, Ek. reflexivity. }
    specialize (HP _ _ E). rewrite E, Ek. cbn [andb].
    assert (Hm : l_w (snd m) = 1) by (apply HU; eapply Permutation_in; [apply Permutation_sym, (remove_best_perm _ _ _ _ Em)|left; reflexivity]).
    assert (W : pq_weight ((key, u) :: e :: q) = 1 + pq_weight (e :: q)) by (rewrite pq_weight_cons; cbn [snd]; lia).
    rewrite W, Hm. destruct (Z.leb_spec o (1 + pq_weight (e :: q) - 1)); lia.
Qed.
Lemma build_unit : forall bw mx from o ns, 1 <= o -> (forall u, In u ns -> l_w u = 1) -> pq_weight (build_pq bw mx from o ns) <= o.
Proof.
  intros bw mx from o ns Ho HU. unfold build_pq.
  assert (G : forall l q, (forall u, In u l -> In u ns) -> from_nodes ns q -> pq_weight q <= o -> pq_weight (fold_left (fun q u => try_insert o q (gain_of bw mx from u) u) l q) <= o).
  { induction l as [|u t IH]; intros q HL Hq HW; [exact HW|]. cbn [fold_left]. apply IH; [intros v Hv; apply HL; right; exact Hv| |].
    - apply try_insert_nodes; [exact Hq|]. apply HL. left. reflexivity.
    - apply try_insert_unit; [exact Ho| | |exact HW]; [intros e He; apply HU, Hq, He|apply HU, HL; left; reflexivity]. }
  apply G; [auto|intros e []|unfold pq_weight; cbn; lia].
Qed.

Lemma pick_from_ok : forall bw mx from num q c, In c (pick_from bw mx from num q) ->
  exists e, In e q /\ c_from c = from /\ c_w c = l_w (snd e) /\ c_to c = fst (max_gainer bw mx from (snd e)).
Proof.
  intros bw mx from. induction num as [|n IH]; intros q c Hc; [destruct Hc|]. cbn [pick_from] in Hc.
  destruct (pop_max q) as [[[key u] r]|] eqn:E; [|destruct Hc]. apply remove_best_perm in E. destruct Hc as [<-|Hc].
  - exists (key, u). split; [eapply Permutation_in; [apply Permutation_sym, E|left; reflexivity]|]. repeat split.
  - destruct (IH r c Hc) as (e & He & H). exists e. split; [|exact H]. eapply Permutation_in; [apply Permutation_sym, E|right; exact He].
Qed.
Lemma pick_from_weight : forall bw mx from num q, (forall e, In e q -> 0 <= l_w (snd e)) -> zsum (map c_w (pick_from bw mx from num q)) <= pq_weight q.
Proof.
  intros bw mx from. induction num as [|n IH]; intros q HQ; cbn [pick_from].
  - cbn. unfold pq_weight. apply zsum_nonneg. intros x Hx. apply in_map_iff in Hx. destruct Hx as (e & <- & He). apply HQ. exact He.
  - destruct (pop_max q) as [[[key u] r]|] eqn:E.
    + apply remove_best_perm in E. rewrite (pq_weight_perm _ _ E), pq_weight_cons. cbn [map zsum c_w snd].
      assert (zsum (map c_w (pick_from bw mx from n r)) <= pq_weight r); [|lia]. apply IH. intros e He. apply HQ. eapply Permutation_in; [apply Permutation_sym, E|right; exact He].
    + cbn. unfold pq_weight. apply zsum_nonneg. intros x Hx. apply in_map_iff in Hx. destruct Hx as (e & <- & He). apply HQ. exact He.
Qed.

Lemma max_gainer_block : forall bw mx from u, (from < length bw)%nat -> (fst (max_gainer bw mx from u) < length bw)%nat.
Proof.
  intros bw mx from u Hf. unfold max_gainer.
  assert (G : forall l (best : nat * Z), (forall b, In b l -> b < length bw)%nat -> (fst best < length bw)%nat ->
    (fst (fold_left (fun (best : nat * Z) b => let c := nth b (l_conn u) 0%Z in
        if negb (b =? from)%nat && (nth b bw 0 + l_w u <=? nth b mx 0)%Z && (snd best <? c)%Z then (b, c) else best) l best) < length bw)%nat).
  { induction l as [|b t IH]; intros best HL HB; [exact HB|]. cbn [fold_left]. apply IH; [intros x Hx; apply HL; right; exact Hx|].
    destruct (_ && _)%bool; [apply HL; left; reflexivity|exact HB]. }
  apply G; [intros b Hb; apply in_seq in Hb; lia|exact Hf].
Qed.

Section Propose.
Variables bw mx : list Z.
Variables k num : nat.
Hypothesis Hbw : length bw = k.
Variable nodes : nat -> list lnode.
Hypothesis HN : forall b u, (b < k)%nat -> In u (nodes b) -> 0 <= l_w u.

Definition group (b : nat) : list cand :=
  let o := nth b bw 0 - nth b mx 0 in if 0 <? o then pick_from bw mx b num (build_pq bw mx b o (nodes b)) else [].
Lemma propose_groups : propose bw mx num nodes = flat_map group (seq 0 k).
Proof. unfold propose. rewrite Hbw. reflexivity. Qed.
Lemma group_from : forall b c, In c (group b) -> c_from c = b /\ nth b mx 0 < nth b bw 0 /\
  exists u, In u (nodes b) /\ c_w c = l_w u /\ c_to c = fst (max_gainer bw mx b u).
Proof.
  intros b c Hc. unfold group in Hc. cbn zeta in Hc. destruct (Z.ltb_spec 0 (nth b bw 0 - nth b mx 0)); [|destruct Hc].
  apply pick_from_ok in Hc. destruct Hc as (e & He & H1 & H2 & H3). split; [exact H1|]. split; [lia|]. exists (snd e). split; [apply (build_nodes _ _ _ _ _ e He)|]. split; assumption.
Qed.
Lemma groups_sorted : forall n s, sorted_from (flat_map group (seq s n)).
Proof.
  induction n as [|n IH]; intros s; [constructor|]. cbn [seq flat_map]. apply sorted_app. split; [apply (same_from_sorted s); intros c Hc; apply group_from; exact Hc|].
  split; [apply IH|]. intros x y Hx Hy. apply group_from in Hx. apply in_flat_map in Hy. destruct Hy as (b & Hb & Hy). apply in_seq in Hb. apply group_from in Hy. lia.
Qed.
Lemma propose_sorted : sorted_from (propose bw mx num nodes).
Proof. rewrite propose_groups. apply groups_sorted. Qed.
Lemma propose_ok : forall c, In c (propose bw mx num nodes) -> cand_ok k c /\ nth (c_from c) mx 0 < nth (c_from c) bw 0 /\ exists u, In u (nodes (c_from c)) /\ c_w c = l_w u.
Proof.
  intros c Hc. rewrite propose_groups in Hc. apply in_flat_map in Hc. destruct Hc as (b & Hb & Hc). apply in_seq in Hb.
  apply group_from in Hc. destruct Hc as (H0 & H1 & u & H2 & H3 & H4). split; [|rewrite H0; split; [exact H1|exists u; split; assumption]].
  split; [lia|]. split; [rewrite H4, <- Hbw; apply max_gainer_block; lia|]. rewrite H3. apply (HN b); [lia|exact H2].
Qed.
Lemma propose_unit : (forall b u, (b < k)%nat -> In u (nodes b) -> l_w u = 1) -> out_bounded bw mx 1 (propose bw mx num nodes).
Proof.
  intros HU c Hc. destruct (propose_ok c Hc) as ((Hf & _ & _) & Ho & _). rewrite propose_groups in *.
  assert (G : forall n s b, (s <= b < s + n)%nat -> outof (flat_map group (seq s n)) b = zsum (map c_w (group b))).
  { induction n as [|n IH]; intros s b Hb; [lia|]. cbn [seq flat_map]. rewrite outof_app. destruct (Nat.eq_dec s b) as [->|E].
    - rewrite outof_all by (intros d Hd; apply group_from; exact Hd). rewrite outof_none; [lia|]. intros d Hd. apply in_flat_map in Hd. destruct Hd as (b' & Hb' & Hd). apply in_seq in Hb'. apply group_from in Hd. lia.
    - rewrite IH by lia. rewrite outof_none; [lia|]. intros d Hd. apply group_from in Hd. lia. }
  rewrite G by lia. set (b := c_from c) in *. unfold group. cbn zeta. destruct (Z.ltb_spec 0 (nth b bw 0 - nth b mx 0)); [|lia].
  eapply Z.le_trans; [apply pick_from_weight|].
  - intros e He. apply build_nodes in He. apply (HN b); assumption.
  - eapply Z.le_trans; [apply build_unit; [lia|]|lia]. intros u Hu. apply (HU b); assumption.
Qed.
End Propose.

(** ** Complete rounds *)
Theorem unit_round : forall (sy : nat -> nat -> bool) P k num per_block srt bw mx perfect (nodes : nat -> nat -> list lnode),
  (0 < P)%nat -> (2 <= k)%nat -> length bw = k -> length mx = k -> (forall l, Permutation (srt l) l) ->
  (forall r b u, (r < P)%nat -> (b < k)%nat -> In u (nodes r b) -> l_w u = 1) ->
  zsum bw <= perfect * Z.of_nat k -> (forall b, (b < k)%nat -> perfect <= nth b mx 0) ->
  exists ws ws' bw', always_returns (map (fun r => reduce_candidates sy bw mx per_block srt k P r (propose bw mx num (nodes r))) (seq 0 P))
                                    (fun r => if (r =? 0)%nat then Some (Some ws) else None) /\
    root_moves k mx k ws bw = Some (ws', bw') /\ perform_moves ws' bw = Some bw' /\
    forall b, (b < k)%nat -> nth b bw' 0 <= Z.max (nth b mx 0) (nth b bw 0).
Proof.
  intros sy P k num per_block srt bw mx perfect nodes HP Hk Hbw Hmx Hs HU HS HM.
  assert (HN : forall r, (r < P)%nat -> forall b u, (b < k)%nat -> In u (nodes r b) -> 0 <= l_w u) by (intros r Hr b u Hb Hu; rewrite (HU r b u Hr Hb Hu); lia).
  destruct (reduce_ok bw mx per_block k srt Hs Hbw Hmx sy P (fun r => propose bw mx num (nodes r)) HP) as (v & R & out & rest & -> & PW & SW & CW & OW).
  { intros r c Hr Hc. apply (propose_ok bw mx k num Hbw (nodes r) (HN r Hr) c Hc). }
  { intros r Hr. eapply propose_sorted; [exact Hbw|exact (HN r Hr)]. }
  assert (HI : forall c, In c out -> exists r, (r < P)%nat /\ In c (propose bw mx num (nodes r))).
  { intros c Hc. assert (X : In c (flat_map (fun r => propose bw mx num (nodes r)) (seq 0 P))) by (eapply Permutation_in; [exact PW|apply in_app_iff; left; exact Hc]).
    apply in_flat_map in X. destruct X as (r & Hr & X). apply in_seq in Hr. exists r. split; [lia|exact X]. }
  assert (HB : blocks_ok k out).
  { intros c Hc. destruct (HI c Hc) as (r & Hr & X). destruct (propose_ok bw mx k num Hbw (nodes r) (HN r Hr) c X) as ((A & B & _) & _). split; assumption. }
  assert (HW : forall c, In c out -> 0 <= c_w c <= 1).
  { intros c Hc. destruct (HI c Hc) as (r & Hr & X). destruct (propose_ok bw mx k num Hbw (nodes r) (HN r Hr) c X) as ((A & _) & _ & u & Hu & ->). rewrite (HU r (c_from c) u Hr A Hu). lia. }
  destruct (root_returns mx k Hmx out bw perfect 1 Hbw Hk) as (ws' & bw' & E); try assumption; [lia|intros b Hb; specialize (HM b Hb); lia| |].
  { apply OW; [lia| |].
    - intros r c Hr Hc. apply in_seq in Hr. destruct (propose_ok bw mx k num Hbw (nodes r) (HN r ltac:(lia)) c Hc) as ((A & _) & B & u & Hu & ->).
      rewrite (HU r (c_from c) u ltac:(lia) A Hu). split; [lia|exact B].
    - intros r Hr. apply in_seq in Hr. apply (propose_unit bw mx k num Hbw (nodes r) (HN r ltac:(lia))). intros b u Hb Hu. apply (HU r b u); [lia|exact Hb|exact Hu]. }
  exists out, ws', bw'. split; [exact R|]. split; [exact E|].
  destruct (root_safe mx k Hmx k out bw ws' bw' Hbw HB (fun c Hc => proj1 (HW c Hc)) CW E) as (_ & _ & _ & _ & Q & N). split; [exact Q|]. intros b Hb. apply N. exact Hb.
Qed.

(** ** A round that never ends: twenty nodes of weight one and three of weight ten in a block with five too much *)
Definition hang_nodes (b : nat) : list lnode :=
  match b with
  | 0%nat => map (fun i => LNode i 1 [1; 0]) (seq 0 20) ++ map (fun i => LNode i 10 [2; 0]) (seq 20 3)
  | 1%nat => map (fun i => LNode i 1 [0; 1]) (seq 23 20)
  | _ => []
  end.
Lemma no_room : forall fuel mx bw from w cur, next_block fuel mx bw 2 from w cur = None \/
  (exists b, (b < length bw)%nat /\ b <> from /\ nth b bw 0 + w <= nth b mx 0).
Proof.
  induction fuel as [|f IH]; intros mx bw from w cur; [left; reflexivity|]. cbn [next_block].
  destruct (nth_error bw cur) as [x|] eqn:E1; [|left; reflexivity]. destruct (nth_error mx cur) as [m|] eqn:E2; [|left; reflexivity].
  destruct ((cur =? from)%nat || (m <? x + w))%bool eqn:T; [apply IH|]. right. exists cur. apply Bool.orb_false_iff in T. destruct T as [T1 T2].
  apply Nat.eqb_neq in T1. apply Z.ltb_ge in T2. rewrite (nth_error_nth _ _ 0 E1), (nth_error_nth _ _ 0 E2). split; [|split; assumption].
  apply nth_error_Some. rewrite E1. discriminate.
Qed.
Lemma hang_loops : forall fuel, root_moves fuel [45; 45] 2 (propose [50; 20] [45; 45] 5 hang_nodes) [50; 20] = None.
Proof.
  intros fuel.
  assert (E : map (fun c => (c_from c, c_to c, c_w c)) (propose [50; 20] [45; 45] 5 hang_nodes) = [(0, 0, 10%Z); (0, 0, 10%Z); (0, 0, 10%Z); (0, 0, 1%Z); (0, 0, 1%Z)]%nat) by (vm_compute; reflexivity).
  destruct (propose [50; 20] [45; 45] 5 hang_nodes) as [|c1 [|c2 [|c3 [|c4 [|c5 [|]]]]]]; try discriminate E.
  injection E as F1 T1 W1 F2 T2 W2 F3 T3 W3 F4 T4 W4 F5 T5 W5.
  unfold root_moves. cbn [filter]. rewrite F1, T1, F2, T2, F3, T3, F4, T4, F5, T5. cbn [Nat.eqb negb perform_moves place].
  rewrite F1, T1, F2, T2, F3, T3, W1, W2, W3. cbn [Nat.eqb].
  destruct fuel as [|[|fuel]]; [reflexivity|reflexivity|].
  set (f2 := S (S fuel)).
  assert (N1 : next_block f2 [45; 45] [50; 20] 2 0 10 0 = Some 1%nat) by reflexivity. rewrite N1. cbn [move_weight c_from c_to c_w]. 
  set (b1 := move_weight _ _). assert (B1 : b1 = Some [40; 30]) by reflexivity. rewrite B1.
  assert (N2 : next_block f2 [45; 45] [40; 30] 2 0 10 1 = Some 1%nat) by reflexivity. rewrite N2.
  set (b2 := move_weight _ _). assert (B2 : b2 = Some [30; 40]) by reflexivity. rewrite B2.
  destruct (no_room f2 [45; 45] [30; 40] 0 10 1) as [->|(b & H1 & H2 & H3)]; [reflexivity|].
  cbn in H1. assert (b = 1)%nat by lia. subst b. cbn in H3. lia.
Qed.
Theorem round_hangs : exists (bw mx : list Z) (nodes : nat -> list lnode),
  (forall b, (b < 2)%nat -> nth b bw 0 = zsum (map l_w (nodes b)) /\ nth b mx 0 = zsum bw / 2 + 10 /\ forall u, In u (nodes b) -> 1 <= l_w u <= 10) /\
  forall (sy : nat -> nat -> bool) per_block srt, exists ws,
    always_returns [reduce_candidates sy bw mx per_block srt 2 1 0 (propose bw mx 5 nodes)] (fun _ => Some (Some ws)) /\
    forall fuel, root_moves fuel mx 2 ws bw = None.
Proof.
  exists [50; 20], [45; 45], hang_nodes. split.
  - intros b Hb. assert (b = 0 \/ b = 1)%nat as [->| ->] by lia; (split; [reflexivity|]; split; [reflexivity|]); intros u Hu;
      cbn [hang_nodes] in Hu; repeat (apply in_app_iff in Hu; destruct Hu as [Hu|Hu]); apply in_map_iff in Hu; destruct Hu as (i & <- & _); cbn; lia.
  - intros sy per_block srt. exists (propose [50; 20] [45; 45] 5 hang_nodes). split; [|exact hang_loops].
    assert (E : combine_cands [50; 20] [45; 45] per_block srt 2 (propose [50; 20] [45; 45] 5 hang_nodes) [] = Some (propose [50; 20] [45; 45] 5 hang_nodes)) by (vm_compute; reflexivity).
    exists 0%nat. intros sched s H. unfold reduce_candidates, reduce_prog in *. cbn [Nat.eqb combine_opt] in H. rewrite E in H.
    destruct sched as [|r t].
    + injection H as <-. split; [cbn; lia|]. intros _. reflexivity.
    + exfalso. cbn [run] in H. destruct r as [|[|r]]; cbn in H; discriminate.
Qed.

(** ** Statements without section variables *)
Theorem reduction_safe : forall (sy : nat -> nat -> bool) P k per_block srt bw mx (x : nat -> list cand),
  (0 < P)%nat -> length bw = k -> length mx = k -> (forall l, Permutation (srt l) l) ->
  (forall r c, (r < P)%nat -> In c (x r) -> (c_from c < k)%nat /\ (c_to c < k)%nat /\ 0 <= c_w c) -> (forall r, (r < P)%nat -> sorted_from (x r)) ->
  exists ws rest, always_returns (map (fun r => reduce_candidates sy bw mx per_block srt k P r (x r)) (seq 0 P)) (fun r => if (r =? 0)%nat then Some (Some ws) else None) /\
    Permutation (ws ++ rest) (flat_map x (seq 0 P)) /\ sorted_from ws /\ compatible bw mx ws.
Proof.
  intros sy P k per_block srt bw mx x HP Hbw Hmx Hs HT HS.
  destruct (reduce_ok bw mx per_block k srt Hs Hbw Hmx sy P x HP HT HS) as (v & R & out & rest & -> & A & B & C & _).
  exists out, rest. repeat split; assumption.
Qed.
Theorem reduction_bounded : forall (sy : nat -> nat -> bool) P k per_block srt bw mx perfect maxw (x : nat -> list cand),
  (0 < P)%nat -> (2 <= k)%nat -> 1 <= maxw -> length bw = k -> length mx = k -> (forall l, Permutation (srt l) l) ->
  (forall r c, (r < P)%nat -> In c (x r) -> (c_from c < k)%nat /\ (c_to c < k)%nat /\ 0 <= c_w c <= maxw /\ nth (c_from c) mx 0 < nth (c_from c) bw 0) ->
  (forall r, (r < P)%nat -> sorted_from (x r) /\ out_bounded bw mx maxw (x r)) ->
  zsum bw <= perfect * Z.of_nat k -> (forall b, (b < k)%nat -> perfect + maxw - 1 <= nth b mx 0) ->
  exists ws ws' bw', always_returns (map (fun r => reduce_candidates sy bw mx per_block srt k P r (x r)) (seq 0 P)) (fun r => if (r =? 0)%nat then Some (Some ws) else None) /\
    root_moves k mx k ws bw = Some (ws', bw').
Proof.
  intros sy P k per_block srt bw mx perfect maxw x HP Hk Hm Hbw Hmx Hs HT HS HZ HM.
  destruct (reduce_ok bw mx per_block k srt Hs Hbw Hmx sy P x HP) as (v & R & out & rest & -> & A & B & C & D).
  { intros r c Hr Hc. destruct (HT r c Hr Hc) as (T1 & T2 & T3 & _). repeat split; try assumption; lia. } { intros r Hr. apply HS. exact Hr. }
  assert (HI : forall c, In c out -> exists r, (r < P)%nat /\ In c (x r)).
  { intros c Hc. assert (X : In c (flat_map x (seq 0 P))) by (eapply Permutation_in; [exact A|apply in_app_iff; left; exact Hc]).
    apply in_flat_map in X. destruct X as (r & Hr & X). apply in_seq in Hr. exists r. split; [lia|exact X]. }
  destruct (root_returns mx k Hmx out bw perfect maxw Hbw Hk Hm) as (ws' & bw' & E); try assumption.
  - intros c Hc. destruct (HI c Hc) as (r & Hr & X). destruct (HT r c Hr X) as (T1 & T2 & _). split; assumption.
  - intros c Hc. destruct (HI c Hc) as (r & Hr & X). apply (HT r c Hr X).
  - apply D; [lia| |].
    + intros r c Hr Hc. apply in_seq in Hr. destruct (HT r c ltac:(lia) Hc) as (_ & _ & T3 & T4). split; [lia|exact T4].
    + intros r Hr. apply in_seq in Hr. apply HS. lia.
  - exists out, ws', bw'. split; assumption.
Qed.
(** A small case: two ranks, three blocks with limit 10. Two nodes of block 0 compete for the room in block 1. *)
Definition ex_bw : list Z := [14; 8; 5].
Definition ex_mx : list Z := [10; 10; 10].
Definition ex_x (r : nat) : list cand := match r with 0%nat => [Cand 0 0 1 2 3; Cand 1 0 0 1 0] | _ => [Cand 7 0 1 1 5] end.
Definition ex_srt (l : list cand) : list cand := l.
Lemma ex_x_ok : (forall r c, (r < 2)%nat -> In c (ex_x r) -> (c_from c < 3)%nat /\ (c_to c < 3)%nat /\ 0 <= c_w c) /\ (forall r, (r < 2)%nat -> sorted_from (ex_x r)).
Proof.
  split.
  - intros r c Hr Hc. destruct r as [|r]; cbn in Hc; intuition (subst; cbn; lia).
  - intros [|r] _; cbn; repeat constructor; cbn; lia.
Qed.
