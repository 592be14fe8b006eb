(* The invariant of the priority queues of the 2-way FM refinement. *)
From Verif Require Import Lib.Prelude Spec.Graph Spec.Gain Spec.InitialSpec Model.InitialFmModel Proofs.GraphFacts Proofs.GainBase.

(** Weight of the edges listed in [l] that lead to [v]. *)
Definition restw (l : list (nat * Z)) (v : nat) : Z := zsum (map snd (filter (fun e => fst e =? v) l)).

Lemma restw_cons x w l v : restw ((x, w) :: l) v = ((if Nat.eqb x v then w else 0) + restw l v)%Z.
Proof. unfold restw. cbn [filter map fst]. destruct (x =? v); cbn [map zsum snd]; lia. Qed.
Lemma restw_app a b v : restw (a ++ b) v = (restw a v + restw b v)%Z.
Proof. unfold restw. rewrite filter_app, map_app, zsum_app. reflexivity. Qed.
Lemma restw_nonneg l v : (forall x w, In (x, w) l -> 0 <= w)%Z -> (0 <= restw l v)%Z.
Proof.
  intros H. unfold restw. apply zsum_nonneg. intros y Hy. apply in_map_iff in Hy. destruct Hy as [[x w] [<- Hi]].
  apply filter_In in Hi. destruct Hi as [Hi _]. cbn. eauto.
Qed.

Section Queues.
Variable g : graph.
Hypothesis Hcl : closed_graph g.
Hypothesis Hund : undirected g.
Hypothesis Hnn : nonneg_edges g.
Hypothesis Hloop : loop_free g.

Let n := gn g.
Let wdeg (v : nat) : Z := zsum (map snd (gadj g v)).

(** External degree of [v]. *)
Definition ext (p : nat -> nat) (v : nat) : Z :=
  zsum (map (fun e => if p (fst e) =? p v then 0%Z else snd e) (gadj g v)).

Lemma wd_nth v : v < n -> nth v (init_weighted_degrees g) 0%Z = wdeg v.
Proof using All. intros H. unfold init_weighted_degrees. rewrite nth_map_seq by exact H. reflexivity. Qed.

Lemma no_conn u : u < n -> conn g u u = 0%Z.
Proof using All.
  intros H. unfold conn. assert (E : filter (fun e => fst e =? u) (gadj g u) = []); [|rewrite E; reflexivity].
  destruct (filter _ _) as [|[v w] l] eqn:E; auto. exfalso.
  assert (Hi : In (v, w) (filter (fun e => fst e =? u) (gadj g u))) by (rewrite E; left; reflexivity).
  apply filter_In in Hi. destruct Hi as [Hi He]. cbn in He. apply Nat.eqb_eq in He. subst v. exact (Hloop u w H Hi).
Qed.

Lemma ext_nonneg p v : v < n -> (0 <= ext p v)%Z.
Proof using All.
  intros H. apply zsum_nonneg. intros y Hy. apply in_map_iff in Hy. destruct Hy as [[x w] [<- Hi]]. cbn [fst snd].
  destruct (_ =? _); [lia|]. eapply Hnn; eauto.
Qed.
Lemma ext_ext p q v : v < n -> (forall u, u < n -> p u = q u) -> ext p v = ext q v.
Proof using All.
  intros H E. unfold ext. apply zsum_map_ext. intros [x w] Hi. cbn [fst snd].
  rewrite (E x), (E v); auto. eapply Hcl; eauto.
Qed.

(** External degree through the connections to the two blocks. *)
Lemma ext_blocks p v : v < n -> (forall u, u < n -> p u < 2) ->
  ext p v = block_conn g p v (1 - p v) /\ (wdeg v - ext p v)%Z = block_conn g p v (p v).
Proof using All.
  intros Hv Hp. rewrite !block_conn_if. unfold ext, wdeg.
  assert (Hin : forall x w, In (x, w) (gadj g v) -> p x < 2) by (intros; eapply Hp, Hcl; eauto).
  specialize (Hp v Hv). revert Hin. generalize (gadj g v) as l.
  induction l as [|[x w] l IH]; intros Hin; [split; reflexivity|]. cbn [map zsum fst snd].
  destruct IH as [I1 I2]; [intros; eapply Hin; right; eauto|].
  specialize (Hin x w (or_introl eq_refl)).
  destruct (Nat.eqb_spec (p x) (p v)), (Nat.eqb_spec (p x) (1 - p v)); try lia.
Qed.

(** A move changes the cut by the internal degree less the external degree. *)
Lemma move_cut p u : u < n -> (forall v, v < n -> p v < 2) ->
  cut_weight g (relabel p u (1 - p u)) = (cut_weight g p + (wdeg u - 2 * ext p u))%Z.
Proof using All.
  intros Hu Hp. pose proof (gain_is_cut_decrease g p u (1 - p u) Hcl Hund Hu (no_conn u Hu)) as E.
  destruct (ext_blocks p u Hu Hp) as [E1 E2]. lia.
Qed.

(** How a move of [u] changes the external degree of another node. *)
Lemma ext_move p u v : u < n -> v < n -> u <> v -> (forall x, x < n -> p x < 2) ->
  ext (relabel p u (1 - p u)) v = (ext p v + (if Nat.eqb (1 - p u) (p v) then - restw (gadj g u) v else restw (gadj g u) v))%Z.
Proof using All.
  intros Hu Hv Hne Hp. set (q := relabel p u (1 - p u)).
  assert (Hq : forall x, x < n -> q x < 2).
  { intros x Hx. unfold q, relabel. destruct (x =? u); [lia|auto]. }
  assert (Eqv : q v = p v). { unfold q, relabel. destruct (Nat.eqb_spec v u); [congruence|reflexivity]. }
  destruct (ext_blocks q v Hv Hq) as [E1 _]. destruct (ext_blocks p v Hv Hp) as [E2 _].
  rewrite E1, E2, Eqv. unfold q. rewrite block_conn_relabel by auto.
  change (restw (gadj g u) v) with (conn g u v). rewrite (Hund u v Hu Hv).
  pose proof (Hp u Hu). pose proof (Hp v Hv).
  destruct (Nat.eqb_spec (1 - p u) (1 - p v)), (Nat.eqb_spec (p u) (1 - p v)), (Nat.eqb_spec (1 - p u) (p v)); lia.
Qed.

(** The queues are consistent with the external degrees [e]: marked nodes are in no queue, an unmarked node is in no queue
    of the other block, and if it is not in the queue of its block, it has no external edges. *)
Definition qinv (lab : list nat) (mark : list bool) (qs : list heap) (e : nat -> Z) : Prop :=
  length qs = 2 /\ (forall b, b < 2 -> length (nth b qs []) = n) /\
  forall v, v < n ->
    if nth v mark false then forall b, b < 2 -> nth v (nth b qs []) None = None
    else nth v (nth (1 - nth v lab 0) qs []) None = None /\
         match nth v (nth (nth v lab 0) qs []) None with
         | Some key => key = (wdeg v - 2 * e v)%Z
         | None => e v = 0%Z
         end.

Lemma update_neighbor_ok lab mark to qs x w e e' :
  qinv lab mark qs e -> x < n -> (forall v, v < n -> nth v lab 0 < 2) ->
  (forall v, v < n -> nth v mark false = false -> v <> x -> e' v = e v) ->
  (nth x mark false = false -> e' x = (e x - (if Nat.eqb to (nth x lab 0%nat) then 1 else -1) * w)%Z) ->
  (nth x mark false = false -> (0 <= e' x)%Z) ->
  exists qs', update_neighbor (init_weighted_degrees g) lab mark to qs (x, w) = Some qs' /\ qinv lab mark qs' e'.
Proof using All.
  intros (L1 & L2 & Q) Hx Hb He1 He2 He3. cbn [update_neighbor].
  destruct (nth x mark false) eqn:Em.
  { exists qs. split; auto. split; auto. split; auto. intros v Hv. specialize (Q v Hv).
    destruct (nth v mark false) eqn:Emv; auto. destruct Q as [Q1 Q2]. split; auto.
    rewrite (He1 v Hv Emv) by congruence. exact Q2. }
  specialize (He2 eq_refl). specialize (He3 eq_refl).
  pose proof (Q x Hx) as Qx. rewrite Em in Qx. destruct Qx as [Q1 Q2]. rewrite wd_nth by exact Hx.
  set (vb := nth x lab 0) in *. set (q := nth vb qs []) in *.
  assert (Hvb : vb < 2) by (apply Hb; exact Hx).
  assert (HL : vb < length qs) by lia.
  assert (Lq : length q = n) by (apply L2; exact Hvb).
  (* replacing the entry of x *)
  assert (K : forall o, match o with Some key => key = (wdeg x - 2 * e' x)%Z | None => e' x = 0%Z end ->
              qinv lab mark (upd vb (upd x o q) qs) e').
  { intros o Ho. split; [rewrite upd_length; exact L1|]. split.
    - intros b Hb2. rewrite upd_nth. destruct (Nat.eqb_spec vb b); cbn [andb]; [|apply L2; exact Hb2].
      destruct (vb <? length qs); [rewrite upd_length; exact Lq|apply L2; exact Hb2].
    - intros v Hv. specialize (Q v Hv).
      assert (Other : forall b, b < 2 -> v <> x \/ b <> vb ->
                nth v (nth b (upd vb (upd x o q) qs) []) None = nth v (nth b qs []) None).
      { intros b Hb2 Hd. destruct (Nat.eq_dec vb b) as [<-|Hne]; [|rewrite upd_nth_other by exact Hne; reflexivity].
        rewrite upd_nth_same by exact HL. apply upd_nth_other. intros ->. destruct Hd; congruence. }
      destruct (nth v mark false) eqn:Emv.
      + assert (Hvx : v <> x) by congruence. intros b Hb2. rewrite Other by auto. apply Q. exact Hb2.
      + destruct (Nat.eq_dec v x) as [->|Hvx].
        * fold vb in Q |- *. split; [rewrite Other by lia; apply Q|].
          rewrite upd_nth_same by exact HL. rewrite upd_nth_same; [exact Ho|unfold heap in *; lia].
        * pose proof (Hb v Hv). rewrite !Other by lia. rewrite (He1 v Hv Emv Hvx). exact Q. }
  destruct (nth x q None) as [key|] eqn:Ek.
  - destruct (Z.ltb_spec (key + 2 * w * (if Nat.eqb to vb then 1 else -1))%Z (wdeg x)).
    + eexists. split; [reflexivity|]. apply K. destruct (to =? vb); lia.
    + eexists. split; [reflexivity|]. unfold remove. apply K. destruct (to =? vb); lia.
  - unfold push. rewrite (nth_error_nth' q None) by (unfold heap in *; lia). rewrite Ek.
    eexists. split; [reflexivity|]. apply K. destruct (to =? vb); lia.
Qed.

(** Updating all neighbours of a moved node turns external degrees before the move into those after it. *)
Lemma update_neighbors_ok lab mark to u : u < n -> nth u mark false = true -> (forall v, v < n -> nth v lab 0 < 2) ->
  nth u lab 0 = to ->
  let p' := fun v => nth v lab 0 in
  forall l l0 qs, gadj g u = l0 ++ l ->
  qinv lab mark qs (fun v => ext p' v + (if Nat.eqb to (p' v) then restw l v else - restw l v))%Z ->
  exists qs', update_neighbors (init_weighted_degrees g) lab mark to qs l = Some qs' /\ qinv lab mark qs' (ext p').
Proof using All.
  intros Hu Hm Hb Hto p'. induction l as [|[x w] l IH]; intros l0 qs Eg Q.
  - exists qs. split; [reflexivity|]. destruct Q as (L1 & L2 & Q). split; auto. split; auto. intros v Hv. specialize (Q v Hv).
    destruct (nth v mark false); auto. destruct Q as [Q1 Q2]. split; auto. unfold restw in Q2. cbn [filter map zsum] in Q2.
    destruct (to =? p' v); [rewrite Z.add_0_r in Q2|change (- 0)%Z with 0%Z in Q2; rewrite Z.add_0_r in Q2]; exact Q2.
  - cbn [update_neighbors].
    assert (Hxi : In (x, w) (gadj g u)) by (rewrite Eg; apply in_or_app; right; left; reflexivity).
    assert (Hx : x < n) by (eapply Hcl; eauto).
    assert (Hxu : x <> u) by (intros ->; eapply Hloop; eauto).
    edestruct (update_neighbor_ok lab mark to qs x w _
                 (fun v => ext p' v + (if Nat.eqb to (p' v) then restw l v else - restw l v))%Z Q Hx Hb)
      as (qs' & E' & Q').
    + intros v Hv Hmv Hvx. cbn beta. rewrite restw_cons. destruct (Nat.eqb_spec x v); [congruence|].
      destruct (to =? p' v); lia.
    + intros _. cbn beta. rewrite restw_cons, Nat.eqb_refl. change (nth x lab 0) with (p' x). destruct (to =? p' x); lia.
    + intros _. cbn beta. pose proof (ext_nonneg p' x Hx) as Ne.
      assert (Nr : (0 <= restw l x)%Z).
      { apply restw_nonneg. intros y z Hy. eapply Hnn; [exact Hu|]. rewrite Eg. apply in_or_app. right. right. exact Hy. }
      destruct (Nat.eqb_spec to (p' x)) as [|Hd]; [lia|].
      assert (Ec : (restw (gadj g u) x <= ext p' x)%Z).
      { change (restw (gadj g u) x) with (conn g u x). rewrite (Hund u x Hu Hx). unfold conn, ext. rewrite zsum_filter.
        apply zsum_map_le. intros [y z] Hy. cbn [fst snd]. pose proof (Hnn x y z Hx Hy).
        destruct (Nat.eqb_spec y u) as [->|]; [|destruct (_ =? _); lia].
        change (nth u lab 0) with (p' u) in Hto. destruct (Nat.eqb_spec (p' u) (p' x)); [congruence|lia]. }
      rewrite Eg, restw_app, restw_cons, Nat.eqb_refl in Ec.
      assert ((0 <= restw l0 x)%Z).
      { apply restw_nonneg. intros y z Hy. eapply Hnn; [exact Hu|]. rewrite Eg. apply in_or_app. left. exact Hy. }
      pose proof (Hnn u x w Hu Hxi). lia.
    + rewrite E'. apply (IH (l0 ++ [(x, w)])); [rewrite <- app_assoc; exact Eg|exact Q'].
Qed.
End Queues.
