(* First phase of unbuffered contraction: invariant over all interleavings. *)
From Verif Require Import Lib.Prelude Lib.Count Spec.Graph Spec.Quotient Spec.RatingMap Model.CsrModel Model.RatingMapModel Model.ContractModel Model.UnbufModel.
From Verif Require Import Proofs.CsrProofs Proofs.PermProofs Proofs.RatingMapProofs Proofs.QuotientProofs Proofs.ContractPreProofs Proofs.ContractProofs Proofs.UnbufProofs.

Lemma concat_upd_perm {A} (l : list (list A)) t x : t < length l -> Permutation (nth t l [] ++ concat (upd t x l)) (x ++ concat l).
Proof.
  revert t. induction l as [|a l IH]; intros t Ht; [cbn in Ht; lia|]. destruct t as [|t].
  - simpl. rewrite !app_assoc. apply Permutation_app_tail, Permutation_app_comm.
  - simpl. cbn in Ht. specialize (IH t ltac:(lia)). rewrite !app_assoc. rewrite (Permutation_app_comm (nth t l []) a), (Permutation_app_comm x a).
    rewrite <- !app_assoc. apply Permutation_app_head, IH.
Qed.

Lemma concat_all_nil {A} (l : list (list A)) : (forall x, In x l -> x = []) -> concat l = [].
Proof. induction l as [|a l IH]; intros H; [reflexivity|]. cbn. rewrite (H a (or_introl eq_refl)), IH; [reflexivity|]. intros x Hx. apply H. right. exact Hx. Qed.

Lemma existsb_In x l : existsb (Nat.eqb x) l = true <-> In x l.
Proof.
  rewrite existsb_exists. split; [intros (y & Hy & E); apply Nat.eqb_eq in E; subst; exact Hy|intros H; exists x; split; [exact H|apply Nat.eqb_refl]].
Qed.

Lemma NoDup_app {A} (a b : list A) : NoDup a -> NoDup b -> (forall x, In x a -> In x b -> False) -> NoDup (a ++ b).
Proof.
  intros Ha Hb H. induction Ha as [|x a Hx Ha IH]; [exact Hb|]. cbn [app]. constructor.
  - rewrite in_app_iff. intros [Hi|Hi]; [exact (Hx Hi)|exact (H x (or_introl eq_refl) Hi)].
  - apply IH. intros y Hy. apply H. right. exact Hy.
Qed.
Lemma NoDup_app_l {A} (a b : list A) : NoDup (a ++ b) -> NoDup a.
Proof. induction a as [|x a IH]; intros H; [constructor|]. cbn in H. inversion H as [|? ? Hx H']; subst. constructor; [|apply IH, H']. intros Hi. apply Hx, in_or_app. left. exact Hi. Qed.

Lemma nodup_sum_le (f : nat -> nat) n l : NoDup l -> (forall x, In x l -> x < n) -> list_sum (map f l) <= psum f n.
Proof.
  intros HN Hl. set (rest := filter (fun x => negb (existsb (Nat.eqb x) l)) (seq 0 n)).
  assert (P : Permutation (seq 0 n) (l ++ rest)).
  { apply NoDup_Permutation; [apply seq_NoDup| |].
    - apply NoDup_app; [exact HN|apply NoDup_filter, seq_NoDup|]. intros x Hx Hr. apply filter_In in Hr. destruct Hr as [_ Hr].
      rewrite (proj2 (existsb_In x l) Hx) in Hr. discriminate.
    - intros x. rewrite in_app_iff. unfold rest. rewrite filter_In. split.
      + intros H. destruct (existsb (Nat.eqb x) l) eqn:E; [left; apply existsb_In, E|right; split; [exact H|reflexivity]].
      + intros [H|[H _]]; [apply in_seq; specialize (Hl x H); lia|exact H]. }
  assert (Gs : forall a b, Permutation a b -> list_sum a = list_sum b) by (intros a b Q; induction Q; rewrite ?ls_cons; lia).
  unfold psum. rewrite (Gs _ _ (Permutation_map f P)), map_app, list_sum_app. lia.
Qed.

Section M.
Variables (MAXN MAXE T c_n m : nat) (wt : nat -> Z) (agg : nat -> option (option (list (nat * Z)))).
Variables (good : nat -> list (nat * Z) -> Prop) (fd : nat -> nat).
Hypothesis Hagg : forall c, c < c_n -> exists r, agg c = Some r /\ forall E, r = Some E -> good c E.
Hypothesis Hgood : forall c E, c < c_n -> good c E -> length E <= fd c.
Hypothesis Hm : psum fd c_n <= m.

Record minv (st : ust) (asg : list rcd) (P : list wr) : Prop := mkMinv {
  mi_c : u_c st = length asg;
  mi_e : u_e st = rdeg asg;
  mi_pl : length (u_pend st) = T;
  mi_w : Permutation (P ++ concat (u_pend st)) (asg_writes wt 0 0 asg);
  mi_mem : u_mem st = run_stores P }.

Lemma do_write_ok st asg P t : minv st asg P -> fits c_n m asg ->
  do_write c_n m st t = Bad \/ exists st' P', do_write c_n m st t = Ok st' /\ minv st' asg P' /\ u_buf st' = u_buf st /\ u_done st' = u_done st /\ u_second st' = u_second st.
Proof using T c_n m wt.
  clear Hagg Hgood Hm good fd agg.
  intros [I1 I2 I3 I4 I5] HF. unfold do_write. destruct (nth t (u_pend st) []) as [|w rest] eqn:E; [left; reflexivity|right].
  assert (Ht : t < length (u_pend st)) by (destruct (lt_dec t (length (u_pend st))) as [L|L]; [exact L|]; rewrite nth_overflow in E by lia; discriminate).
  assert (Hw : In w (asg_writes wt 0 0 asg)).
  { apply (Permutation_in _ I4), in_or_app. right. apply in_concat. exists (nth t (u_pend st) []). split; [apply nth_In, Ht|]. rewrite E. left. reflexivity. }
  rewrite (proj2 (Nat.ltb_lt _ _) (asg_in_bounds wt c_n m asg w HF Hw)).
  eexists. exists (P ++ [w]). split; [reflexivity|]. split; [|auto]. constructor; cbn [u_c u_e u_pend u_mem]; auto.
  - rewrite upd_length. exact I3.
  - rewrite <- I4, <- app_assoc. apply Permutation_app_head. cbn [app]. pose proof (concat_upd_perm (u_pend st) t rest Ht) as C. rewrite E in C. cbn [app] in C.
    apply (Permutation_app_inv_l rest). rewrite <- C. rewrite <- Permutation_middle. reflexivity.
  - unfold run_stores. rewrite fold_left_app. cbn [fold_left]. rewrite I5. reflexivity.
Qed.

Lemma fetch_ok st asg P t new nodes degree writes buf : minv st asg P -> t < T -> nth t (u_pend st) [] = [] ->
  nodes = length new -> degree = rdeg new -> Permutation (writes (length asg) (rdeg asg)) (asg_writes wt (length asg) (rdeg asg) new) ->
  minv (fetch st t nodes degree writes buf) (asg ++ new) P.
Proof.
  intros [I1 I2 I3 I4 I5] Ht Hp -> -> HW. unfold fetch. constructor; cbn [u_c u_e u_pend u_mem].
  - rewrite I1, app_length. reflexivity.
  - rewrite I2, rdeg_app. reflexivity.
  - rewrite upd_length. exact I3.
  - rewrite asg_writes_app. cbn [Nat.add]. rewrite <- HW, <- I4, I1, I2. rewrite <- app_assoc. apply Permutation_app_head.
    pose proof (concat_upd_perm (u_pend st) t (writes (length asg) (rdeg asg)) ltac:(lia)) as C. rewrite Hp in C. cbn [app] in C. rewrite C. apply Permutation_app_comm.
  - exact I5.
Qed.

Record uinv (st : ust) (asg : list rcd) (bufs : list (list rcd)) (P : list wr) : Prop := mkUinv {
  ui_m : minv st asg P;
  ui_bl : length (u_buf st) = T;
  ui_bl' : length bufs = T;
  ui_b : forall t, t < T -> nth t (u_buf st) nb_empty = nb_of wt (nth t bufs []);
  ui_p : Permutation (u_done st) (map fst (asg ++ concat bufs) ++ u_second st);
  ui_n : NoDup (u_done st);
  ui_lt : forall c, In c (u_done st) -> c < c_n;
  ui_g : forall r, In r (asg ++ concat bufs) -> good (fst r) (snd r) }.

Lemma good_fits asg : NoDup (map fst asg) -> (forall r, In r asg -> fst r < c_n /\ good (fst r) (snd r)) -> fits c_n m asg.
Proof using c_n m good fd Hgood Hm.
  clear Hagg agg wt.
  intros HN HG. split; [exact HN|]. split; [intros r Hr; apply HG, Hr|].
  transitivity (list_sum (map fd (map fst asg))).
  - unfold rdeg. clear HN. induction asg as [|r asg IH]; [cbn; lia|]. cbn [map]. rewrite !ls_cons.
    specialize (IH (fun x Hx => HG x (or_intror Hx))). destruct (HG r (or_introl eq_refl)) as [H1 H2]. pose proof (Hgood _ _ H1 H2). lia.
  - etransitivity; [|exact Hm]. apply nodup_sum_le; [exact HN|]. intros c Hc. apply in_map_iff in Hc. destruct Hc as (r & <- & Hr). apply HG, Hr.
Qed.

Lemma uinv_fits st asg bufs P : uinv st asg bufs P -> fits c_n m asg.
Proof.
  intros I. apply good_fits.
  - pose proof (Permutation_NoDup (ui_p _ _ _ _ I) (ui_n _ _ _ _ I)) as N. rewrite map_app, <- app_assoc in N. apply NoDup_app_l in N. exact N.
  - intros r Hr. split; [|apply (ui_g _ _ _ _ I), in_or_app; left; exact Hr].
    apply (ui_lt _ _ _ _ I), (Permutation_in _ (Permutation_sym (ui_p _ _ _ _ I))), in_or_app. left. apply in_map, in_or_app. left. exact Hr.
Qed.

(** What a step does to the ledger. *)
Lemma ledger_keep st st' asg bufs P asg' bufs' P' :
  uinv st asg bufs P -> minv st' asg' P' -> length (u_buf st') = T -> length bufs' = T ->
  (forall t, t < T -> nth t (u_buf st') nb_empty = nb_of wt (nth t bufs' [])) ->
  u_done st' = u_done st -> u_second st' = u_second st -> Permutation (asg' ++ concat bufs') (asg ++ concat bufs) -> uinv st' asg' bufs' P'.
Proof.
  intros I HM HB HB' HN HD HS HP. constructor; auto; rewrite ?HD, ?HS; try apply I.
  - etransitivity; [apply (ui_p _ _ _ _ I)|]. apply Permutation_app_tail, Permutation_map. symmetry. exact HP.
  - intros r Hr. apply (ui_g _ _ _ _ I), (Permutation_in _ HP), Hr.
Qed.

Lemma ledger_add st st' asg bufs P asg' bufs' P' c E :
  uinv st asg bufs P -> minv st' asg' P' -> length (u_buf st') = T -> length bufs' = T ->
  (forall t, t < T -> nth t (u_buf st') nb_empty = nb_of wt (nth t bufs' [])) ->
  ~ In c (u_done st) -> c < c_n -> good c E ->
  u_done st' = u_done st ++ [c] -> u_second st' = u_second st -> Permutation (asg' ++ concat bufs') ((c, E) :: asg ++ concat bufs) -> uinv st' asg' bufs' P'.
Proof.
  intros I HM HB HB' HN Hc Hlt HG HD HS HP. constructor; auto; rewrite ?HD, ?HS.
  - rewrite (ui_p _ _ _ _ I). rewrite (Permutation_map fst HP). cbn [map fst]. rewrite <- Permutation_cons_append. reflexivity.
  - apply nodup_snoc; [apply I|exact Hc].
  - intros x Hx. apply in_app_or in Hx. destruct Hx as [Hx|[<-|[]]]; [apply (ui_lt _ _ _ _ I), Hx|exact Hlt].
  - intros r Hr. apply (Permutation_in _ HP) in Hr. destruct Hr as [<-|Hr]; [exact HG|apply (ui_g _ _ _ _ I), Hr].
Qed.

Lemma nth_bufs_upd (ub : list nbuf) (bufs : list (list rcd)) t x y : length ub = T -> length bufs = T -> t < T -> x = nb_of wt y ->
  (forall t', t' < T -> nth t' ub nb_empty = nb_of wt (nth t' bufs [])) ->
  forall t', t' < T -> nth t' (upd t x ub) nb_empty = nb_of wt (nth t' (upd t y bufs) []).
Proof.
  intros L1 L2 Ht HX H t' Ht'. rewrite !upd_nth, L1, L2, (proj2 (Nat.ltb_lt _ _) Ht), !andb_true_r. destruct (t =? t'); [exact HX|apply H, Ht'].
Qed.

Lemma ustep_ok st asg bufs P ev : uinv st asg bufs P ->
  ustep MAXN MAXE T c_n m wt agg st ev = Bad \/ exists st' asg' bufs' P', ustep MAXN MAXE T c_n m wt agg st ev = Ok st' /\ uinv st' asg' bufs' P'.
Proof.
  intros I. destruct ev as [t c|t|t]; cbn [ustep].
  - destruct (t <? T) eqn:Et; [|left; reflexivity]. apply Nat.ltb_lt in Et. destruct (c <? c_n) eqn:Ec; [|left; reflexivity]. apply Nat.ltb_lt in Ec.
    destruct (existsb (Nat.eqb c) (u_done st)) eqn:Ed; [left; reflexivity|]. cbn [negb orb].
    assert (Hnd : ~ In c (u_done st)) by (intros H; apply existsb_In in H; congruence).
    destruct (nth t (u_pend st) []) as [|w0 r0] eqn:Ep; [|left; reflexivity]. right.
    destruct (Hagg c Ec) as (r & Er & Hr). rewrite Er. destruct r as [E|].
    + specialize (Hr E eq_refl). pose proof I as [I1 I2 I3 I4 I5 I6 I7 I8].
      set (st' := mkUst (u_c st) (u_e st) (u_mem st) (u_buf st) (u_pend st) (u_done st ++ [c]) (u_second st)).
      assert (M' : minv st' asg P) by (destruct I1; constructor; assumption).
      unfold transfer. change (u_buf st') with (u_buf st). rewrite (I4 t Et). set (b := nth t bufs []) in *.
      assert (Hb : Permutation (b ++ concat (upd t [] bufs)) (concat bufs)) by (apply (concat_upd_perm bufs t []); lia).
      destruct (exceeds_capacity MAXE (length E)).
      * eexists. exists (asg ++ [(c, E)]), bufs, P. split; [reflexivity|].
        apply (ledger_add st _ asg bufs P _ _ _ c E I); cbn [u_buf u_done u_second fetch]; auto.
        -- apply fetch_ok; auto. { rewrite rdeg_one. reflexivity. } cbn [asg_writes]. rewrite app_nil_r. reflexivity.
        -- rewrite <- app_assoc. cbn [app]. symmetry. apply Permutation_middle.
      * destruct (overfills MAXN MAXE (nb_of wt b) (length E)) eqn:Eo.
        -- eexists. exists (asg ++ (b ++ [(c, E)])), (upd t [] bufs), P. split; [reflexivity|].
           apply (ledger_add st _ asg bufs P _ _ _ c E I); cbn [u_buf u_done u_second fetch]; rewrite ?upd_length; auto.
           ++ apply fetch_ok; auto.
              ** rewrite nb_of_nodes, app_length. reflexivity.
              ** rewrite nb_of_edges, rdeg_app, rdeg_one. reflexivity.
              ** rewrite asg_writes_app. cbn [asg_writes]. rewrite app_nil_r, nb_of_nodes, nb_of_edges. apply Permutation_app_tail, flush_perm.
           ++ apply nth_bufs_upd; auto.
           ++ rewrite <- Hb, <- !app_assoc. cbn [app]. rewrite Permutation_middle. apply Permutation_app_head. symmetry. apply Permutation_middle.
        -- unfold overfills in Eo. apply orb_false_iff in Eo. destruct Eo as [E1 E2]. apply Nat.leb_gt in E1, E2.
           unfold nb_add. rewrite (proj2 (Nat.ltb_lt _ _) E1), (proj2 (Nat.leb_le (length (nb_edge (nb_of wt b)) + length E) MAXE)) by lia. cbn [andb obind].
           rewrite nb_of_snoc. eexists. exists asg, (upd t (b ++ [(c, E)]) bufs), P. split; [reflexivity|].
           apply (ledger_add st _ asg bufs P _ _ _ c E I); cbn [u_buf u_done u_second]; rewrite ?upd_length; auto.
           ++ destruct M'; constructor; assumption.
           ++ apply nth_bufs_upd; auto.
           ++ rewrite Permutation_middle. apply Permutation_app_head. apply (Permutation_app_inv_l b).
              pose proof (concat_upd_perm bufs t (b ++ [(c, E)]) ltac:(lia)) as C. fold b in C. etransitivity; [exact C|]. rewrite <- app_assoc. reflexivity.
    + eexists. exists asg, bufs, P. split; [reflexivity|]. destruct I as [I1 I2 I3 I4 I5 I6 I7 I8]. constructor; cbn [u_buf u_done u_second]; auto.
      * destruct I1; constructor; assumption.
      * rewrite app_assoc. apply Permutation_app_tail, I5.
      * apply nodup_snoc; assumption.
      * intros x Hx. apply in_app_or in Hx. destruct Hx as [Hx|[<-|[]]]; auto.
  - destruct (t <? T) eqn:Et; [|left; reflexivity]. apply Nat.ltb_lt in Et. cbn [negb].
    destruct (nth t (u_pend st) []) as [|w0 r0] eqn:Ep; [|left; reflexivity]. right. pose proof I as [I1 I2 I3 I4 I5 I6 I7 I8].
    rewrite (I4 t Et), nb_of_nodes. set (b := nth t bufs []) in *. destruct (length b =? 0); [exists st, asg, bufs, P; auto|].
    assert (Hb : Permutation (b ++ concat (upd t [] bufs)) (concat bufs)) by (apply (concat_upd_perm bufs t []); lia).
    eexists. exists (asg ++ b), (upd t [] bufs), P. split; [reflexivity|].
    apply (ledger_keep st _ asg bufs P _ _ _ I); cbn [u_buf u_done u_second fetch]; rewrite ?upd_length; auto.
    + apply fetch_ok; auto; [rewrite nb_of_edges; reflexivity|apply flush_perm].
    + apply nth_bufs_upd; auto.
    + rewrite <- app_assoc, Hb. reflexivity.
  - destruct (do_write_ok st asg P t (ui_m _ _ _ _ I) (uinv_fits _ _ _ _ I)) as [H|(st' & P' & E & M & H1 & H2 & H3)]; [left; exact H|right].
    exists st', asg, bufs, P'. split; [exact E|]. apply (ledger_keep st st' asg bufs P asg bufs P' I); auto; rewrite ?H1; apply I.
Qed.

Lemma u_init_inv : uinv (u_init T) [] (repeat [] T) [].
Proof.
  assert (C : forall A n, concat (repeat (@nil A) n) = []) by (intros A n; apply concat_all_nil; intros x Hx; apply repeat_spec in Hx; exact Hx).
  constructor; cbn [u_init u_buf u_done u_second]; rewrite ?repeat_length, ?C.
  - constructor; cbn [u_init u_c u_e u_pend u_mem]; rewrite ?repeat_length, ?C; reflexivity.
  - reflexivity.
  - reflexivity.
  - intros t Ht. rewrite !nth_repeat. reflexivity.
  - reflexivity.
  - constructor.
  - intros c [].
  - intros r [].
Qed.

Lemma urun_ok evs : forall st asg bufs P, uinv st asg bufs P ->
  urun MAXN MAXE T c_n m wt agg evs (Ok st) = Bad \/ exists st' asg' bufs' P', urun MAXN MAXE T c_n m wt agg evs (Ok st) = Ok st' /\ uinv st' asg' bufs' P'.
Proof.
  assert (HB : forall evs, urun MAXN MAXE T c_n m wt agg evs Bad = Bad) by (induction evs0; [reflexivity|assumption]).
  induction evs as [|ev evs IH]; intros st asg bufs P I; [right; exists st, asg, bufs, P; auto|]. unfold urun. cbn [fold_left obind].
  destruct (ustep_ok st asg bufs P ev I) as [->|(st' & asg' & bufs' & P' & -> & I')]; [left; apply HB|]. apply (IH _ _ _ _ I').
Qed.

(** The state after the first phase. *)
Lemma phase1_end st asg bufs P : uinv st asg bufs P -> phase1_complete c_n st = true ->
  Permutation (map fst asg ++ u_second st) (seq 0 c_n) /\ (forall r, In r asg -> good (fst r) (snd r)) /\ no_pending st = true /\ minv st asg P.
Proof.
  intros [I1 I2 I3 I4 I5 I6 I7 I8] H. unfold phase1_complete in H. apply andb_true_iff in H. destruct H as [H H3]. apply andb_true_iff in H. destruct H as [H1 H2].
  rewrite forallb_forall in H1, H2.
  assert (Hb : concat bufs = []).
  { apply concat_all_nil. intros x Hx. apply (In_nth _ _ []) in Hx. destruct Hx as (t & Ht & <-). rewrite I3 in Ht.
    assert (Hu : In (nth t (u_buf st) nb_empty) (u_buf st)) by (apply nth_In; lia). apply H2 in Hu. rewrite (I4 t Ht), nb_of_nodes in Hu. apply Nat.eqb_eq in Hu.
    destruct (nth t bufs []); [reflexivity|discriminate]. }
  rewrite Hb, app_nil_r in I5, I8. split; [|auto]. rewrite <- I5. apply NoDup_Permutation; [exact I6|apply seq_NoDup|].
  intros c. rewrite in_seq. split; [intros Hc; apply I7 in Hc; lia|]. intros Hc. apply existsb_In, H1, in_seq. lia.
Qed.
End M.
