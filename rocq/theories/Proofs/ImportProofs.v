(* The loop over the edges of import_graph: the ghosts are numbered consecutively, for every interleaving. *)
From Verif Require Import Lib.Prelude Model.GridModel Model.DistGraphModel Spec.Graph Spec.DistGraphSpec.

Lemma afind_in {V} k (v : V) (l : list (nat * V)) : afind k l = Some v -> In (k, v) l.
Proof.
  induction l as [|[k' x] t IH]; cbn [afind]; [discriminate|]. destruct (Nat.eqb_spec k' k) as [->|Hne].
  - intros [= ->]. left. reflexivity.
  - intros H. right. exact (IH H).
Qed.
Lemma afind_none {V} k (l : list (nat * V)) : afind k l = None <-> ~ In k (map fst l).
Proof.
  induction l as [|[k' x] t IH]; cbn [afind map fst]; [split; auto|]. destruct (Nat.eqb_spec k' k) as [->|Hne].
  - split; [discriminate|]. intros H. exfalso. apply H. left. reflexivity.
  - rewrite IH. split; intros H; [intros [C|C]; [exact (Hne C)|exact (H C)]|intros C; apply H; right; exact C].
Qed.
Lemma in_fst {V} k (v : V) (l : list (nat * V)) : In (k, v) l -> In k (map fst l).
Proof. intros H. exact (in_map fst _ _ H). Qed.
Lemma in_afind {V} k (v : V) (l : list (nat * V)) : NoDup (map fst l) -> In (k, v) l -> afind k l = Some v.
Proof.
  induction l as [|[k' x] t IH]; cbn [afind map fst]; intros N H; [destruct H|]. inversion_clear N as [|? ? N1 N2]. destruct H as [[= -> ->]|H].
  - rewrite Nat.eqb_refl. reflexivity.
  - destruct (Nat.eqb_spec k' k) as [->|Hne]; [destruct (N1 (in_fst _ _ _ H))|exact (IH N2 H)].
Qed.
Lemma aset_keys {V} k (v : V) (l : list (nat * V)) : map fst (aset k v l) = map fst l.
Proof. induction l as [|[k' x] t IH]; cbn [aset map fst]; [reflexivity|]. destruct (k' =? k); cbn [map fst]; [reflexivity|]. rewrite IH. reflexivity. Qed.
Lemma in_aset {V} k (v : V) (l : list (nat * V)) k' v' : NoDup (map fst l) -> In k (map fst l) ->
  (In (k', v') (aset k v l) <-> (k' = k /\ v' = v) \/ (k' <> k /\ In (k', v') l)).
Proof.
  induction l as [|[a x] t IH]; cbn [aset map fst In]; intros N H; [destruct H|]. inversion_clear N as [|? ? N1 N2].
  destruct (Nat.eqb_spec a k) as [->|Hne]; cbn [In].
  - split.
    + intros [[= <- <-]|C]; [left; split; reflexivity|]. right. split; [|right; exact C]. intros ->. exact (N1 (in_fst _ _ _ C)).
    + intros [[-> ->]|[C1 [[= <- <-]|C2]]]; [left; reflexivity|destruct (C1 eq_refl)|right; exact C2].
  - destruct H as [H|H]; [destruct (Hne H)|]. specialize (IH N2 H). rewrite IH. split.
    + intros [[= <- <-]|[C|C]]; [right; split; [exact Hne|left; reflexivity]|left; exact C|right; split; [exact (proj1 C)|right; exact (proj2 C)]].
    + intros [C|[C1 [C2|C2]]]; [right; left; exact C|left; exact C2|right; right; split; assumption].
Qed.
Lemma entries_aset k id m : NoDup (map fst m) -> In (k, None) m ->
  Permutation (map snd (entries (aset k (Some id) m))) (id :: map snd (entries m)).
Proof.
  induction m as [|[a x] t IH]; cbn [aset map fst In]; intros N H; [destruct H|]. inversion_clear N as [|? ? N1 N2].
  destruct (Nat.eqb_spec a k) as [->|Hne].
  - destruct H as [[= ->]|H]; [|destruct (N1 (in_fst _ _ _ H))]. cbn [entries flat_map snd fst app map]. apply Permutation_refl.
  - destruct H as [[= -> _]|H]; [destruct (Hne eq_refl)|]. specialize (IH N2 H). unfold entries in *. cbn [flat_map snd fst].
    rewrite !map_app. destruct x as [i|]; cbn [map snd app]; [|exact IH]. apply perm_trans with (i :: id :: map snd (flat_map
      (fun x => match snd x with Some i => [(fst x, i)] | None => [] end) t)); [apply perm_skip; exact IH|apply perm_swap].
Qed.
Lemma in_entries g i m : In (g, i) (entries m) <-> In (g, Some i) m.
Proof.
  unfold entries. rewrite in_flat_map. split.
  - intros [[a [x|]] [H1 H2]]; cbn [fst snd] in H2; [|destruct H2]. destruct H2 as [H2|[]]. injection H2 as <- <-. exact H1.
  - intros H. exists (g, Some i). split; [exact H|left; reflexivity].
Qed.
Lemma entries_keys m : (forall g, ~ In (g, None) m) -> map fst (entries m) = map fst m.
Proof.
  induction m as [|[a [x|]] t IH]; intros H; [reflexivity| |].
  - unfold entries in *. cbn [flat_map snd fst app map]. f_equal. apply IH. intros g C. apply (H g). right. exact C.
  - destruct (H a). left. reflexivity.
Qed.
Lemma store_ok {X} i (x : X) l : i < length l -> store i x l = Some (upd i x l).
Proof. intros H. unfold store. apply Nat.ltb_lt in H. rewrite H. reflexivity. Qed.
Lemma store_some {X} i (x : X) l l' : store i x l = Some l' -> i < length l /\ l' = upd i x l.
Proof. unfold store. destruct (Nat.ltb_spec i (length l)); [|discriminate]. intros [= <-]. auto. Qed.

Definition opt_id (t : task) : list nat := match t with Numbered i => [i] | _ => [] end.
Definition nids (l : list task) : list nat := flat_map opt_id l.
Definition task_rank (t : task) : nat := match t with Ready => 0 | Locked => 1 | Numbered _ => 2 | Finished => 3 end.
Lemma nids_upd e t0 t l : nth_error l e = Some t0 -> Permutation (opt_id t0 ++ nids (upd e t l)) (opt_id t ++ nids l).
Proof.
  revert e. induction l as [|a l IH]; intros [|e] H; cbn [nth_error] in H; try discriminate; unfold upd; fold (@upd task); unfold nids in *; cbn [flat_map].
  - injection H as ->. rewrite !app_assoc. apply Permutation_app_tail. apply Permutation_app_comm.
  - specialize (IH e H). rewrite !app_assoc, (Permutation_app_comm _ (opt_id a)), (Permutation_app_comm _ (opt_id a)), <- !app_assoc.
    apply Permutation_app_head. exact IH.
Qed.
Lemma rank_upd e t0 t l : nth_error l e = Some t0 -> list_sum (map task_rank (upd e t l)) + task_rank t0 = list_sum (map task_rank l) + task_rank t.
Proof.
  revert e. induction l as [|a l IH]; intros [|e] H; cbn [nth_error] in H; try discriminate; unfold upd; fold (@upd task); cbn [map]; cbn [list_sum fold_right].
  - injection H as ->. lia.
  - specialize (IH e H). unfold list_sum in IH. lia.
Qed.
Lemma rank_bound l : list_sum (map task_rank l) <= 3 * length l.
Proof. induction l as [|a l IH]; cbn [map list_sum fold_right length]; [lia|]. unfold list_sum in IH. destruct a; cbn [task_rank]; lia. Qed.

Section Import.
Variables from to : nat.
Variable adj : list nat.
Notation n := (to - from).

Definition holding (t : option task) : Prop := t = Some Locked \/ exists i, t = Some (Numbered i).
Record inv (s : imp) : Prop := {
  i_len1 : length (im_tasks s) = length adj;
  i_len2 : length (im_edges s) = length adj;
  i_next : n <= im_next s;
  i_keys : NoDup (map fst (im_map s));
  i_ids : Permutation (map snd (entries (im_map s)) ++ nids (im_tasks s)) (seq n (im_next s - n));
  i_src : forall g o, In (g, o) (im_map s) -> ~ (from <= g < to) /\ In g adj;
  i_hold1 : forall e, holding (nth_error (im_tasks s) e) -> exists v, nth_error adj e = Some v /\ In (v, None) (im_map s);
  i_hold2 : forall e e', holding (nth_error (im_tasks s) e) -> holding (nth_error (im_tasks s) e') -> nth_error adj e = nth_error adj e' -> e = e';
  i_hold3 : forall g, In (g, None) (im_map s) -> exists e, nth_error adj e = Some g /\ holding (nth_error (im_tasks s) e);
  i_done : forall e v, nth_error (im_tasks s) e = Some Finished -> nth_error adj e = Some v ->
    exists x, nth_error (im_edges s) e = Some x /\ if (from <=? v) && (v <? to) then x = v - from else In (v, Some x) (im_map s) }.

Lemma holding_upd e t l e' : holding (nth_error (upd e t l) e') -> (e' = e /\ holding (Some t)) \/ (e' <> e /\ holding (nth_error l e')).
Proof.
  rewrite upd_nth_error. destruct (Nat.eqb_spec e e') as [->|Hne]; cbn [andb].
  - destruct (Nat.ltb_spec e' (length l)); [intros H1; left; auto|]. intros H1. rewrite (proj2 (nth_error_None l e')) in H1 by lia.
    destruct H1 as [H1|[i H1]]; discriminate.
  - intros H. right. split; [congruence|exact H].
Qed.
Lemma holding_upd_other e t l e' : e' <> e -> holding (nth_error l e') -> holding (nth_error (upd e t l) e').
Proof. intros Hne H. rewrite upd_nth_error. destruct (Nat.eqb_spec e e'); [congruence|]. exact H. Qed.
Lemma not_holding_finished : ~ holding (Some Finished). Proof. intros [H|[i H]]; discriminate. Qed.

Lemma inv_start junk : length junk = length adj -> inv (import_start from to adj junk).
Proof.
  intros Hj. unfold import_start. split; cbn [im_tasks im_edges im_next im_map].
  - apply repeat_length.
  - exact Hj.
  - lia.
  - constructor.
  - rewrite Nat.sub_diag. cbn [seq entries flat_map map app]. replace (nids (repeat Ready (length adj))) with (@nil nat); [constructor|].
    clear Hj. induction (length adj) as [|k IH]; [reflexivity|]. cbn [repeat nids flat_map opt_id app]. exact IH.
  - intros g o [].
  - intros e H. exfalso. destruct (nth_error (repeat Ready (length adj)) e) as [t|] eqn:E; [|destruct H as [H|[i H]]; discriminate].
    apply nth_error_In, repeat_spec in E. subst t. destruct H as [H|[i H]]; discriminate.
  - intros e e' H. exfalso. destruct (nth_error (repeat Ready (length adj)) e) as [t|] eqn:E; [|destruct H as [H|[i H]]; discriminate].
    apply nth_error_In, repeat_spec in E. subst t. destruct H as [H|[i H]]; discriminate.
  - intros g [].
  - intros e v E. apply nth_error_In, repeat_spec in E. discriminate.
Qed.

Lemma nth_upd_finished e t l e' : nth_error (upd e t l) e' = Some Finished -> (e' = e /\ t = Finished) \/ (e' <> e /\ nth_error l e' = Some Finished).
Proof.
  rewrite upd_nth_error. destruct (Nat.eqb_spec e e') as [->|Hne]; cbn [andb].
  - destruct (Nat.ltb_spec e' (length l)); [intros [= H1]; left; auto|]. intros H1. rewrite (proj2 (nth_error_None l e')) in H1 by lia. discriminate.
  - intros H. right. split; [congruence|exact H].
Qed.
Lemma owned_spec v : (from <=? v) && (v <? to) = true <-> from <= v < to.
Proof. rewrite andb_true_iff, Nat.leb_le, Nat.ltb_lt. tauto. Qed.

(** An iteration whose node is there finishes. *)
Lemma inv_finish s e v x : inv s -> nth_error adj e = Some v -> nth_error (im_tasks s) e = Some Ready ->
  (if (from <=? v) && (v <? to) then x = v - from else In (v, Some x) (im_map s)) ->
  inv (Imp (im_map s) (im_next s) (upd e Finished (im_tasks s)) (upd e x (im_edges s))).
Proof.
  intros I Hv Ht Hx. assert (He : e < length (im_tasks s)) by (apply nth_error_Some; congruence).
  destruct I as [L1 L2 Nx K Ids Src H1 H2 H3 Dn]. split; cbn [im_tasks im_edges im_next im_map].
  - rewrite upd_length. exact L1.
  - rewrite upd_length. exact L2.
  - exact Nx.
  - exact K.
  - pose proof (nids_upd e _ Finished _ Ht) as P. cbn [opt_id app] in P. rewrite P. exact Ids.
  - exact Src.
  - intros e' H. apply holding_upd in H. destruct H as [[_ H]|[_ H]]; [destruct (not_holding_finished H)|exact (H1 e' H)].
  - intros a b Ha Hb. apply holding_upd in Ha, Hb. destruct Ha as [[_ Ha]|[_ Ha]]; [destruct (not_holding_finished Ha)|].
    destruct Hb as [[_ Hb]|[_ Hb]]; [destruct (not_holding_finished Hb)|exact (H2 a b Ha Hb)].
  - intros g Hg. destruct (H3 g Hg) as [e' [A B]]. exists e'. split; [exact A|]. apply holding_upd_other; [|exact B].
    intros ->. rewrite Ht in B. destruct B as [B|[i B]]; discriminate.
  - intros e' v' Hf Hv'. apply nth_upd_finished in Hf. destruct Hf as [[-> _]|[Hne Hf]].
    + exists x. rewrite upd_nth_error, Nat.eqb_refl. rewrite (proj2 (Nat.ltb_lt e (length (im_edges s)))) by lia. cbn [andb]. split; [reflexivity|].
      replace v' with v by congruence. exact Hx.
    + destruct (Dn e' v' Hf Hv') as [y [A B]]. exists y. split; [|exact B]. rewrite upd_nth_error. destruct (Nat.eqb_spec e e'); [congruence|exact A].
Qed.

Lemma inv_step s e s' : inv s -> import_step from to adj e s = Some s' ->
  inv s' /\ list_sum (map task_rank (im_tasks s)) < list_sum (map task_rank (im_tasks s')).
Proof.
  intros I E. unfold import_step in E. destruct (nth_error adj e) as [v|] eqn:Hv; cbn [bind] in E; [|discriminate].
  destruct (nth_error (im_tasks s) e) as [t|] eqn:Ht; [|discriminate].
  assert (He : e < length (im_tasks s)) by (apply nth_error_Some; congruence).
  assert (Hra : forall t', task_rank t < task_rank t' -> list_sum (map task_rank (im_tasks s)) < list_sum (map task_rank (upd e t' (im_tasks s)))).
  { intros t' Hl. pose proof (rank_upd e t t' _ Ht). lia. }
  assert (Hst : forall x, store e x (im_edges s) = Some (upd e x (im_edges s))).
  { intros x. apply store_ok. rewrite (i_len2 s I), <- (i_len1 s I). exact He. }
  destruct t as [| |i|].
  - destruct ((from <=? v) && (v <? to)) eqn:O.
    + rewrite Hst in E. cbn [bind] in E. injection E as <-. split; [|apply Hra; cbn; lia].
      apply (inv_finish s e v); [exact I|exact Hv|exact Ht|]. rewrite O. reflexivity.
    + destruct (afind v (im_map s)) as [[i|]|] eqn:F; [|discriminate|].
      * rewrite Hst in E. cbn [bind] in E. injection E as <-. split; [|apply Hra; cbn; lia].
        apply (inv_finish s e v); [exact I|exact Hv|exact Ht|]. rewrite O. apply afind_in. exact F.
      * injection E as <-. split; [|apply Hra; cbn; lia]. apply afind_none in F.
        assert (O' : ~ (from <= v < to)) by (intros C; apply owned_spec in C; congruence).
        destruct I as [L1 L2 Nx K Ids Src H1 H2 H3 Dn]. split; cbn [im_tasks im_edges im_next im_map].
        -- rewrite upd_length. exact L1.
        -- exact L2.
        -- exact Nx.
        -- cbn [map fst]. constructor; assumption.
        -- unfold entries. cbn [flat_map snd app]. fold (entries (im_map s)). pose proof (nids_upd e _ Locked _ Ht) as P. cbn [opt_id app] in P. rewrite P. exact Ids.
        -- intros g o [[= <- <-]|H]; [|exact (Src g o H)]. split; [exact O'|]. exact (nth_error_In _ _ Hv).
        -- intros e' H. apply holding_upd in H. destruct H as [[-> _]|[_ H]].
           ++ exists v. split; [exact Hv|left; reflexivity].
           ++ destruct (H1 e' H) as [v' [A B]]. exists v'. split; [exact A|right; exact B].
        -- intros a b Ha Hb Hab. apply holding_upd in Ha, Hb. destruct Ha as [[-> _]|[_ Ha]], Hb as [[-> _]|[_ Hb]]; [reflexivity| | |exact (H2 a b Ha Hb Hab)].
           ++ destruct (H1 b Hb) as [v' [A B]]. exfalso. apply F. replace v with v' by congruence. exact (in_fst _ _ _ B).
           ++ destruct (H1 a Ha) as [v' [A B]]. exfalso. apply F. replace v with v' by congruence. exact (in_fst _ _ _ B).
        -- intros g [[= <-]|Hg].
           ++ exists e. split; [exact Hv|]. rewrite upd_nth_error, Nat.eqb_refl. rewrite (proj2 (Nat.ltb_lt e _)) by lia. left. reflexivity.
           ++ destruct (H3 g Hg) as [e' [A B]]. exists e'. split; [exact A|]. apply holding_upd_other; [|exact B].
              intros ->. rewrite Ht in B. destruct B as [B|[i B]]; discriminate.
        -- intros e' v' Hf Hv'. apply nth_upd_finished in Hf. destruct Hf as [[_ Hf]|[_ Hf]]; [discriminate|].
           destruct (Dn e' v' Hf Hv') as [y [A B]]. exists y. split; [exact A|]. destruct ((from <=? v') && (v' <? to)); [exact B|right; exact B].
  - injection E as <-. split; [|apply Hra; cbn; lia]. destruct I as [L1 L2 Nx K Ids Src H1 H2 H3 Dn]. split; cbn [im_tasks im_edges im_next im_map].
    + rewrite upd_length. exact L1.
    + exact L2.
    + lia.
    + exact K.
    + pose proof (nids_upd e _ (Numbered (im_next s)) _ Ht) as P. cbn [opt_id app] in P. rewrite P. rewrite <- Permutation_middle.
      replace (S (im_next s) - n) with (im_next s - n + 1) by lia. rewrite seq_app. replace (n + (im_next s - n)) with (im_next s) by lia. cbn [seq].
      rewrite <- Permutation_cons_append. apply perm_skip. exact Ids.
    + exact Src.
    + intros e' H. apply holding_upd in H. destruct H as [[-> _]|[_ H]]; [|exact (H1 e' H)]. apply H1. rewrite Ht. left. reflexivity.
    + intros a b Ha Hb. apply H2.
      * apply holding_upd in Ha. destruct Ha as [[-> _]|[_ Ha]]; [rewrite Ht; left; reflexivity|exact Ha].
      * apply holding_upd in Hb. destruct Hb as [[-> _]|[_ Hb]]; [rewrite Ht; left; reflexivity|exact Hb].
    + intros g Hg. destruct (H3 g Hg) as [e' [A B]]. exists e'. split; [exact A|]. destruct (Nat.eq_dec e' e) as [->|Hne]; [|apply holding_upd_other; assumption].
      rewrite upd_nth_error, Nat.eqb_refl. rewrite (proj2 (Nat.ltb_lt e _)) by lia. right. eexists. reflexivity.
    + intros e' v' Hf Hv'. apply nth_upd_finished in Hf. destruct Hf as [[_ Hf]|[_ Hf]]; [discriminate|]. exact (Dn e' v' Hf Hv').
  - rewrite Hst in E. cbn [bind] in E. injection E as <-. split; [|apply Hra; cbn; lia].
    destruct I as [L1 L2 Nx K Ids Src H1 H2 H3 Dn].
    assert (Hh : holding (nth_error (im_tasks s) e)) by (rewrite Ht; right; eexists; reflexivity).
    assert (Hin : In (v, None) (im_map s)). { destruct (H1 e Hh) as [v' [A B]]. replace v with v' by congruence. exact B. }
    assert (Hk : In v (map fst (im_map s))) by exact (in_fst _ _ _ Hin).
    pose proof (fun k' v' => in_aset v (Some i) (im_map s) k' v' K Hk) as AS.
    split; cbn [im_tasks im_edges im_next im_map].
    + rewrite upd_length. exact L1.
    + rewrite upd_length. exact L2.
    + exact Nx.
    + rewrite aset_keys. exact K.
    + rewrite (entries_aset v i _ K Hin). pose proof (nids_upd e _ Finished _ Ht) as P. cbn [opt_id app] in P. cbn [app]. rewrite Permutation_middle, P. exact Ids.
    + intros g o H. apply AS in H. destruct H as [[-> _]|[_ H]]; [exact (Src v None Hin)|exact (Src g o H)].
    + intros e' H. apply holding_upd in H. destruct H as [[_ H]|[Hne H]]; [destruct (not_holding_finished H)|]. destruct (H1 e' H) as [v' [A B]]. exists v'.
      split; [exact A|]. apply AS. right. split; [|exact B]. intros ->. apply Hne. apply (H2 e' e H Hh). congruence.
    + intros a b Ha Hb. apply holding_upd in Ha, Hb. destruct Ha as [[_ Ha]|[_ Ha]]; [destruct (not_holding_finished Ha)|].
      destruct Hb as [[_ Hb]|[_ Hb]]; [destruct (not_holding_finished Hb)|exact (H2 a b Ha Hb)].
    + intros g Hg. apply AS in Hg. destruct Hg as [[_ Hg]|[Hne Hg]]; [discriminate|]. destruct (H3 g Hg) as [e' [A B]]. exists e'. split; [exact A|].
      apply holding_upd_other; [|exact B]. intros ->. congruence.
    + intros e' v' Hf Hv'. apply nth_upd_finished in Hf. destruct Hf as [[-> _]|[Hne Hf]].
      * exists i. rewrite upd_nth_error, Nat.eqb_refl. rewrite (proj2 (Nat.ltb_lt e (length (im_edges s)))) by lia. cbn [andb]. split; [reflexivity|].
        replace v' with v by congruence. destruct (Src v None Hin) as [O _]. destruct ((from <=? v) && (v <? to)) eqn:Ow; [apply owned_spec in Ow; tauto|].
        apply AS. left. auto.
      * destruct (Dn e' v' Hf Hv') as [y [A B]]. exists y. split.
        -- rewrite upd_nth_error. destruct (Nat.eqb_spec e e'); [congruence|exact A].
        -- destruct ((from <=? v') && (v' <? to)); [exact B|]. apply AS. right. split; [|exact B]. intros ->.
           pose proof (in_afind _ _ _ K B) as F1. pose proof (in_afind _ _ _ K Hin) as F2. congruence.
  - discriminate.
Qed.

Lemma inv_run sched : forall s s', inv s -> import_run from to adj sched s = Some s' ->
  inv s' /\ list_sum (map task_rank (im_tasks s)) + length sched <= list_sum (map task_rank (im_tasks s')).
Proof.
  induction sched as [|e t IH]; intros s s' I E; cbn [import_run] in E.
  - injection E as <-. split; [exact I|]. cbn [length]. lia.
  - destruct (import_step from to adj e s) as [s1|] eqn:Es; cbn [bind] in E; [|discriminate]. destruct (inv_step s e s1 I Es) as [I1 L1].
    destruct (IH s1 s' I1 E) as [I2 L2]. split; [exact I2|]. cbn [length]. lia.
Qed.

(** Somebody can step unless everybody is finished. *)
Lemma progress s : inv s -> (forall t, In t (im_tasks s) -> t = Finished) \/ exists e s', import_step from to adj e s = Some s'.
Proof.
  intros I. destruct (Forall_dec (fun t => t = Finished) (fun t => ltac:(destruct t; (left; reflexivity) || (right; discriminate))) (im_tasks s)) as [F|F].
  - left. apply Forall_forall. exact F.
  - right. assert (Hold : (exists e, holding (nth_error (im_tasks s) e)) \/ (forall e, ~ holding (nth_error (im_tasks s) e))).
    { clear F. generalize (im_tasks s) as l. induction l as [|a l [[e IH]|IH]].
      - right. intros [|e] [H|[i H]]; discriminate.
      - left. exists (S e). exact IH.
      - destruct a as [| |i|].
        + right. intros [|e] H; [destruct H as [H|[i H]]; discriminate|exact (IH e H)].
        + left. exists 0. left. reflexivity.
        + left. exists 0. right. eexists. reflexivity.
        + right. intros [|e] H; [destruct H as [H|[i H]]; discriminate|exact (IH e H)]. }
    assert (Hst : forall e x, e < length (im_tasks s) -> store e x (im_edges s) = Some (upd e x (im_edges s))).
    { intros e x He. apply store_ok. rewrite (i_len2 s I), <- (i_len1 s I). exact He. }
    destruct Hold as [[e He]|Hno].
    + destruct (i_hold1 s I e He) as [v [A B]]. exists e. unfold import_step. rewrite A. cbn [bind].
      destruct He as [He|[i He]]; rewrite He; [eexists; reflexivity|]. rewrite Hst by (apply nth_error_Some; congruence). cbn [bind]. eexists. reflexivity.
    + assert (R : exists e, nth_error (im_tasks s) e = Some Ready).
      { clear - F Hno. revert F Hno. generalize (im_tasks s) as l. induction l as [|a l IH]; intros F Hno; [destruct F; constructor|].
        destruct a as [| |i|].
        - exists 0. reflexivity.
        - destruct (Hno 0). left. reflexivity.
        - destruct (Hno 0). right. eexists. reflexivity.
        - destruct IH as [e He]; [intros C; apply F; constructor; [reflexivity|exact C]|intros e He; exact (Hno (S e) He)|]. exists (S e). exact He. }
      destruct R as [e He]. assert (Hl : e < length (im_tasks s)) by (apply nth_error_Some; congruence).
      destruct (nth_error adj e) as [v|] eqn:Hv; [|apply nth_error_None in Hv; rewrite (i_len1 s I) in Hl; lia].
      exists e. unfold import_step. rewrite Hv. cbn [bind]. rewrite He. destruct ((from <=? v) && (v <? to)).
      * rewrite Hst by exact Hl. eexists. reflexivity.
      * destruct (afind v (im_map s)) as [[i|]|] eqn:Fv.
        -- rewrite Hst by exact Hl. eexists. reflexivity.
        -- apply afind_in in Fv. destruct (i_hold3 s I v Fv) as [e' [_ C]]. destruct (Hno e' C).
        -- eexists. reflexivity.
Qed.

Theorem import_terminates junk sched s : length junk = length adj -> import_run from to adj sched (import_start from to adj junk) = Some s ->
  length sched <= 3 * length adj /\ ((forall t, In t (im_tasks s) -> t = Finished) \/ exists e s', import_step from to adj e s = Some s').
Proof.
  intros Hj E. destruct (inv_run sched _ _ (inv_start junk Hj) E) as [I L]. split; [|exact (progress s I)].
  pose proof (rank_bound (im_tasks s)) as B. rewrite (i_len1 s I) in B. lia.
Qed.

(** The state after the loop. *)
Theorem import_result junk sched s : length junk = length adj -> import_run from to adj sched (import_start from to adj junk) = Some s ->
  (forall t, In t (im_tasks s) -> t = Finished) ->
  n <= im_next s /\ length (im_edges s) = length adj /\
  NoDup (map fst (entries (im_map s))) /\ Permutation (map snd (entries (im_map s))) (seq n (im_next s - n)) /\
  (forall g, In g (map fst (entries (im_map s))) <-> ~ (from <= g < to) /\ In g adj) /\
  (forall e v, nth_error adj e = Some v -> exists x, nth_error (im_edges s) e = Some x /\
     ((from <= v < to /\ x = v - from) \/ (~ (from <= v < to) /\ In (v, x) (entries (im_map s))))).
Proof.
  intros Hj E Hf. destruct (inv_run sched _ _ (inv_start junk Hj) E) as [[L1 L2 Nx K Ids Src H1 H2 H3 Dn] _].
  assert (Hno : forall g, ~ In (g, None) (im_map s)).
  { intros g C. destruct (H3 g C) as [e [_ B]]. destruct (nth_error (im_tasks s) e) as [t|] eqn:Et; [|destruct B as [B|[i B]]; discriminate].
    rewrite (Hf t (nth_error_In _ _ Et)) in B. exact (not_holding_finished B). }
  assert (Hz : nids (im_tasks s) = []).
  { clear - Hf. induction (im_tasks s) as [|a l IH]; [reflexivity|]. cbn [nids flat_map]. rewrite (Hf a (or_introl eq_refl)). cbn [opt_id app]. apply IH. intros t Ht. apply Hf. right. exact Ht. }
  assert (Hd : forall e v, nth_error adj e = Some v -> exists x, nth_error (im_edges s) e = Some x /\
     ((from <= v < to /\ x = v - from) \/ (~ (from <= v < to) /\ In (v, x) (entries (im_map s))))).
  { intros e v Hv. assert (He : e < length (im_tasks s)) by (rewrite L1; apply nth_error_Some; congruence).
    destruct (nth_error (im_tasks s) e) as [t|] eqn:Et; [|apply nth_error_None in Et; lia]. rewrite (Hf t (nth_error_In _ _ Et)) in Et.
    destruct (Dn e v Et Hv) as [x [A B]]. exists x. split; [exact A|]. destruct ((from <=? v) && (v <? to)) eqn:O.
    - left. split; [apply owned_spec; exact O|exact B].
    - right. split; [intros C; apply owned_spec in C; congruence|]. apply in_entries. exact B. }
  split; [exact Nx|]. split; [exact L2|]. split; [rewrite entries_keys by exact Hno; exact K|]. split; [rewrite Hz, app_nil_r in Ids; exact Ids|]. split; [|exact Hd].
  intros g. split.
  - rewrite entries_keys by exact Hno. intros C. apply in_map_iff in C. destruct C as [[a o] [<- C]]. exact (Src a o C).
  - intros [O C]. apply In_nth_error in C. destruct C as [e He]. destruct (Hd e g He) as [x [_ [[C _]|[_ C]]]]; [tauto|]. exact (in_fst _ _ _ C).
Qed.
End Import.
