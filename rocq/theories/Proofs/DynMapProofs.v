(* The growing hash maps are exact for every history of calls. *)
From Verif Require Import Lib.Prelude Spec.KeyedList Model.DynMapModel.

Section KL.
Context {V : Type}.
Implicit Types (l : list (nat * V)).
Lemma kl_get_none k l : kl_get k l = None <-> ~ In k (map fst l).
Proof.
  induction l as [|[x v] l IH]; cbn [kl_get map fst In]; [tauto|].
  destruct (Nat.eqb_spec x k) as [->|Hn]; [split; [discriminate|intros H; exfalso; auto]|]. rewrite IH. intuition.
Qed.
Lemma kl_get_in k v l : NoDup (map fst l) -> (kl_get k l = Some v <-> In (k, v) l).
Proof.
  induction l as [|[x y] l IH]; cbn [kl_get map fst In]; intros HN; [split; [discriminate|tauto]|].
  inversion HN as [|? ? Hni HN']; subst. destruct (Nat.eqb_spec x k) as [->|Hn].
  - split; [intros E; injection E as ->; auto|]. intros [E|Hin]; [congruence|]. exfalso. apply Hni. apply in_map_iff. exists (k, v). auto.
  - rewrite IH by auto. split; [auto|]. intros [E|]; [congruence|auto].
Qed.
Lemma kl_modify_new d k f l : kl_get k l = None -> kl_modify d k f l = l ++ [(k, f d)].
Proof.
  induction l as [|[x v] l IH]; cbn [kl_get kl_modify app]; auto. destruct (x =? k); [discriminate|]. intros. rewrite IH; auto.
Qed.
Lemma kl_modify_keys d k f l v : kl_get k l = Some v -> map fst (kl_modify d k f l) = map fst l.
Proof.
  induction l as [|[x y] l IH]; cbn [kl_get kl_modify map fst]; [discriminate|]. destruct (x =? k); auto.
  intros. cbn [map fst]. rewrite IH; auto.
Qed.
Lemma kl_modify_length d k f l v : kl_get k l = Some v -> length (kl_modify d k f l) = length l.
Proof. intros H. rewrite <- (map_length fst (kl_modify d k f l)), (kl_modify_keys d k f l v H), map_length. reflexivity. Qed.
Lemma kl_get_modify d k f l k' :
  kl_get k' (kl_modify d k f l) = if k =? k' then Some (f (match kl_get k l with Some v => v | None => d end)) else kl_get k' l.
Proof.
  induction l as [|[x v] l IH]; cbn [kl_get kl_modify].
  - reflexivity.
  - destruct (Nat.eqb_spec x k) as [->|Hn]; cbn [kl_get].
    + destruct (k =? k'); reflexivity.
    + rewrite IH. destruct (Nat.eqb_spec x k') as [->|]; auto. destruct (Nat.eqb_spec k k'); [congruence|reflexivity].
Qed.
Lemma kl_modify_nodup d k f l : NoDup (map fst l) -> NoDup (map fst (kl_modify d k f l)).
Proof.
  intros HN. destruct (kl_get k l) as [v|] eqn:E.
  - rewrite (kl_modify_keys d k f l v E). auto.
  - rewrite kl_modify_new by auto. rewrite map_app. cbn [map fst]. apply kl_get_none in E.
    apply (Permutation_NoDup (l := k :: map fst l)); [|constructor; auto].
    rewrite Permutation_app_comm. reflexivity.
Qed.
End KL.

Section D.
Context {V : Type}.
Variables (rem : bool) (tw : N) (hash : nat -> nat) (dflt : V).
Notation dmap := (dmap V). Notation slot := (slot V).
Notation dm_slot := (dm_slot dflt). Notation dm_live := (dm_live dflt).
Notation find := (dm_find hash dflt).
Notation key m i := (sl_key (dm_slot m i)).
Notation val m i := (sl_val (dm_slot m i)).

Definition probe (c h d : nat) : nat := (h mod c + d) mod c.
Lemma probe_lt c h d : 0 < c -> probe c h d < c.
Proof. intros. apply Nat.mod_upper_bound. lia. Qed.
Lemma probe_0 c h : 0 < c -> probe c h 0 = h mod c.
Proof. intros. unfold probe. rewrite Nat.add_0_r. apply Nat.mod_mod. lia. Qed.
Lemma probe_S c h d : 0 < c -> S (probe c h d) mod c = probe c h (S d).
Proof.
  intros. unfold probe. replace (S ((h mod c + d) mod c)) with ((h mod c + d) mod c + 1) by lia.
  rewrite Nat.add_mod_idemp_l by lia. f_equal. lia.
Qed.
Lemma probe_all c h s : s < c -> exists d, d < c /\ probe c h d = s.
Proof.
  intros Hs. unfold probe. set (a := h mod c). assert (a < c) by (apply Nat.mod_upper_bound; lia).
  destruct (le_lt_dec a s).
  - exists (s - a). split; [lia|]. replace (a + (s - a)) with s by lia. apply Nat.mod_small; auto.
  - exists (s + c - a). split; [lia|]. replace (a + (s + c - a)) with (s + 1 * c) by lia. rewrite Nat.mod_add by lia. apply Nat.mod_small; auto.
Qed.

(** The slots hold exactly the entries of [l]. *)
Definition cinv (m : dmap) (l : list (nat * V)) : Prop :=
  0 < dm_cap m /\ NoDup (map fst l) /\
  (forall i, i < dm_cap m -> dm_live m i = true -> In (key m i, val m i) l) /\
  (forall k v, In (k, v) l -> exists i, i < dm_cap m /\ dm_live m i = true /\ key m i = k /\ val m i = v) /\
  (forall i, i < dm_cap m -> dm_live m i = true -> exists d, probe (dm_cap m) (hash (key m i)) d = i /\
     forall e, e < d -> dm_live m (probe (dm_cap m) (hash (key m i)) e) = true /\
                        key m (probe (dm_cap m) (hash (key m i)) e) <> key m i).

Lemma cinv_perm m l l' : Permutation l l' -> cinv m l -> cinv m l'.
Proof.
  intros P (H1 & H2 & H3 & H4 & H5). repeat split; auto.
  - eapply Permutation_NoDup; [apply Permutation_map; exact P|auto].
  - intros i Hi Hl. apply (Permutation_in _ P). auto.
  - intros k v Hin. apply H4. apply (Permutation_in _ (Permutation_sym P)). auto.
Qed.
Lemma cinv_same m m' l : dm_slots m = dm_slots m' -> dm_ts m = dm_ts m' -> cinv m l -> cinv m' l.
Proof. intros E1 E2 H. unfold cinv, DynMapModel.dm_live, DynMapModel.dm_slot, dm_cap in *. rewrite <- E1, <- E2. exact H. Qed.

Lemma cinv_unique m l i j : cinv m l -> i < dm_cap m -> j < dm_cap m -> dm_live m i = true -> dm_live m j = true ->
  key m i = key m j -> i = j.
Proof.
  intros (_ & _ & _ & _ & H5) Hi Hj Li Lj E. destruct (H5 i Hi Li) as (d & Pd & Hd). destruct (H5 j Hj Lj) as (e & Pe & He).
  rewrite <- E in *. destruct (lt_eq_lt_dec d e) as [[C|C]|C].
  - exfalso. apply (He d C). rewrite Pd. auto.
  - subst. congruence.
  - exfalso. apply (Hd e C). rewrite Pe. auto.
Qed.
Lemma cinv_free m l : cinv m l -> length l < dm_cap m -> exists i, i < dm_cap m /\ dm_live m i = false.
Proof.
  intros HI HL. destruct (forallb (dm_live m) (seq 0 (dm_cap m))) eqn:E.
  - exfalso. rewrite forallb_forall in E.
    assert (length (seq 0 (dm_cap m)) <= length (map fst l)).
    { rewrite <- (map_length (fun i => key m i)). apply NoDup_incl_length.
      - assert (G : forall q, NoDup q -> (forall i, In i q -> i < dm_cap m) -> NoDup (map (fun i => key m i) q)).
        { induction q as [|i q IH]; intros HN Hq; [constructor|]. inversion HN as [|? ? Hni HN']; subst. cbn [map]. constructor.
          - intros C. apply in_map_iff in C. destruct C as (j & Ej & Hj). apply Hni.
            rewrite (cinv_unique m l i j HI); auto; try (apply E, in_seq; split; [lia|]); try (apply Hq; cbn; auto).
          - apply IH; auto. intros. apply Hq; right; auto. }
        apply G; [apply seq_NoDup|]. intros i Hi. apply in_seq in Hi. lia.
      - intros x Hx. apply in_map_iff in Hx. destruct Hx as (i & <- & Hi). destruct HI as (_ & _ & H3 & _).
        assert (i < dm_cap m) by (apply in_seq in Hi; lia). apply in_map_iff. eexists. split; [|apply (H3 i); auto]. reflexivity. }
    rewrite seq_length, map_length in H. lia.
  - apply Bool.not_true_iff_false in E. rewrite forallb_forall in E.
    assert (G : forall q, (~ forall x, In x q -> dm_live m x = true) -> exists x, In x q /\ dm_live m x = false).
    { induction q as [|x q IH]; intros H; [exfalso; apply H; intros ? []|]. destruct (dm_live m x) eqn:Ex; [|exists x; cbn; auto].
      destruct IH as (y & Hy & Ey); [|exists y; cbn; auto]. intros C. apply H. intros y [<-|Hy]; auto. }
    destruct (G _ E) as (i & Hi & Li). apply in_seq in Hi. exists i. split; [lia|auto].
Qed.

Lemma find_loop_spec m k fuel : 0 < dm_cap m -> forall e, match dm_find_loop dflt fuel m k (probe (dm_cap m) (hash k) e) with
  | None => forall d, e <= d < e + fuel -> dm_live m (probe (dm_cap m) (hash k) d) = true /\ key m (probe (dm_cap m) (hash k) d) <> k
  | Some (pos, b) => exists d, e <= d /\ pos = probe (dm_cap m) (hash k) d /\
      (forall c, e <= c < d -> dm_live m (probe (dm_cap m) (hash k) c) = true /\ key m (probe (dm_cap m) (hash k) c) <> k) /\
      (if b then dm_live m pos = true /\ key m pos = k else dm_live m pos = false)
  end.
Proof.
  intros Hc. induction fuel as [|fl IH]; intros e; cbn [dm_find_loop]; [intros; lia|].
  destruct (dm_live m (probe (dm_cap m) (hash k) e)) eqn:El.
  - destruct (Nat.eqb_spec (key m (probe (dm_cap m) (hash k) e)) k) as [Ek|Ek].
    + exists e. repeat split; auto; lia.
    + rewrite probe_S by auto. specialize (IH (S e)). destruct (dm_find_loop dflt fl m k _) as [[pos b]|].
      * destruct IH as (d & H1 & H2 & H3 & H4). exists d. repeat split; auto; try lia;
          (destruct (Nat.eq_dec c e) as [->|]; [auto|apply H3; lia]).
      * intros d Hd. destruct (Nat.eq_dec d e) as [->|]; [auto|apply IH; lia].
  - exists e. repeat split; auto; lia.
Qed.

Lemma find_ok m l k : cinv m l -> length l < dm_cap m ->
  exists pos b, find m k = Some (pos, b) /\ pos < dm_cap m /\
    if b then dm_live m pos = true /\ key m pos = k /\ kl_get k l = Some (val m pos)
    else dm_live m pos = false /\ kl_get k l = None /\ exists d, pos = probe (dm_cap m) (hash k) d /\
      forall c, c < d -> dm_live m (probe (dm_cap m) (hash k) c) = true /\ key m (probe (dm_cap m) (hash k) c) <> k.
Proof.
  intros HI HL. assert (HI0 := HI). destruct HI0 as (Hc & HN & H3 & H4 & H5).
  destruct (cinv_free m l HI HL) as (f & Hf & Lf). destruct (probe_all (dm_cap m) (hash k) f Hf) as (df & Hdf & Pf).
  pose proof (find_loop_spec m k (dm_cap m) Hc 0) as HS. rewrite probe_0 in HS by auto. unfold dm_find.
  destruct (dm_find_loop dflt (dm_cap m) m k (hash k mod dm_cap m)) as [[pos b]|].
  - destruct HS as (d & _ & Ep & Hd & Hb). exists pos, b. split; auto. assert (Hpos : pos < dm_cap m) by (subst pos; apply probe_lt; auto).
    split; auto. destruct b.
    + destruct Hb as [Lp Kp]. split; auto. split; auto. apply kl_get_in; auto. rewrite <- Kp. apply H3; auto.
    + split; auto. split.
      * destruct (kl_get k l) as [v|] eqn:E; auto. exfalso. apply kl_get_in in E; auto. destruct (H4 k v E) as (i & Hi & Li & Ki & _).
        destruct (H5 i Hi Li) as (d' & Pd' & Hd'). rewrite Ki in *.
        destruct (lt_eq_lt_dec d d') as [[C|C]|C].
        -- destruct (Hd' d C) as [C1 _]. rewrite <- Ep in C1. congruence.
        -- subst d'. congruence.
        -- destruct (Hd d') as [_ C2]; [lia|]. rewrite Pd' in C2. auto.
      * exists d. split; auto. intros c Hc'. apply Hd. lia.
  - exfalso. destruct (HS df) as [C _]; [lia|]. rewrite Pf in C. congruence.
Qed.

Lemma slot_upd m i s j : i < dm_cap m -> nth j (upd i s (dm_slots m)) (slot0 dflt) = if j =? i then s else dm_slot m j.
Proof.
  intros Hi. destruct (Nat.eqb_spec j i) as [->|Hn]; [apply upd_nth_same; auto|apply upd_nth_other; auto].
Qed.

Lemma add_ok m m' l k v pos : cinv m l -> pos < dm_cap m -> dm_live m pos = false -> kl_get k l = None ->
  (exists d, pos = probe (dm_cap m) (hash k) d /\
      forall c, c < d -> dm_live m (probe (dm_cap m) (hash k) c) = true /\ key m (probe (dm_cap m) (hash k) c) <> k) ->
  dm_slots m' = upd pos {| sl_key := k; sl_val := v; sl_ts := dm_ts m |} (dm_slots m) -> dm_ts m' = dm_ts m ->
  cinv m' (l ++ [(k, v)]) /\ dm_live m' pos = true /\ key m' pos = k /\ val m' pos = v /\
  (forall i, dm_live m i = true -> dm_live m' i = true /\ dm_slot m' i = dm_slot m i).
Proof.
  intros (Hc & HN & H3 & H4 & H5) Hp Lp Hk (dp & Ep & Hdp) ES ET.
  assert (EC : dm_cap m' = dm_cap m) by (unfold dm_cap; rewrite ES, upd_length; auto).
  assert (Sl : forall i, dm_slot m' i = if i =? pos then {| sl_key := k; sl_val := v; sl_ts := dm_ts m |} else dm_slot m i).
  { intros i. unfold DynMapModel.dm_slot at 1. rewrite ES. apply slot_upd; auto. }
  assert (Lv : forall i, dm_live m' i = if i =? pos then true else dm_live m i).
  { intros i. unfold DynMapModel.dm_live. rewrite ET, Sl. destruct (i =? pos); auto. cbn [sl_ts]. apply N.eqb_refl. }
  assert (Lold : forall i, dm_live m i = true -> i =? pos = false).
  { intros i Hi. apply Nat.eqb_neq. intros ->. congruence. }
  split.
  - unfold cinv. rewrite EC. split; auto. split; [|split; [|split]].
    + rewrite map_app. cbn [map fst]. apply (Permutation_NoDup (l := k :: map fst l)); [rewrite Permutation_app_comm; reflexivity|].
      constructor; auto. apply kl_get_none; auto.
    + intros i Hi Li. rewrite Sl. rewrite Lv in Li. apply in_app_iff. destruct (i =? pos); [right; left; auto|left; auto].
    + intros x y Hin. apply in_app_iff in Hin. destruct Hin as [Hin|[E|[]]].
      * destruct (H4 x y Hin) as (i & Hi & Li & Ki & Vi). exists i. rewrite Lv, Sl, (Lold i Li). auto.
      * injection E as <- <-. exists pos. rewrite Lv, Sl, Nat.eqb_refl. auto.
    + intros i Hi Li. rewrite Lv in Li. destruct (i =? pos) eqn:Ei.
      * apply Nat.eqb_eq in Ei. subst i. rewrite !Sl, Nat.eqb_refl. cbn [sl_key]. exists dp. split; auto. intros e He.
        destruct (Hdp e He) as [C1 C2]. rewrite Lv, Sl, (Lold _ C1). auto.
      * rewrite !Sl, Ei. destruct (H5 i Hi Li) as (d & Pd & Hd). exists d. split; auto. intros e He.
        destruct (Hd e He) as [C1 C2]. rewrite Lv, Sl, (Lold _ C1). auto.
  - rewrite Lv, Sl, Nat.eqb_refl. repeat split; auto; intros; rewrite ?Lv, ?Sl, (Lold _ H); auto.
Qed.

Lemma set_ok m l pos f : cinv m l -> pos < dm_cap m -> dm_live m pos = true ->
  cinv (dm_set_at dflt m pos f) (kl_modify dflt (key m pos) f l).
Proof.
  intros (Hc & HN & H3 & H4 & H5) Hp Lp. set (m' := dm_set_at dflt m pos f). set (k := key m pos).
  assert (EC : dm_cap m' = dm_cap m) by (unfold dm_cap, m'; cbn [dm_set_at dm_slots]; rewrite upd_length; auto).
  assert (Sl : forall i, dm_slot m' i = if i =? pos then {| sl_key := k; sl_val := f (val m pos); sl_ts := sl_ts (dm_slot m pos) |} else dm_slot m i).
  { intros i. unfold DynMapModel.dm_slot at 1, m'. cbn [dm_set_at dm_slots]. apply slot_upd; auto. }
  assert (Lv : forall i, dm_live m' i = dm_live m i).
  { intros i. unfold DynMapModel.dm_live. rewrite Sl. destruct (Nat.eqb_spec i pos) as [->|]; auto. }
  assert (Ky : forall i, key m' i = key m i) by (intros i; rewrite Sl; destruct (Nat.eqb_spec i pos) as [->|]; auto).
  assert (HG : kl_get k l = Some (val m pos)) by (apply kl_get_in; auto; apply H3; auto).
  unfold cinv. rewrite EC. split; auto. split; [apply kl_modify_nodup; auto|]. split; [|split].
  - intros i Hi Li. rewrite Lv in Li. apply kl_get_in; [apply kl_modify_nodup; auto|]. rewrite kl_get_modify, HG, Ky.
    rewrite Sl. destruct (Nat.eqb_spec i pos) as [->|Hn].
    + fold k. rewrite Nat.eqb_refl. reflexivity.
    + destruct (Nat.eqb_spec k (key m i)) as [E|E].
      * exfalso. apply Hn. symmetry. apply (cinv_unique m l); auto. repeat split; auto.
      * apply kl_get_in; auto.
  - intros x y Hin. apply kl_get_in in Hin; [|apply kl_modify_nodup; auto]. rewrite kl_get_modify, HG in Hin.
    destruct (Nat.eqb_spec k x) as [<-|Hn].
    + injection Hin as <-. exists pos. rewrite Lv, Ky, Sl, Nat.eqb_refl. auto.
    + apply kl_get_in in Hin; auto. destruct (H4 x y Hin) as (i & Hi & Li & Ki & Vi). exists i. rewrite Lv, Ky, Sl.
      destruct (Nat.eqb_spec i pos) as [->|]; auto. exfalso. apply Hn. exact Ki.
  - intros i Hi Li. rewrite Lv in Li. destruct (H5 i Hi Li) as (d & Pd & Hd). exists d. rewrite Ky. split; auto.
    intros e He. rewrite Lv, Ky. auto.
Qed.

(** The whole object. *)
Definition used_ok (m : dmap) (l : list (nat * V)) : Prop :=
  map (fun p => (key m p, val m p)) (dm_used m) = l /\ forall p, In p (dm_used m) -> p < dm_cap m /\ dm_live m p = true.
Definition dinv (m : dmap) (l : list (nat * V)) : Prop :=
  cinv m l /\ dm_size m = length l /\ 16 <= dm_cap m /\ dm_size m <= dm_cap m * 2 / 5 /\
  (1 <= dm_ts m)%N /\ (forall i, (sl_ts (dm_slot m i) <= dm_ts m)%N) /\ (rem = true -> used_ok m l).

Lemma slot0_nth c i : nth i (repeat (slot0 dflt) c) (slot0 dflt) = slot0 dflt.
Proof. revert i. induction c as [|c IH]; intros [|i]; cbn; auto. Qed.
Lemma blank_cinv c n u : 0 < c -> cinv {| dm_slots := repeat (slot0 dflt) c; dm_size := n; dm_ts := 1; dm_used := u |} [].
Proof.
  intros Hc. unfold cinv, DynMapModel.dm_live, DynMapModel.dm_slot, dm_cap. cbn [dm_slots dm_ts]. rewrite repeat_length.
  repeat split; auto; [constructor| | |]; intros i; try (rewrite slot0_nth; discriminate). intros v [].
Qed.
Lemma make_dinv : dinv (dm_make dflt) [].
Proof.
  split; [apply (blank_cinv 16); lia|]. split; [reflexivity|]. split; [cbn; lia|]. split; [cbn; lia|]. split; [cbn; lia|]. split.
  - intros i. unfold DynMapModel.dm_slot. cbn [dm_make dm_blank dm_slots dm_ts]. rewrite slot0_nth. cbn. lia.
  - intros _. split; [reflexivity|]. intros p [].
Qed.

(** Growing. *)
Lemma rehash_flat_ok (old : dmap) : rem = false -> forall todo m l,
  cinv m l -> dm_size m = length l -> length l + length (filter (fun s => (sl_ts s =? dm_ts old)%N) todo) < dm_cap m ->
  NoDup (map fst l ++ map sl_key (filter (fun s => (sl_ts s =? dm_ts old)%N) todo)) ->
  (forall i, (sl_ts (dm_slot m i) <= dm_ts m)%N) ->
  exists m', fold_left (fun a s => match a with
                        | None => None
                        | Some m => if (sl_ts s =? dm_ts old)%N then
                                      match find m (sl_key s) with
                                      | None => None
                                      | Some (pos, _) => Some (dm_add rem m (sl_key s) (sl_val s) pos)
                                      end
                                    else Some m
                        end) todo (Some m) = Some m' /\
    cinv m' (l ++ map (fun s => (sl_key s, sl_val s)) (filter (fun s => (sl_ts s =? dm_ts old)%N) todo)) /\
    dm_size m' = length (l ++ map (fun s => (sl_key s, sl_val s)) (filter (fun s => (sl_ts s =? dm_ts old)%N) todo)) /\
    dm_cap m' = dm_cap m /\ dm_ts m' = dm_ts m /\ (forall i, (sl_ts (dm_slot m' i) <= dm_ts m')%N).
Proof.
  intros Hr. induction todo as [|s todo IH]; intros m l HI Hsz HL HN HT; cbn [fold_left filter map].
  - rewrite app_nil_r. exists m. repeat split; auto; apply HI.
  - cbn [filter] in HL, HN. destruct (sl_ts s =? dm_ts old)%N.
    + cbn [map length] in *. destruct (find_ok m l (sl_key s) HI ltac:(lia)) as (pos & b & Ef & Hp & Hb). rewrite Ef.
      assert (Hni : ~ In (sl_key s) (map fst l)).
      { apply NoDup_remove_2 in HN. intros C. apply HN. apply in_app_iff. auto. }
      destruct b; [exfalso; destruct Hb as (_ & _ & E); apply Hni; apply kl_get_none in Hni; congruence|].
      destruct Hb as (Lp & Hk & Hd).
      destruct (add_ok m (dm_add rem m (sl_key s) (sl_val s) pos) l (sl_key s) (sl_val s) pos HI Hp Lp Hk Hd eq_refl eq_refl) as (HI' & _).
      destruct (IH (dm_add rem m (sl_key s) (sl_val s) pos) (l ++ [(sl_key s, sl_val s)])) as (m' & E1 & E2 & E3 & E4 & E5 & E6).
      * exact HI'.
      * cbn [dm_add dm_size]. rewrite app_length. cbn. lia.
      * unfold dm_cap. cbn [dm_add dm_slots]. rewrite upd_length, app_length. cbn [length]. unfold dm_cap in HL. lia.
      * rewrite map_app, <- app_assoc. exact HN.
      * intros i. unfold DynMapModel.dm_slot. cbn [dm_add dm_slots dm_ts]. rewrite slot_upd by auto. destruct (i =? pos); [cbn; lia|apply HT].
      * exists m'. rewrite <- app_assoc in *. cbn [app] in *. split; auto. split; auto. split; auto. split; [|split; auto].
        rewrite E4. unfold dm_cap. cbn [dm_add dm_slots]. apply upd_length.
    + apply IH; auto.
Qed.
Lemma rehash_used_ok (old : dmap) : forall todo done m l,
  cinv m l -> length l + length todo < dm_cap m -> NoDup (map fst l ++ map (fun p => key old p) todo) ->
  (forall i, (sl_ts (dm_slot m i) <= dm_ts m)%N) ->
  map (fun p => (key m p, val m p)) done = l -> (forall p, In p done -> p < dm_cap m /\ dm_live m p = true) ->
  exists m', dm_rehash_used hash dflt old todo done m = Some m' /\
    cinv m' (l ++ map (fun p => (key old p, val old p)) todo) /\ dm_size m' = dm_size m /\
    dm_cap m' = dm_cap m /\ dm_ts m' = dm_ts m /\ (forall i, (sl_ts (dm_slot m' i) <= dm_ts m')%N) /\
    used_ok m' (l ++ map (fun p => (key old p, val old p)) todo).
Proof.
  induction todo as [|p todo IH]; intros done m l HI HL HN HT HU HU2; cbn [dm_rehash_used].
  - cbn [map]. rewrite app_nil_r. eexists. split; [reflexivity|]. split; [|split; [|split; [|split; [|split]]]]; try reflexivity.
    + eapply cinv_same; [| |exact HI]; reflexivity.
    + exact HT.
    + split; [exact HU|exact HU2].
  - cbn [map length] in *. destruct (find_ok m l (key old p) HI ltac:(lia)) as (pos & b & Ef & Hp & Hb). rewrite Ef.
    assert (Hni : ~ In (key old p) (map fst l)).
    { apply NoDup_remove_2 in HN. intros C. apply HN. apply in_app_iff. auto. }
    destruct b; [exfalso; destruct Hb as (_ & _ & E); apply Hni; apply kl_get_none in Hni; congruence|].
    destruct Hb as (Lp & Hk & Hd).
    match goal with |- exists _, dm_rehash_used _ _ _ _ _ ?x = _ /\ _ => set (m1 := x) end.
    destruct (add_ok m m1 l (key old p) (val old p) pos HI Hp Lp Hk Hd eq_refl eq_refl) as (HI' & L1 & K1 & V1 & Hold).
    assert (EC : dm_cap m1 = dm_cap m) by (unfold dm_cap; cbn [m1 dm_slots]; apply upd_length).
    destruct (IH (done ++ [pos]) m1 (l ++ [(key old p, val old p)])) as (m' & E1 & E2 & E3 & E4 & E5 & E6 & E7).
    + exact HI'.
    + rewrite EC, app_length. cbn [length]. lia.
    + rewrite map_app, <- app_assoc. exact HN.
    + intros i. unfold DynMapModel.dm_slot. cbn [m1 dm_slots dm_ts]. rewrite slot_upd by auto. destruct (i =? pos); [cbn; lia|apply HT].
    + rewrite map_app. cbn [map]. rewrite K1, V1. f_equal. rewrite <- HU. apply map_ext_in. intros q Hq.
      destruct (HU2 q Hq) as [_ Lq]. destruct (Hold q Lq) as [_ ->]. reflexivity.
    + intros q Hq. rewrite EC. apply in_app_iff in Hq. destruct Hq as [Hq|[<-|[]]]; [|auto].
      destruct (HU2 q Hq) as [Hq1 Hq2]. split; auto. apply Hold; auto.
    + exists m'. rewrite <- app_assoc in E2, E7. cbn [app] in *. rewrite EC in E4.
      split; [exact E1|]. split; [exact E2|]. split; [exact E3|]. split; [exact E4|]. split; [exact E5|]. split; [exact E6|exact E7].
Qed.

Lemma firstn_all_len {A} (l : list A) n : n = length l -> firstn n l = l.
Proof. intros ->. apply firstn_all. Qed.
Lemma filter_slots m : filter (fun s => (sl_ts s =? dm_ts m)%N) (dm_slots m) = map (dm_slot m) (filter (dm_live m) (seq 0 (dm_cap m))).
Proof.
  assert (E : dm_slots m = map (dm_slot m) (seq 0 (dm_cap m))).
  { unfold dm_cap, DynMapModel.dm_slot. symmetry. apply map_nth_seq. }
  rewrite E at 1. clear E. induction (seq 0 (dm_cap m)) as [|i q IH]; cbn [map filter]; auto.
  unfold DynMapModel.dm_live at 1. destruct (sl_ts (dm_slot m i) =? dm_ts m)%N; cbn [map]; rewrite IH; reflexivity.
Qed.
(** The live slots in order of position are the entries. *)
Lemma live_perm m l : cinv m l ->
  Permutation (map (fun i => (key m i, val m i)) (filter (dm_live m) (seq 0 (dm_cap m)))) l.
Proof.
  intros HI. apply NoDup_Permutation.
  - assert (G : forall q, NoDup q -> (forall i, In i q -> i < dm_cap m /\ dm_live m i = true) -> NoDup (map (fun i => (key m i, val m i)) q)).
    { induction q as [|i q IH]; intros HN Hq; [constructor|]. inversion HN as [|? ? Hni HN']; subst. cbn [map]. constructor.
      - intros C. apply in_map_iff in C. destruct C as (j & Ej & Hj). injection Ej as Ej _. apply Hni.
        destruct (Hq i (or_introl eq_refl)), (Hq j (or_intror Hj)). rewrite (cinv_unique m l i j HI); auto.
      - apply IH; auto. intros. apply Hq; right; auto. }
    apply G; [apply NoDup_filter, seq_NoDup|]. intros i Hi. apply filter_In in Hi. destruct Hi as [Hi Li]. apply in_seq in Hi. split; [lia|auto].
  - eapply NoDup_map_inv. apply HI.
  - intros [x y]. destruct HI as (_ & _ & H3 & H4 & _). split.
    + intros Hin. apply in_map_iff in Hin. destruct Hin as (i & E & Hi). injection E as <- <-. apply filter_In in Hi.
      destruct Hi as [Hi Li]. apply in_seq in Hi. apply H3; [lia|auto].
    + intros Hin. destruct (H4 x y Hin) as (i & Hi & Li & <- & <-). apply in_map_iff. exists i. split; auto. apply filter_In.
      split; auto. apply in_seq. lia.
Qed.

Lemma grow_ok m l : dinv m l -> exists m' l', dm_grow rem hash dflt m = Some m' /\ Permutation l l' /\ (rem = true -> l' = l) /\
  cinv m' l' /\ dm_size m' = length l' /\ dm_cap m' = 2 * dm_cap m /\ dm_ts m' = 1%N /\
  (forall i, (sl_ts (dm_slot m' i) <= dm_ts m')%N) /\ (rem = true -> used_ok m' l').
Proof.
  intros (HI & Hsz & Hcap & Hload & Hts & HT & HU). assert (HI0 := HI). destruct HI0 as (Hc & HN & _).
  assert (Hlt : length l < 2 * dm_cap m). { pose proof (Nat.div_le_upper_bound (dm_cap m * 2) 5 (dm_cap m) ltac:(lia) ltac:(lia)). lia. }
  unfold dm_grow. destruct rem eqn:Er.
  - destruct (HU eq_refl) as [HU1 HU2].
    assert (Ln : length (dm_used m) = length l) by (rewrite <- HU1, map_length; auto).
    rewrite (firstn_all_len (dm_used m)) by lia.
    match goal with |- exists m' l', dm_rehash_used _ _ _ _ _ ?x = _ /\ _ => set (m1 := x) end.
    assert (C1 : cinv m1 []) by (apply blank_cinv; lia).
    assert (EC : dm_cap m1 = 2 * dm_cap m) by (unfold dm_cap at 1; cbn [m1 dm_blank dm_slots]; apply repeat_length).
    destruct (rehash_used_ok m (dm_used m) [] m1 [] C1) as (m' & E1 & E2 & E3 & E4 & E5 & E6 & E7); auto.
    + cbn [length]. lia.
    + cbn [map app]. rewrite <- HU1, map_map in HN. exact HN.
    + intros i. unfold DynMapModel.dm_slot. cbn [m1 dm_blank dm_slots dm_ts]. rewrite slot0_nth. cbn. lia.
    + intros p [].
    + cbn [app] in *. rewrite HU1 in *. exists m', l. split; [exact E1|]. split; [reflexivity|]. split; [reflexivity|]. split; [exact E2|].
      split; [rewrite E3; exact Hsz|]. split; [lia|]. split; [exact E5|]. split; [exact E6|intros _; exact E7].
  - set (l' := map (fun i => (key m i, val m i)) (filter (dm_live m) (seq 0 (dm_cap m)))).
    assert (HP : Permutation l l') by (apply Permutation_sym, live_perm; auto).
    assert (EC : dm_cap (dm_blank dflt (2 * dm_cap m)) = 2 * dm_cap m) by (unfold dm_cap at 1; cbn [dm_blank dm_slots]; apply repeat_length).
    assert (C1 : cinv (dm_blank dflt (2 * dm_cap m)) []) by (apply blank_cinv; lia).
    pose proof (rehash_flat_ok m Er (dm_slots m) (dm_blank dflt (2 * dm_cap m)) [] C1 eq_refl) as HR. rewrite Er in HR.
    rewrite filter_slots, !map_map in HR. rewrite map_length in HR. cbn [length app map] in HR. rewrite EC in HR.
    destruct HR as (m' & E1 & E2 & E3 & E4 & E5 & E6).
    + erewrite <- (map_length (fun i => (key m i, val m i))). fold l'. rewrite <- (Permutation_length HP). lia.
    + rewrite <- map_map with (f := fun i => (key m i, val m i)) (g := fst). fold l'.
      eapply Permutation_NoDup; [apply Permutation_map; exact HP|auto].
    + intros i. unfold DynMapModel.dm_slot. cbn [dm_blank dm_slots dm_ts]. rewrite slot0_nth. cbn. lia.
    + exists m', l'. split; [exact E1|]. split; auto. split; [discriminate|]. 
      split; [exact E2|]. split; [exact E3|]. split; [lia|]. split; [exact E5|]. split; [exact E6|discriminate].
Qed.

Lemma modify_map (m : dmap) k f pos (used : list nat) (new : nat -> V) :
  In pos used -> key m pos = k -> NoDup (map (fun p => key m p) used) ->
  new pos = f (val m pos) -> (forall p, p <> pos -> new p = val m p) ->
  map (fun p => (key m p, new p)) used = kl_modify dflt k f (map (fun p => (key m p, val m p)) used).
Proof.
  intros Hin Hk HN Hnew Hoth. induction used as [|p q IH]; [destruct Hin|]. cbn [map] in HN. inversion HN as [|? ? Hni HN']; subst.
  cbn [map kl_modify]. destruct (Nat.eqb_spec (key m p) (key m pos)) as [E|E].
  - assert (p = pos). { destruct Hin as [|Hin]; auto. exfalso. apply Hni. rewrite E. apply (in_map (fun p => key m p)). auto. }
    subst p. rewrite Hnew. f_equal. apply map_ext_in. intros p Hp. f_equal. apply Hoth. intros ->. apply Hni. apply (in_map (fun p => key m p)). auto.
  - rewrite Hoth by congruence. f_equal. apply IH; auto. destruct Hin as [->|]; [congruence|auto].
Qed.
Lemma set_dinv m l pos f : dinv m l -> pos < dm_cap m -> dm_live m pos = true ->
  dinv (dm_set_at dflt m pos f) (kl_modify dflt (key m pos) f l).
Proof.
  intros (HI & Hsz & Hcap & Hload & Hts & HT & HU) Hp Lp. assert (HI0 := HI). destruct HI0 as (Hc & HN & H3 & _).
  assert (HG : kl_get (key m pos) l = Some (val m pos)) by (apply kl_get_in; auto).
  set (m' := dm_set_at dflt m pos f).
  assert (EC : dm_cap m' = dm_cap m) by (unfold dm_cap, m'; cbn [dm_set_at dm_slots]; rewrite upd_length; auto).
  assert (Sl : forall i, dm_slot m' i = if i =? pos then {| sl_key := key m pos; sl_val := f (val m pos); sl_ts := sl_ts (dm_slot m pos) |} else dm_slot m i).
  { intros i. unfold DynMapModel.dm_slot at 1, m'. cbn [dm_set_at dm_slots]. apply slot_upd; auto. }
  split; [apply set_ok; auto|]. rewrite EC. split; [cbn [m' dm_set_at dm_size]; rewrite (kl_modify_length _ _ _ _ _ HG); auto|].
  split; auto. split; [exact Hload|]. split; [exact Hts|]. split.
  - intros i. rewrite Sl. cbn [m' dm_set_at dm_ts]. destruct (i =? pos); cbn [sl_ts]; apply HT.
  - intros Hr. destruct (HU Hr) as [HU1 HU2]. split.
    + change (dm_used m') with (dm_used m).
      assert (Hin : In pos (dm_used m)).
      { assert (Hi : In (key m pos, val m pos) l) by (apply H3; auto). rewrite <- HU1 in Hi. apply in_map_iff in Hi.
        destruct Hi as (p & E & Hi). injection E as E _. destruct (HU2 p Hi) as [Hp1 Hp2]. rewrite <- (cinv_unique m l p pos HI); auto. }
      assert (HNu : NoDup (map (fun p => key m p) (dm_used m))) by (rewrite <- HU1, map_map in HN; exact HN).
      rewrite <- HU1 at 1. 
      rewrite <- (modify_map m (key m pos) f pos (dm_used m) (fun p => val m' p) Hin eq_refl HNu).
      * apply map_ext. intros p. f_equal. rewrite Sl. destruct (Nat.eqb_spec p pos) as [->|]; reflexivity.
      * rewrite Sl, Nat.eqb_refl. reflexivity.
      * intros p Hn. rewrite Sl. destruct (Nat.eqb_spec p pos); [contradiction|reflexivity].
    + intros p Hin. cbn [m' dm_set_at dm_used] in Hin. rewrite EC. destruct (HU2 p Hin) as [C1 C2]. split; auto.
      unfold DynMapModel.dm_live. rewrite Sl. cbn [m' dm_set_at dm_ts]. destruct (Nat.eqb_spec p pos) as [->|]; auto.
Qed.
(** Adding an absent key where [find] stopped, with room left. *)
Lemma add_dinv m l k pos : cinv m l -> dm_size m = length l -> 16 <= dm_cap m -> S (length l) <= dm_cap m * 2 / 5 ->
  (1 <= dm_ts m)%N -> (forall i, (sl_ts (dm_slot m i) <= dm_ts m)%N) -> (rem = true -> used_ok m l) ->
  pos < dm_cap m -> dm_live m pos = false -> kl_get k l = None ->
  (exists d, pos = probe (dm_cap m) (hash k) d /\
      forall c, c < d -> dm_live m (probe (dm_cap m) (hash k) c) = true /\ key m (probe (dm_cap m) (hash k) c) <> k) ->
  let m' := dm_add rem m k dflt pos in
  dinv m' (l ++ [(k, dflt)]) /\ pos < dm_cap m' /\ dm_live m' pos = true /\ key m' pos = k.
Proof.
  intros HI Hsz Hcap Hload Hts HT HU Hp Lp Hk Hd m'.
  destruct (add_ok m m' l k dflt pos HI Hp Lp Hk Hd eq_refl eq_refl) as (HI' & L1 & K1 & V1 & Hold).
  assert (EC : dm_cap m' = dm_cap m) by (unfold dm_cap, m'; cbn [dm_add dm_slots]; rewrite upd_length; auto).
  split; [|rewrite EC; auto]. split; auto. rewrite EC, app_length. cbn [length]. split; [cbn [m' dm_add dm_size]; lia|]. split; auto.
  split; [cbn [m' dm_add dm_size]; lia|]. split; [exact Hts|]. split.
  - intros i. unfold DynMapModel.dm_slot. cbn [m' dm_add dm_slots dm_ts]. rewrite slot_upd by auto. destruct (i =? pos); [cbn; lia|apply HT].
  - intros Hr. destruct (HU Hr) as [HU1 HU2]. unfold used_ok. 
    assert (EU : dm_used m' = dm_used m ++ [pos]) by (cbn [m' dm_add dm_used]; rewrite Hr; reflexivity).
    rewrite EU. split.
    + rewrite map_app. cbn [map]. rewrite K1, V1. f_equal. rewrite <- HU1. apply map_ext_in. intros q Hq.
      destruct (HU2 q Hq) as [_ Lq]. destruct (Hold q Lq) as [_ ->]. reflexivity.
    + intros q Hq. rewrite EC. apply in_app_iff in Hq. destruct Hq as [Hq|[<-|[]]]; [|auto].
      destruct (HU2 q Hq) as [Hq1 Hq2]. split; auto. apply Hold; auto.
Qed.

Lemma kl_modify_perm k f l l' : NoDup (map fst l) -> Permutation l l' -> Permutation (kl_modify dflt k f l) (kl_modify dflt k f l').
Proof.
  intros HN P. assert (HN' : NoDup (map fst l')) by (eapply Permutation_NoDup; [apply Permutation_map; exact P|auto]).
  assert (EG : forall x, kl_get x l = kl_get x l').
  { intros x. destruct (kl_get x l) as [v|] eqn:E.
    - symmetry. apply kl_get_in; auto. apply (Permutation_in _ P). apply kl_get_in; auto.
    - symmetry. apply kl_get_none. apply kl_get_none in E. intros C. apply E. apply (Permutation_in x (Permutation_sym (Permutation_map fst P))). auto. }
  apply NoDup_Permutation.
  - eapply NoDup_map_inv. apply kl_modify_nodup; eauto.
  - eapply NoDup_map_inv. apply kl_modify_nodup; eauto.
  - intros [x y]. rewrite <- !kl_get_in by (apply kl_modify_nodup; auto). rewrite !kl_get_modify, !EG. tauto.
Qed.

Definition linv (m : dmap) (l : list (nat * V)) : Prop := exists l', dinv m l' /\ Permutation l' l /\ (rem = true -> l' = l).

Lemma modify_ok m l k f : NoDup (map fst l) -> linv m l ->
  exists m', dm_modify rem hash dflt m k f = Some m' /\ linv m' (kl_modify dflt k f l) /\ (dm_ts m' <= dm_ts m)%N.
Proof.
  intros HN (l0 & HD & HP & HR). assert (HD0 := HD). destruct HD0 as (HI & Hsz & Hcap & Hload & Hts & HT & HU).
  assert (HN0 : NoDup (map fst l0)) by apply HI.
  assert (Hlt : length l0 < dm_cap m). { pose proof (Nat.div_lt_upper_bound (dm_cap m * 2) 5 (dm_cap m) ltac:(lia) ltac:(lia)). lia. }
  assert (fin : forall m' l1, dinv m' l1 -> Permutation l1 (kl_modify dflt k f l0) -> (rem = true -> l1 = kl_modify dflt k f l0) -> linv m' (kl_modify dflt k f l)).
  { intros m' l1 H1 H2 H3. exists l1. split; auto. split.
    - etransitivity; [exact H2|]. apply kl_modify_perm; auto.
    - intros Hr. rewrite (H3 Hr), (HR Hr). reflexivity. }
  unfold dm_modify. destruct (find_ok m l0 k HI Hlt) as (pos & b & Ef & Hp & Hb). rewrite Ef. destruct b.
  - destruct Hb as (Lp & Kp & _). eexists. split; [reflexivity|]. split; [|cbn; lia]. eapply fin; [|apply Permutation_refl|reflexivity].
    rewrite <- Kp. apply set_dinv; auto.
  - destruct Hb as (Lp & Hk & Hd). destruct (Nat.ltb_spec (dm_cap m * 2 / 5) (S (dm_size m))) as [Hgrow|Hroom].
    + destruct (grow_ok m l0 HD) as (m1 & l1 & Eg & HP1 & HR1 & HI1 & Hsz1 & Hcap1 & Hts1 & HT1 & HU1). rewrite Eg.
      assert (Len1 : length l1 = length l0) by (symmetry; apply Permutation_length; auto).
      destruct (find_ok m1 l1 k HI1 ltac:(lia)) as (pos1 & b1 & Ef1 & Hp1 & Hb1). rewrite Ef1.
      assert (Hk1 : kl_get k l1 = None).
      { apply kl_get_none. apply kl_get_none in Hk. intros C. apply Hk. apply (Permutation_in k (Permutation_sym (Permutation_map fst HP1))). auto. }
      destruct b1; [destruct Hb1 as (_ & _ & C); congruence|]. destruct Hb1 as (Lp1 & _ & Hd1).
      eexists. split; [reflexivity|].
      assert (Hload1 : S (length l1) <= dm_cap m1 * 2 / 5).
      { rewrite Hcap1. apply Nat.div_le_lower_bound; [lia|]. pose proof (Nat.mul_div_le (dm_cap m * 2) 5 ltac:(lia)). lia. }
      destruct (add_dinv m1 l1 k pos1 HI1 Hsz1 ltac:(lia) Hload1 ltac:(lia) HT1 HU1 Hp1 Lp1 Hk1 Hd1) as (HD2 & Hp2 & Lp2 & Kp2).
      split.
      * eapply (fin _ (kl_modify dflt k f (l1 ++ [(k, dflt)]))).
        -- rewrite <- Kp2 at 2. apply set_dinv; auto.
        -- assert (EQ : forall q, kl_get k q = None -> kl_modify dflt k f (q ++ [(k, dflt)]) = kl_modify dflt k f q).
           { intros q Hq. rewrite (kl_modify_new dflt k f q Hq). clear - Hq. induction q as [|[x y] q IH]; cbn [app kl_modify].
             - rewrite Nat.eqb_refl. reflexivity.
             - cbn [kl_get] in Hq. destruct (x =? k); [discriminate|]. rewrite IH by auto. reflexivity. }
           rewrite (EQ l1 Hk1). apply kl_modify_perm; [apply HI1|]. apply Permutation_sym; auto.
        -- intros Hr. rewrite (HR1 Hr). clear - Hk. rewrite (kl_modify_new dflt k f l0 Hk). induction l0 as [|[x y] q IH]; cbn [app kl_modify].
           ++ rewrite Nat.eqb_refl. reflexivity.
           ++ cbn [kl_get] in Hk. destruct (x =? k); [discriminate|]. rewrite IH by auto. reflexivity.
      * cbn [dm_set_at dm_add dm_ts]. rewrite Hts1. lia.
    + eexists. split; [reflexivity|].
      destruct (add_dinv m l0 k pos HI Hsz Hcap ltac:(lia) Hts HT HU Hp Lp Hk Hd) as (HD2 & Hp2 & Lp2 & Kp2).
      split; [|cbn; lia].
      assert (EQ : kl_modify dflt k f (l0 ++ [(k, dflt)]) = kl_modify dflt k f l0).
      { rewrite (kl_modify_new dflt k f l0 Hk). clear - Hk. induction l0 as [|[x y] q IH]; cbn [app kl_modify].
        - rewrite Nat.eqb_refl. reflexivity.
        - cbn [kl_get] in Hk. destruct (x =? k); [discriminate|]. rewrite IH by auto. reflexivity. }
      eapply (fin _ (kl_modify dflt k f (l0 ++ [(k, dflt)]))); [|rewrite EQ; reflexivity|auto].
      rewrite <- Kp2 at 2. apply set_dinv; auto.
Qed.
Lemma clear_ok m l : (dm_ts m + 1 < 2 ^ tw)%N -> linv m l -> linv (dm_clear rem tw m) [] /\ dm_ts (dm_clear rem tw m) = (dm_ts m + 1)%N.
Proof.
  intros Hlt (l0 & (HI & Hsz & Hcap & Hload & Hts & HT & HU) & _). assert (ET : dm_ts (dm_clear rem tw m) = (dm_ts m + 1)%N).
  { cbn [dm_clear dm_ts]. apply N.mod_small. lia. }
  split; auto. exists []. split; [|split; auto].
  assert (Sl : forall i, dm_slot (dm_clear rem tw m) i = dm_slot m i) by reflexivity.
  assert (Lv : forall i, dm_live (dm_clear rem tw m) i = false).
  { intros i. unfold DynMapModel.dm_live. rewrite ET, Sl. apply N.eqb_neq. specialize (HT i). lia. }
  split; [|split; [reflexivity|split; [exact Hcap|split; [cbn; lia|split; [lia|split]]]]].
  - destruct HI as (Hc & _). split; [exact Hc|]. split; [constructor|]. split; [|split].
    + intros i _ C. rewrite Lv in C. discriminate.
    + intros k v [].
    + intros i _ C. rewrite Lv in C. discriminate.
  - intros i. rewrite Sl, ET. specialize (HT i). lia.
  - intros Hr. split; [cbn [dm_clear dm_used]; rewrite Hr; reflexivity|]. cbn [dm_clear dm_used]. rewrite Hr. intros p [].
Qed.

Lemma get_ok m l k : NoDup (map fst l) -> linv m l -> dm_get hash dflt m k = Some (kl_get k l).
Proof.
  intros HN (l0 & (HI & Hsz & Hcap & Hload & _) & HP & _).
  assert (Hlt : length l0 < dm_cap m). { pose proof (Nat.div_lt_upper_bound (dm_cap m * 2) 5 (dm_cap m) ltac:(lia) ltac:(lia)). lia. }
  assert (EG : kl_get k l = kl_get k l0).
  { destruct (kl_get k l0) as [v|] eqn:E.
    - apply kl_get_in; auto. apply (Permutation_in _ HP). apply kl_get_in; auto. apply HI.
    - apply kl_get_none. apply kl_get_none in E. intros C. apply E. apply (Permutation_in k (Permutation_sym (Permutation_map fst HP))). auto. }
  unfold dm_get. destruct (find_ok m l0 k HI Hlt) as (pos & b & -> & Hp & Hb). destruct b.
  - destruct Hb as (_ & _ & E). rewrite EG, E. reflexivity.
  - destruct Hb as (_ & E & _). rewrite EG, E. reflexivity.
Qed.
Lemma for_each_ok m l : linv m l -> dm_size m = length l /\ Permutation (dm_for_each rem dflt m) l /\ (rem = true -> dm_for_each rem dflt m = l).
Proof.
  intros (l0 & (HI & Hsz & Hcap & Hload & _ & _ & HU) & HP & HR). split; [rewrite Hsz; apply Permutation_length; auto|].
  unfold dm_for_each. destruct rem.
  - destruct (HU eq_refl) as [E _]. rewrite E, (HR eq_refl). auto.
  - split; [|discriminate]. etransitivity; [apply live_perm; exact HI|auto].
Qed.
Lemma kl_step_nodup l o : NoDup (map fst l) -> NoDup (map fst (kl_step dflt l o)).
Proof. intros H. destruct o; [apply kl_modify_nodup; auto|constructor]. Qed.
Lemma run_linv ops : forall m l, NoDup (map fst l) -> linv m l -> (dm_ts m + N.of_nat (length (filter is_clear ops)) < 2 ^ tw)%N ->
  exists m', dm_run rem tw hash dflt ops m = Some m' /\ linv m' (fold_left (kl_step dflt) ops l) /\
    NoDup (map fst (fold_left (kl_step dflt) ops l)).
Proof.
  induction ops as [|o ops IH]; intros m l HN HL Hts; cbn [dm_run fold_left].
  - exists m. auto.
  - destruct o as [k f|]; cbn [dm_step kl_step filter is_clear] in *.
    + destruct (modify_ok m l k f HN HL) as (m1 & E1 & H1 & T1). rewrite E1. apply IH; auto; [apply kl_modify_nodup; auto|lia].
    + cbn [length] in Hts. destruct (clear_ok m l ltac:(lia) HL) as (H1 & T1). apply IH; auto; [constructor|]. rewrite T1. lia.
Qed.
Theorem dynmap_spec ops : (1 + N.of_nat (length (filter is_clear ops)) < 2 ^ tw)%N ->
  exists m, dm_run rem tw hash dflt ops (dm_make dflt) = Some m /\
    (forall k, dm_get hash dflt m k = Some (kl_get k (kl_run dflt ops))) /\
    dm_size m = length (kl_run dflt ops) /\
    Permutation (dm_for_each rem dflt m) (kl_run dflt ops) /\
    (rem = true -> dm_for_each rem dflt m = kl_run dflt ops).
Proof.
  intros H. destruct (run_linv ops (dm_make dflt) []) as (m & E & HL & HN); auto.
  - constructor.
  - exists []. split; [apply make_dinv|auto].
  - exists m. split; auto. split; [intros; apply get_ok; auto|]. apply for_each_ok. auto.
Qed.
End D.
