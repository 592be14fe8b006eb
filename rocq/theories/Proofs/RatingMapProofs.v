(* Proofs about Model/RatingMapModel.v. *)
From Verif Require Import Lib.Prelude Lib.Count Spec.RatingMap Model.RatingMapModel.

(** ** Accumulated lists *)
Lemma touched_iff k l : touched k l = true <-> In k (map fst l).
Proof.
  unfold touched. rewrite existsb_exists. split.
  - intros (e & He & E). apply Nat.eqb_eq in E. subst. apply in_map, He.
  - intros H. apply in_map_iff in H. destruct H as (e & <- & He). exists e. split; [exact He|apply Nat.eqb_refl].
Qed.

Lemma acc_add_new k v l : touched k l = false -> acc_add k v l = l ++ [(k, v)].
Proof.
  induction l as [|[k' v'] l IH]; cbn [touched existsb acc_add fst]; [reflexivity|].
  intros H. apply orb_false_iff in H. destruct H as [H1 H2]. rewrite H1. cbn [app]. f_equal. apply IH, H2.
Qed.

Lemma acc_add_keys k v l : map fst (acc_add k v l) = if touched k l then map fst l else map fst l ++ [k].
Proof.
  destruct (touched k l) eqn:E; [|rewrite acc_add_new, map_app by exact E; reflexivity].
  induction l as [|[k' v'] l IH]; cbn [touched existsb acc_add fst] in *; [discriminate|].
  destruct (k' =? k); [reflexivity|]. cbn [map fst]. f_equal. apply IH, E.
Qed.

Lemma acc_add_length k v l : length (acc_add k v l) = if touched k l then length l else S (length l).
Proof. rewrite <- (map_length fst), acc_add_keys. destruct (touched k l); rewrite ?app_length, map_length; cbn; lia. Qed.

Lemma nodup_snoc {A} (l : list A) x : NoDup l -> ~ In x l -> NoDup (l ++ [x]).
Proof.
  intros H Hx. apply (Permutation_NoDup (l := x :: l)); [|constructor; assumption].
  rewrite Permutation_app_comm. reflexivity.
Qed.

Lemma acc_add_nodup k v l : NoDup (map fst l) -> NoDup (map fst (acc_add k v l)).
Proof.
  intros H. rewrite acc_add_keys. destruct (touched k l) eqn:E; [exact H|].
  apply nodup_snoc; [exact H|]. intros Hi. apply touched_iff in Hi. congruence.
Qed.

Lemma acc_get_cons k e l : acc_get k (e :: l) = ((if Nat.eqb (fst e) k then snd e else 0) + acc_get k l)%Z.
Proof. unfold acc_get. cbn [filter]. destruct (fst e =? k); cbn [map zsum]; lia. Qed.

Lemma acc_get_add k v l k' : acc_get k' (acc_add k v l) = (acc_get k' l + if Nat.eqb k k' then v else 0)%Z.
Proof.
  induction l as [|[a b] l IH]; cbn [acc_add].
  - rewrite acc_get_cons. unfold acc_get. cbn. lia.
  - destruct (Nat.eqb_spec a k) as [->|Hne]; rewrite !acc_get_cons; cbn [fst snd].
    + destruct (k =? k'); lia.
    + rewrite IH. lia.
Qed.

Lemma acc_get_untouched k l : touched k l = false -> acc_get k l = 0%Z.
Proof.
  induction l as [|e l IH]; [reflexivity|]. cbn [touched existsb]. intros H. apply orb_false_iff in H.
  rewrite acc_get_cons, (proj1 H), IH by apply H. lia.
Qed.

Lemma acc_get_in k v l : NoDup (map fst l) -> In (k, v) l -> acc_get k l = v.
Proof.
  induction l as [|[a b] l IH]; intros HN HI; [destruct HI|]. cbn [map fst] in HN. inversion HN as [|? ? Hn HN']; subst.
  rewrite acc_get_cons. cbn [fst snd]. destruct HI as [E|HI].
  - injection E as -> ->. rewrite Nat.eqb_refl, acc_get_untouched; [lia|].
    destruct (touched k l) eqn:T; [|reflexivity]. apply touched_iff in T. contradiction.
  - destruct (Nat.eqb_spec a k) as [->|]; [|rewrite IH by assumption; lia].
    exfalso. apply Hn. apply in_map_iff. exists (k, v). auto.
Qed.

Lemma acc_add_values k v l : (forall e, In e l -> (0 < snd e)%Z) -> (0 < v)%Z -> forall e, In e (acc_add k v l) -> (0 < snd e)%Z.
Proof.
  intros H Hv. induction l as [|[a b] l IH]; cbn [acc_add].
  - intros e [<-|[]]. exact Hv.
  - destruct (a =? k).
    + intros e [<-|He]; [cbn; specialize (H (a, b) (or_introl eq_refl)); cbn in H; lia|apply H; right; exact He].
    + intros e [<-|He]; [apply (H (a, b)); left; reflexivity|]. apply IH; [intros e' He'; apply H; right; exact He'|exact He].
Qed.

Lemma acc_get_pos k l : (forall e, In e l -> (0 < snd e)%Z) -> touched k l = true -> (0 < acc_get k l)%Z.
Proof.
  intros H. induction l as [|e l IH]; cbn [touched existsb]; [discriminate|]. rewrite acc_get_cons. intros T.
  assert (Hn : (0 <= acc_get k l)%Z).
  { unfold acc_get. apply zsum_nonneg. intros x Hx. apply in_map_iff in Hx. destruct Hx as (e' & <- & He'). apply filter_In in He'.
    specialize (H e' (or_intror (proj1 He'))). lia. }
  destruct (fst e =? k); [specialize (H e (or_introl eq_refl)); lia|]. cbn [orb] in T.
  specialize (IH (fun e' He' => H e' (or_intror He')) T). lia.
Qed.

Lemma map_keys_get l : NoDup (map fst l) -> map (fun p => (p, acc_get p l)) (map fst l) = l.
Proof.
  intros HN. rewrite map_map. transitivity (map id l); [|apply map_id]. apply map_ext_in. intros [k v] He. cbn [fst]. rewrite (acc_get_in k v l HN He). reflexivity.
Qed.

(** ** FastResetArray *)
Record finv (n : nat) (a : fra) (l : list (nat * Z)) : Prop := mkFinv {
  fi_len : length (fa_data a) = n;
  fi_used : fa_used a = map fst l;
  fi_data : forall k, k < n -> nth k (fa_data a) 0%Z = acc_get k l;
  fi_nodup : NoDup (map fst l);
  fi_keys : forall k, In k (map fst l) -> k < n;
  fi_pos : forall e, In e l -> (0 < snd e)%Z }.

Lemma fra_modify_ok n a l k v : finv n a l -> k < n -> (0 < v)%Z -> finv n (fra_modify a k (fun x => (x + v)%Z)) (acc_add k v l).
Proof.
  intros [I1 I2 I3 I4 I5 I6] Hk Hv. unfold fra_modify. constructor; cbn [fa_data fa_used].
  - rewrite upd_length. exact I1.
  - rewrite acc_add_keys, I3 by exact Hk. destruct (touched k l) eqn:T.
    + pose proof (acc_get_pos k l I6 T). rewrite (proj2 (Z.eqb_neq _ _)) by lia. exact I2.
    + rewrite (acc_get_untouched k l T). cbn. rewrite I2. reflexivity.
  - intros k' Hk'. rewrite upd_nth, acc_get_add. rewrite I1, (proj2 (Nat.ltb_lt k n)) by exact Hk. rewrite andb_true_r.
    destruct (Nat.eqb_spec k k') as [<-|]; rewrite I3 by assumption; lia.
  - apply acc_add_nodup, I4.
  - intros k'. rewrite acc_add_keys. destruct (touched k l); [apply I5|]. rewrite in_app_iff. intros [H|[<-|[]]]; auto.
  - apply acc_add_values; assumption.
Qed.

Lemma clear_nth used : forall d k, nth k (fold_left (fun d p => upd p 0%Z d) used d) 0%Z = if in_dec Nat.eq_dec k used then 0%Z else nth k d 0%Z.
Proof.
  induction used as [|p used IH]; intros d k; [reflexivity|]. cbn [fold_left]. rewrite IH, upd_nth.
  destruct (in_dec Nat.eq_dec k used) as [H|H]; destruct (in_dec Nat.eq_dec k (p :: used)) as [H'|H']; auto.
  - exfalso. apply H'. right. exact H.
  - destruct H' as [->|H']; [|contradiction]. rewrite Nat.eqb_refl. cbn [andb]. destruct (Nat.ltb_spec k (length d)); [reflexivity|].
    apply nth_overflow. lia.
  - destruct (Nat.eqb_spec p k) as [->|]; [|reflexivity]. exfalso. apply H'. left. reflexivity.
Qed.

Lemma clear_length used : forall d, length (fold_left (fun d p => upd p 0%Z d) used d) = length d.
Proof. induction used as [|p u IH]; intros d; [reflexivity|]. cbn [fold_left]. rewrite IH. apply upd_length. Qed.

Lemma fra_clear_ok n a l : finv n a l -> finv n (fra_clear a) [].
Proof.
  intros [I1 I2 I3 I4 I5 I6]. unfold fra_clear. constructor; cbn; try contradiction; try constructor.
  - rewrite clear_length. exact I1.
  - intros k Hk. rewrite clear_nth. destruct (in_dec _ _ _) as [H|H]; [reflexivity|]. rewrite I3 by exact Hk.
    transitivity 0%Z; [|reflexivity]. apply acc_get_untouched. destruct (touched k l) eqn:T; [|reflexivity].
    apply touched_iff in T. rewrite <- I2 in T. contradiction.
Qed.

Lemma fra_make_ok n : finv n (fra_make n) [].
Proof.
  constructor; cbn; try contradiction; try constructor; try apply repeat_length.
  intros k Hk. rewrite nth_repeat. reflexivity.
Qed.

Lemma fra_run_ok n ops : keys_below n ops -> positive_values ops -> forall a l, finv n a l ->
  finv n (fra_run ops a) (fold_left acc_step ops l).
Proof.
  induction ops as [|o ops IH]; intros HK HP a l HI; [exact HI|]. unfold fra_run. cbn [fold_left].
  apply IH; [intros k v H; apply (HK k v); right; exact H|intros k v H; apply (HP k v); right; exact H|].
  destruct o as [k v|]; cbn [fra_step acc_step].
  - apply fra_modify_ok; [exact HI|apply (HK k v); left; reflexivity|apply (HP k v); left; reflexivity].
  - apply (fra_clear_ok n a l HI).
Qed.

Lemma fra_correct n ops : keys_below n ops -> positive_values ops ->
  fra_entries (fra_run ops (fra_make n)) = acc_run ops /\
  (forall k, k < n -> fra_get (fra_run ops (fra_make n)) k = acc_get k (acc_run ops)) /\
  NoDup (map fst (acc_run ops)).
Proof.
  intros HK HP. pose proof (fra_run_ok n ops HK HP _ _ (fra_make_ok n)) as [I1 I2 I3 I4 I5 I6]. fold (acc_run ops) in *.
  split; [|split; [exact I3|exact I4]].
  unfold fra_entries. rewrite I2. rewrite <- (map_keys_get (acc_run ops) I4) at 2. apply map_ext_in. intros p Hp. rewrite I3 by (apply I5, Hp). reflexivity.
Qed.

(** ** SparseMap *)
Record sminv (n : nat) (m : smap) (l : list (nat * Z)) : Prop := mkSminv {
  sp_lens : length (sp_sparse m) = n;
  sp_lend : length (sp_dense m) = n;
  sp_sz : sp_size m = length l;
  sp_ent : firstn (sp_size m) (sp_dense m) = l;
  sp_idx : forall i, i < length l -> nth (fst (nth i l (0, 0%Z))) (sp_sparse m) 0 = i;
  sp_keys : forall k, In k (map fst l) -> k < n }.

Lemma sm_nodup n m l : sminv n m l -> NoDup (map fst l).
Proof.
  intros [I1 I2 I3 I4 I5 I6]. apply (NoDup_nth _ 0). rewrite map_length. intros i j Hi Hj E.
  rewrite !(map_nth fst l (0, 0%Z)) in E. rewrite <- (I5 i Hi), <- (I5 j Hj), E. reflexivity.
Qed.

Lemma sm_dense n m l i : sminv n m l -> i < length l -> nth i (sp_dense m) (0, 0%Z) = nth i l (0, 0%Z).
Proof. intros [I1 I2 I3 I4 I5 I6] Hi. rewrite <- I4. rewrite nth_firstn_lt by lia. reflexivity. Qed.

Lemma sm_contains n m l k : sminv n m l -> smap_contains m k = touched k l.
Proof.
  intros HI. pose proof HI as [I1 I2 I3 I4 I5 I6]. unfold smap_contains.
  destruct (touched k l) eqn:T.
  - apply touched_iff in T. apply (In_nth _ _ 0) in T. destruct T as (i & Hi & E). rewrite map_length in Hi.
    rewrite (map_nth fst l (0, 0%Z)) in E. rewrite <- E, (I5 i Hi), (sm_dense n m l i HI Hi), I3.
    rewrite (proj2 (Nat.ltb_lt _ _) Hi), Nat.eqb_refl. reflexivity.
  - destruct (Nat.ltb_spec (nth k (sp_sparse m) 0) (sp_size m)) as [H|H]; [|reflexivity]. cbn [andb].
    apply Nat.eqb_neq. intros E. rewrite (sm_dense n m l _ HI) in E by lia.
    assert (In k (map fst l)). { rewrite <- E. apply in_map, nth_In. lia. }
    apply touched_iff in H0. congruence.
Qed.

Lemma sm_room n m l k : sminv n m l -> touched k l = false -> k < n -> length l < n.
Proof.
  intros HI T Hk. pose proof (sm_nodup n m l HI) as HN. pose proof HI as [I1 I2 I3 I4 I5 I6].
  assert (HN' : NoDup (k :: map fst l)).
  { constructor; [|exact HN]. intros H. apply touched_iff in H. congruence. }
  pose proof (NoDup_incl_length HN' (l' := seq 0 n)) as H. rewrite seq_length in H. cbn [length] in H. rewrite map_length in H.
  apply H. intros x [<-|Hx]; apply in_seq; [lia|]. specialize (I6 x Hx). lia.
Qed.

Lemma sm_add_ok n m l k v : sminv n m l -> k < n ->
  sminv n (smap_add m k v) (if touched k l then l else l ++ [(k, v)]).
Proof.
  intros HI Hk. unfold smap_add. rewrite (sm_contains n m l k HI). destruct (touched k l) eqn:T; [exact HI|].
  pose proof (sm_room n m l k HI T Hk) as Hr. pose proof HI as [I1 I2 I3 I4 I5 I6].
  constructor; cbn [sp_sparse sp_dense sp_size]; rewrite ?upd_length; auto.
  - rewrite app_length. cbn. lia.
  - rewrite I3 in I4 |- *. rewrite (upd_split _ _ (0, 0%Z)) by lia.
    rewrite firstn_app, firstn_firstn, firstn_length.
    replace (Nat.min (S (length l)) (length l)) with (length l) by lia.
    replace (S (length l) - Nat.min (length l) (length (sp_dense m))) with 1 by lia. rewrite I4. reflexivity.
  - intros i Hi. rewrite app_length in Hi. cbn in Hi. destruct (Nat.eq_dec i (length l)) as [->|Hne].
    + rewrite app_nth2, Nat.sub_diag by lia. cbn [nth fst]. rewrite upd_nth_same by lia. exact I3.
    + rewrite app_nth1 by lia. rewrite upd_nth_other; [apply I5; lia|]. intros E.
      assert (In k (map fst l)). { rewrite E. apply in_map, nth_In. lia. } apply touched_iff in H. congruence.
  - intros k'. rewrite map_app, in_app_iff. cbn. intros [H|[<-|[]]]; auto.
Qed.

Lemma map_fst_upd_same (l : list (nat * Z)) i w : map fst (upd i (fst (nth i l (0, 0%Z)), w) l) = map fst l.
Proof. revert i; induction l as [|e l IH]; intros [|i]; simpl; auto. rewrite IH. reflexivity. Qed.

Lemma firstn_upd {A} n i (x : A) l : i < n -> firstn n (upd i x l) = upd i x (firstn n l).
Proof. revert n i; induction l as [|h l IH]; intros [|n] [|i] H; simpl; auto; try lia. rewrite IH by lia. reflexivity. Qed.

Lemma sm_write_ok n m l i w : sminv n m l -> i < length l ->
  sminv n (mkSmap (sp_sparse m) (upd i (fst (nth i (sp_dense m) (0, 0%Z)), w) (sp_dense m)) (sp_size m))
        (upd i (fst (nth i l (0, 0%Z)), w) l).
Proof.
  intros HI Hi. pose proof HI as [I1 I2 I3 I4 I5 I6].
  constructor; cbn [sp_sparse sp_dense sp_size]; rewrite ?upd_length; auto.
  - rewrite firstn_upd by lia. rewrite I4, (sm_dense n m l i HI Hi). reflexivity.
  - intros j Hj. rewrite <- (map_nth fst), map_fst_upd_same, (map_nth fst). apply I5, Hj.
  - rewrite map_fst_upd_same. exact I6.
Qed.

Fixpoint key_index (k : nat) (l : list (nat * Z)) : nat :=
  match l with [] => 0 | e :: t => if fst e =? k then 0 else S (key_index k t) end.

Lemma key_index_spec k l : touched k l = true -> key_index k l < length l /\ fst (nth (key_index k l) l (0, 0%Z)) = k.
Proof.
  induction l as [|e l IH]; cbn [touched existsb key_index length]; [discriminate|]. destruct (Nat.eqb_spec (fst e) k) as [E|E].
  - intros _. split; [lia|exact E].
  - cbn [orb nth]. intros T. destruct (IH T). split; [lia|assumption].
Qed.

Lemma acc_add_index k v l : touched k l = true ->
  acc_add k v l = upd (key_index k l) (k, (snd (nth (key_index k l) l (0%nat, 0%Z)) + v)%Z) l.
Proof.
  induction l as [|[a b] l IH]; cbn [touched existsb key_index acc_add fst]; [discriminate|].
  destruct (Nat.eqb_spec a k) as [->|E]; [reflexivity|]. cbn [orb nth upd]. intros T. rewrite IH by exact T. reflexivity.
Qed.

(** operator[] and a write. *)
Lemma sm_modify_ok n m l k f : sminv n m l -> k < n ->
  let l0 := if touched k l then l else l ++ [(k, 0%Z)] in
  sminv n (smap_modify m k f) (upd (key_index k l0) (k, f (snd (nth (key_index k l0) l0 (0, 0%Z)))) l0) /\ touched k l0 = true.
Proof.
  intros HI Hk l0. pose proof (sm_add_ok n m l k 0%Z HI Hk) as HA. fold l0 in HA.
  assert (T : touched k l0 = true).
  { unfold l0. destruct (touched k l) eqn:T; [exact T|]. apply touched_iff. rewrite map_app, in_app_iff. right. left. reflexivity. }
  split; [|exact T]. destruct (key_index_spec k l0 T) as [K1 K2].
  unfold smap_modify. set (m' := smap_add m k 0%Z) in *.
  assert (Ei : nth k (sp_sparse m') 0 = key_index k l0).
  { rewrite <- K2 at 1. apply (sp_idx _ _ _ HA). exact K1. }
  cbv zeta. rewrite Ei. pose proof (sm_write_ok n m' l0 (key_index k l0) (f (snd (nth (key_index k l0) l0 (0, 0%Z)))) HA K1) as HW.
  rewrite K2 in HW. rewrite (sm_dense n m' l0 _ HA K1) in HW |- *. rewrite K2 in HW |- *. exact HW.
Qed.

Lemma sm_acc_ok n m l k v : sminv n m l -> k < n -> sminv n (smap_modify m k (fun x => (x + v)%Z)) (acc_add k v l).
Proof.
  intros HI Hk. destruct (sm_modify_ok n m l k (fun x => (x + v)%Z) HI Hk) as [H T]. revert H T.
  destruct (touched k l) eqn:T0; cbv zeta; intros H T.
  - rewrite acc_add_index by exact T0. exact H.
  - rewrite <- acc_add_index in H by exact T. rewrite acc_add_new by exact T0.
    replace (acc_add k v (l ++ [(k, 0%Z)])) with (l ++ [(k, v)]) in H; [exact H|].
    clear - T0. induction l as [|[a b] l IH]; cbn [app acc_add].
    + rewrite Nat.eqb_refl. reflexivity.
    + cbn [touched existsb fst] in T0. apply orb_false_iff in T0. rewrite (proj1 T0). f_equal. apply IH, T0.
Qed.

Lemma sm_clear_ok n m l : sminv n m l -> sminv n (smap_clear m) [].
Proof. intros [I1 I2 I3 I4 I5 I6]. constructor; cbn; auto; try lia; contradiction. Qed.

Lemma sm_make_ok n sparse dense : length sparse = n -> length dense = n -> sminv n (smap_make sparse dense) [].
Proof. intros H1 H2. constructor; cbn; auto; try lia; contradiction. Qed.

Lemma sm_rrun_ok n ops : keys_below n ops -> forall m l, sminv n m l -> sminv n (smap_rrun ops m) (fold_left acc_step ops l).
Proof.
  induction ops as [|o ops IH]; intros HK m l HI; [exact HI|]. unfold smap_rrun. cbn [fold_left].
  apply IH; [intros k v H; apply (HK k v); right; exact H|].
  destruct o as [k v|]; cbn [smap_rstep acc_step]; [apply sm_acc_ok; [exact HI|apply (HK k v); left; reflexivity]|apply (sm_clear_ok n m l HI)].
Qed.

Lemma smap_acc_correct n sparse dense ops : length sparse = n -> length dense = n -> keys_below n ops ->
  let m := smap_rrun ops (smap_make sparse dense) in
  smap_entries m = acc_run ops /\ NoDup (map fst (acc_run ops)) /\
  (forall k, smap_contains m k = touched k (acc_run ops)) /\
  (forall k, touched k (acc_run ops) = true -> smap_get m k = acc_get k (acc_run ops)).
Proof.
  intros H1 H2 HK m. pose proof (sm_rrun_ok n ops HK _ _ (sm_make_ok n sparse dense H1 H2)) as HI. fold m in HI. fold (acc_run ops) in HI.
  pose proof (sm_nodup n m _ HI) as HN. pose proof HI as [I1 I2 I3 I4 I5 I6].
  split; [exact I4|]. split; [exact HN|]. split; [intros k; apply (sm_contains n m _ k HI)|].
  intros k T. destruct (key_index_spec k _ T) as [K1 K2]. unfold smap_get. rewrite <- K2 at 1. rewrite (I5 _ K1), (sm_dense n m _ _ HI K1).
  symmetry. apply acc_get_in; [exact HN|]. rewrite <- K2 at 1. rewrite <- surjective_pairing. apply nth_In, K1.
Qed.

(** General histories with removal. *)
Definition represents (l : list (nat * Z)) (f : nat -> option Z) : Prop := forall k v, In (k, v) l <-> f k = Some v.

Lemma sm_remove_ok n m l k : sminv n m l -> touched k l = true ->
  let i := key_index k l in
  sminv n (smap_remove m k) (firstn (length l - 1) (upd i (nth (length l - 1) l (0, 0%Z)) l)).
Proof.
  intros HI T i. destruct (key_index_spec k l T) as [K1 K2]. fold i in K1, K2. pose proof HI as [I1 I2 I3 I4 I5 I6].
  pose proof (sm_nodup n m l HI) as HN.
  assert (Ei : nth k (sp_sparse m) 0 = i) by (rewrite <- K2; apply I5, K1).
  assert (Hn : length l <= n).
  { rewrite <- I3. rewrite <- I2. rewrite <- I4 in I3 at 1. rewrite firstn_length in I3. lia. }
  unfold smap_remove. rewrite Ei. cbv zeta.
  assert (C : (i <? sp_size m) && (fst (nth i (sp_dense m) (0, 0%Z)) =? k) = true).
  { rewrite I3, (proj2 (Nat.ltb_lt _ _) K1), (sm_dense n m l i HI K1), K2, Nat.eqb_refl. reflexivity. }
  rewrite C. rewrite I3. set (s1 := length l - 1).
  assert (Hs1 : s1 < length l) by (unfold s1; lia).
  rewrite (sm_dense n m l s1 HI Hs1), (sm_dense n m l i HI K1).
  set (lst := nth s1 l (0, 0%Z)).
  set (dense := upd s1 (nth i l (0, 0%Z)) (upd i lst (sp_dense m))).
  assert (Hfst : firstn s1 dense = firstn s1 (upd i lst l)).
  { unfold dense. rewrite <- I4. rewrite <- firstn_upd by lia. rewrite firstn_firstn, I3. replace (Nat.min s1 (length l)) with s1 by lia.
    rewrite (upd_split _ _ (0, 0%Z)) by (rewrite upd_length; lia).
    rewrite firstn_app, firstn_firstn, firstn_length, upd_length. replace (Nat.min s1 s1) with s1 by lia.
    replace (s1 - Nat.min s1 (length (sp_dense m))) with 0 by lia. cbn [firstn]. apply app_nil_r. }
  assert (Hdi : nth i dense (0, 0%Z) = lst).
  { unfold dense. rewrite upd_nth. destruct (Nat.eqb_spec s1 i) as [E|E]; cbn [andb].
    - rewrite upd_length, (proj2 (Nat.ltb_lt _ _)) by lia. unfold lst. rewrite E. reflexivity.
    - rewrite upd_nth, Nat.eqb_refl, (proj2 (Nat.ltb_lt _ _)) by lia. reflexivity. }
  rewrite Hdi.
  assert (Hlen : length (firstn s1 (upd i lst l)) = s1) by (rewrite firstn_length, upd_length; lia).
  constructor; cbn [sp_sparse sp_dense sp_size]; rewrite ?upd_length, ?Hlen; auto.
  - unfold dense. rewrite !upd_length. exact I2.
  - intros j Hj. rewrite nth_firstn_lt by exact Hj. rewrite (upd_nth i j lst), (proj2 (Nat.ltb_lt i (length l))) by exact K1. rewrite andb_true_r.
    destruct (Nat.eqb_spec i j) as [<-|E].
    + rewrite upd_nth_same; [reflexivity|]. rewrite I1. apply I6. apply in_map, nth_In, Hs1.
    + rewrite upd_nth_other; [apply I5; lia|]. intros E2. apply (NoDup_nth _ 0) with (i := s1) (j := j) in HN; rewrite ?map_length; try lia.
      rewrite !(map_nth fst l (0, 0%Z)). exact E2.
  - intros x Hx. apply in_map_iff in Hx. destruct Hx as (e & <- & He).
    assert (He' : In e (upd i lst l)).
    { rewrite <- (firstn_skipn s1 (upd i lst l)). apply in_or_app. left. exact He. }
    apply I6. apply in_map. apply (In_nth _ _ (0, 0%Z)) in He'. destruct He' as (j & Hj & <-). rewrite upd_length in Hj. rewrite upd_nth.
    clear C; destruct (_ && _); [unfold lst|]; apply nth_In; assumption.
Qed.

Lemma in_upd_iff (l : list (nat * Z)) i k w : NoDup (map fst l) -> i < length l -> fst (nth i l (0, 0%Z)) = k ->
  forall x v, In (x, v) (upd i (k, w) l) <-> if x =? k then v = w else In (x, v) l.
Proof.
  intros HN Hi Hk x v.
  assert (HN' : NoDup (map fst (upd i (k, w) l))) by (rewrite <- Hk, map_fst_upd_same; exact HN).
  assert (H1 : In (k, w) (upd i (k, w) l)).
  { rewrite <- (upd_nth_same i (k, w) (0, 0%Z) l Hi) at 1. apply nth_In. rewrite upd_length. exact Hi. }
  destruct (Nat.eqb_spec x k) as [->|Hne].
  - split; [|intros ->; exact H1]. intros H. rewrite <- (acc_get_in k v _ HN' H). apply acc_get_in; assumption.
  - split; intros H.
    + apply (In_nth _ _ (0, 0%Z)) in H. destruct H as (j & Hj & E). rewrite upd_length in Hj. rewrite upd_nth in E.
      destruct (Nat.eqb_spec i j) as [->|]; cbn [andb] in E.
      * rewrite (proj2 (Nat.ltb_lt _ _) Hj) in E. congruence.
      * rewrite <- E. apply nth_In, Hj.
    + apply (In_nth _ _ (0, 0%Z)) in H. destruct H as (j & Hj & E).
      assert (j <> i) by (intros ->; rewrite E in Hk; cbn in Hk; congruence).
      rewrite <- E. rewrite <- (upd_nth_other i j (k, w) (0, 0%Z) l) by lia. apply nth_In. rewrite upd_length. exact Hj.
Qed.

Lemma represents_touched l f k : represents l f -> touched k l = match f k with Some _ => true | None => false end.
Proof.
  intros HR. destruct (f k) as [v|] eqn:E.
  - apply touched_iff. apply HR in E. change k with (fst (k, v)). apply in_map, E.
  - destruct (touched k l) eqn:T; [|reflexivity]. apply touched_iff, in_map_iff in T. destruct T as ([k' v] & <- & H). apply HR in H. cbn in E. congruence.
Qed.

Lemma sm_run_ok n ops : sm_keys_below n ops -> forall m l f, sminv n m l -> represents l f ->
  exists l', sminv n (smap_run ops m) l' /\ represents l' (fold_left sm_spec_step ops f).
Proof.
  induction ops as [|o ops IH]; intros HK m l f HI HR; [exists l; auto|]. red in HR. unfold smap_run. cbn [fold_left].
  assert (Ho := HK o (or_introl eq_refl)).
  assert (S : exists l1, sminv n (smap_step m o) l1 /\ represents l1 (sm_spec_step f o)).
  { pose proof (sm_nodup n m l HI) as HN. destruct o as [k v|k v|k|]; cbn [smap_step sm_spec_step] in *.
    - exists (if touched k l then l else l ++ [(k, v)]). split; [apply sm_add_ok; assumption|].
      rewrite (represents_touched l f k HR). destruct (f k) as [w|] eqn:E.
      + intros x y. rewrite HR. destruct (Nat.eqb_spec x k) as [->|]; [rewrite E; tauto|tauto].
      + intros x y. rewrite in_app_iff, HR. cbn. destruct (Nat.eqb_spec x k) as [->|Hne].
        * rewrite E. split; [intros [H|[H|[]]]; congruence|intros H; right; left; congruence].
        * split; [intros [H|[H|[]]]; congruence|tauto].
    - destruct (sm_modify_ok n m l k (fun _ => v) HI Ho) as [H T]. revert H T.
      set (l0 := if touched k l then l else l ++ [(k, 0%Z)]). cbv zeta. intros H T.
      exists (upd (key_index k l0) (k, v) l0). split; [exact H|].
      destruct (key_index_spec k l0 T) as [K1 K2].
      assert (HN0 : NoDup (map fst l0)) by (exact (sm_nodup _ _ _ (sm_add_ok n m l k 0%Z HI Ho))).
      intros x y. rewrite (in_upd_iff l0 _ k v HN0 K1 K2). destruct (Nat.eqb_spec x k) as [->|Hne]; [split; congruence|].
      unfold l0. destruct (touched k l); [apply HR|]. rewrite in_app_iff, HR. cbn. split; [intros [A|[A|[]]]; congruence|tauto].
    - destruct (touched k l) eqn:T.
      + pose proof (sm_remove_ok n m l k HI T) as H. cbv zeta in H. eexists. split; [exact H|].
        pose proof (sm_nodup _ _ _ H) as HN1. destruct (key_index_spec k l T) as [K1 K2]. set (i := key_index k l) in *.
        set (s1 := length l - 1) in *. assert (Hs1 : s1 < length l) by (unfold s1; lia).
        intros x y. destruct (Nat.eqb_spec x k) as [->|Hne].
        * split; [|discriminate]. intros Hin. exfalso. apply (In_nth _ _ (0, 0%Z)) in Hin. destruct Hin as (j & Hj & E).
          rewrite firstn_length, upd_length in Hj. rewrite nth_firstn_lt in E by lia. rewrite upd_nth in E.
          rewrite (proj2 (Nat.ltb_lt i (length l)) K1), andb_true_r in E.
          assert (E' : exists j', j' < length l /\ j' <> i /\ fst (nth j' l (0, 0%Z)) = k).
          { destruct (Nat.eqb_spec i j) as [->|Hij]; [exists s1; rewrite E; cbn [fst]; repeat split; lia|].
            exists j. rewrite E. cbn [fst]. repeat split; lia. }
          destruct E' as (j' & Hj' & Hne' & E'). apply Hne'. apply (proj1 (NoDup_nth (map fst l) 0) HN); rewrite ?map_length; auto.
          rewrite !(map_nth fst l (0, 0%Z)). congruence.
        * rewrite <- HR. split; intros Hin.
          -- apply (In_nth _ _ (0, 0%Z)) in Hin. destruct Hin as (j & Hj & E).
             rewrite firstn_length, upd_length in Hj. rewrite nth_firstn_lt in E by lia. rewrite upd_nth in E.
             rewrite <- E. destruct (_ && _); apply nth_In; lia.
          -- apply (In_nth _ _ (0, 0%Z)) in Hin. destruct Hin as (j & Hj & E).
             assert (j <> i) by (intros ->; rewrite E in K2; cbn in K2; congruence).
             destruct (Nat.eq_dec j s1) as [->|Hjs].
             ++ assert (His : i < s1) by lia.
                replace (x, y) with (nth i (firstn s1 (upd i (nth s1 l (0, 0%Z)) l)) (0, 0%Z)).
                ** apply nth_In. rewrite firstn_length, upd_length. lia.
                ** rewrite nth_firstn_lt by exact His. rewrite upd_nth_same by exact K1. exact E.
             ++ replace (x, y) with (nth j (firstn s1 (upd i (nth s1 l (0, 0%Z)) l)) (0, 0%Z)).
                ** apply nth_In. rewrite firstn_length, upd_length. lia.
                ** rewrite nth_firstn_lt by lia. rewrite upd_nth_other by lia. exact E.
      + exists l. split.
        * unfold smap_remove. pose proof (sm_contains n m l k HI) as C. rewrite T in C. unfold smap_contains in C. cbv zeta in C. cbv zeta. rewrite C. exact HI.
        * rewrite (represents_touched l f k HR) in T. intros x y. rewrite HR. destruct (Nat.eqb_spec x k) as [->|]; [|tauto].
          destruct (f k); [discriminate|tauto].
    - exists []. split; [apply (sm_clear_ok n m l HI)|]. intros x y. split; [intros []|discriminate]. }
  destruct S as (l1 & S1 & S2). apply (IH (fun o' Ho' => HK o' (or_intror Ho')) _ l1); assumption.
Qed.

Lemma smap_correct n sparse dense ops : length sparse = n -> length dense = n -> sm_keys_below n ops ->
  let m := smap_run ops (smap_make sparse dense) in
  NoDup (map fst (smap_entries m)) /\
  (forall k v, In (k, v) (smap_entries m) <-> sm_spec_run ops k = Some v) /\
  (forall k, smap_contains m k = match sm_spec_run ops k with Some _ => true | None => false end) /\
  (forall k v, sm_spec_run ops k = Some v -> smap_get m k = v).
Proof.
  intros H1 H2 HK m. destruct (sm_run_ok n ops HK _ [] (fun _ => None) (sm_make_ok n sparse dense H1 H2)) as (l & HI & HR).
  { intros k v. split; [intros []|discriminate]. }
  fold m in HI. fold (sm_spec_run ops) in HR. pose proof (sm_nodup n m l HI) as HN. pose proof HI as [I1 I2 I3 I4 I5 I6].
  unfold smap_entries. rewrite I4. split; [exact HN|]. split; [exact HR|].
  assert (HC : forall k, smap_contains m k = match sm_spec_run ops k with Some _ => true | None => false end).
  { intros k. rewrite (sm_contains n m l k HI). apply represents_touched, HR. }
  split; [exact HC|]. intros k v E.
  assert (T : touched k l = true) by (rewrite (represents_touched l _ k HR), E; reflexivity).
  destruct (key_index_spec k l T) as [K1 K2]. unfold smap_get. rewrite <- K2 at 1. rewrite (I5 _ K1), (sm_dense n m _ _ HI K1).
  apply HR in E. rewrite <- (acc_get_in k v l HN E). symmetry. apply acc_get_in; [exact HN|]. rewrite <- K2 at 1. rewrite <- surjective_pairing. apply nth_In, K1.
Qed.

(** ** FixedSizeSparseMap *)
Section FixedSize.
Variable hash : nat -> nat.
Variable ms : nat.
Hypothesis Hms : 0 < ms.

Definition cur (m : fsm) (s : nat) : Prop := snd (fsm_slot m s) = fm_ts m.
Definition key_at (m : fsm) (s : nat) : nat := fst (nth (fst (fsm_slot m s)) (fm_dense m) (0, 0%Z)).
Definition probe (h d : nat) : nat := (h mod ms + d) mod ms.

Record fsinv (m : fsm) (l : list (nat * Z)) (P : list nat) : Prop := mkFsinv {
  fs_lens : length (fm_sparse m) = ms;
  fs_lend : length (fm_dense m) = ms;
  fs_ts : 0 < fm_ts m;
  fs_le : forall s, snd (fsm_slot m s) <= fm_ts m;
  fs_sz : fm_size m = length l;
  fs_ent : firstn (fm_size m) (fm_dense m) = l;
  fs_plen : length P = length l;
  fs_p : forall i, i < length l -> nth i P 0 < ms /\ fsm_slot m (nth i P 0) = (i, fm_ts m);
  fs_cur : forall s, s < ms -> cur m s -> fst (fsm_slot m s) < length l /\ nth (fst (fsm_slot m s)) P 0 = s;
  fs_nodup : NoDup (map fst l);
  fs_path : forall i, i < length l -> exists d, nth i P 0 = probe (hash (fst (nth i l (0, 0%Z)))) d /\
     forall e, e < d -> cur m (probe (hash (fst (nth i l (0, 0%Z)))) e) }.

Lemma probe_lt h d : probe h d < ms.
Proof. apply Nat.mod_upper_bound. lia. Qed.

Lemma probe_0 h : probe h 0 = h mod ms.
Proof. unfold probe. rewrite Nat.add_0_r, Nat.mod_mod by lia. reflexivity. Qed.

Lemma probe_S h d : S (probe h d) mod ms = probe h (S d).
Proof.
  unfold probe. replace (h mod ms + S d) with (S (h mod ms + d)) by lia. rewrite <- (Nat.add_1_r ((h mod ms + d) mod ms)), <- (Nat.add_1_r (h mod ms + d)).
  rewrite Nat.add_mod_idemp_l by lia. reflexivity.
Qed.

Lemma probe_all h s : s < ms -> exists d, d < ms /\ probe h d = s.
Proof.
  intros Hs. unfold probe. pose proof (Nat.mod_upper_bound h ms ltac:(lia)) as Hh. set (r := h mod ms) in *.
  destruct (le_lt_dec r s) as [H|H].
  - exists (s - r). split; [lia|]. replace (r + (s - r)) with s by lia. apply Nat.mod_small, Hs.
  - exists (ms + s - r). split; [lia|]. replace (r + (ms + s - r)) with (s + 1 * ms) by lia. rewrite Nat.mod_add by lia. apply Nat.mod_small, Hs.
Qed.

Lemma find_spec m key fuel : forall e, match fsm_find fuel ms m key (probe (hash key) e) with
  | Some s => exists d, e <= d /\ s = probe (hash key) d /\
      (forall j, e <= j < d -> cur m (probe (hash key) j) /\ key_at m (probe (hash key) j) <> key) /\
      (cur m s -> key_at m s = key)
  | None => forall j, e <= j < e + fuel -> cur m (probe (hash key) j)
  end.
Proof.
  induction fuel as [|fuel IH]; intros e; [intros j Hj; lia|]. cbn [fsm_find].
  destruct (Nat.eqb_spec (snd (fsm_slot m (probe (hash key) e))) (fm_ts m)) as [E|E].
  - destruct (Nat.eqb_spec (fst (nth (fst (fsm_slot m (probe (hash key) e))) (fm_dense m) (0, 0%Z))) key) as [K|K].
    + exists e. repeat split; try lia. intros _. exact K.
    + rewrite probe_S. specialize (IH (S e)). destruct (fsm_find _ _ _ _ _) as [s|].
      * destruct IH as (d & H1 & H2 & H3 & H4). exists d. repeat split; try lia; auto.
        -- destruct (Nat.eq_dec j e) as [->|]; [exact E|]. apply H3. lia.
        -- destruct (Nat.eq_dec j e) as [->|]; [exact K|]. apply H3. lia.
      * intros j Hj. destruct (Nat.eq_dec j e) as [->|]; [exact E|]. apply IH. lia.
  - exists e. repeat split; try lia. intros H. contradiction.
Qed.

Lemma fs_dense m l P i : fsinv m l P -> i < length l -> nth i (fm_dense m) (0, 0%Z) = nth i l (0, 0%Z).
Proof. intros I Hi. rewrite <- (fs_ent _ _ _ I). rewrite nth_firstn_lt; [reflexivity|]. rewrite (fs_sz _ _ _ I). exact Hi. Qed.

Lemma lookup_spec m l P key : fsinv m l P -> length l < ms ->
  exists s, fsm_lookup hash ms m key = Some s /\ s < ms /\
    (if touched key l then s = nth (key_index key l) P 0 /\ fsm_slot m s = (key_index key l, fm_ts m)
     else ~ cur m s /\ exists d, s = probe (hash key) d /\ forall e, e < d -> cur m (probe (hash key) e)).
Proof.
  intros I Hl. pose proof (find_spec m key ms 0) as F. rewrite probe_0 in F. unfold fsm_lookup.
  destruct (fsm_find ms ms m key (hash key mod ms)) as [s|].
  - destruct F as (d & _ & -> & F3 & F4). exists (probe (hash key) d). split; [reflexivity|]. split; [apply probe_lt|].
    destruct (touched key l) eqn:T.
    + destruct (key_index_spec key l T) as [K1 K2]. set (i := key_index key l) in *.
      destruct (fs_path _ _ _ I i K1) as (di & D1 & D2). rewrite K2 in D1, D2.
      destruct (fs_p _ _ _ I i K1) as [_ Sl].
      assert (E : probe (hash key) d = nth i P 0); [|split; [exact E|rewrite E; exact Sl]].
      destruct (lt_eq_lt_dec d di) as [[H|H]|H].
      * specialize (D2 d H). specialize (F4 D2). destruct (fs_cur _ _ _ I _ (probe_lt _ _) D2) as [C1 C2].
        rewrite <- C2. f_equal. unfold key_at in F4. rewrite (fs_dense m l P _ I C1) in F4.
        apply (proj1 (NoDup_nth (map fst l) 0) (fs_nodup _ _ _ I)); rewrite ?map_length; auto. rewrite !(map_nth fst l (0, 0%Z)). congruence.
      * subst di. symmetry. exact D1.
      * destruct (F3 di ltac:(lia)) as [_ N]. exfalso. apply N. rewrite <- D1. unfold key_at. rewrite Sl. cbn [fst].
        rewrite (fs_dense m l P i I K1). exact K2.
    + split; [|exists d; split; [reflexivity|]; intros e He; apply F3; lia].
      intros C. specialize (F4 C). destruct (fs_cur _ _ _ I _ (probe_lt _ _) C) as [C1 C2].
      unfold key_at in F4. rewrite (fs_dense m l P _ I C1) in F4.
      assert (In key (map fst l)) by (rewrite <- F4; apply in_map, nth_In, C1). apply touched_iff in H. congruence.
  - exfalso. assert (Hin : incl (seq 0 ms) P).
    { intros s Hs. apply in_seq in Hs. destruct (probe_all (hash key) s) as (d & Hd & <-); [lia|].
      destruct (fs_cur _ _ _ I (probe (hash key) d) (probe_lt _ _)) as [C1 C2]; [apply F; lia|].
      rewrite <- C2. apply nth_In. rewrite (fs_plen _ _ _ I). exact C1. }
    pose proof (NoDup_incl_length (seq_NoDup ms 0) Hin) as H. rewrite seq_length, (fs_plen _ _ _ I) in H. lia.
Qed.

Lemma fs_key_index_nodup k l i : NoDup (map fst l) -> i < length l -> fst (nth i l (0, 0%Z)) = k -> key_index k l = i.
Proof.
  intros HN Hi E. assert (T : touched k l = true) by (apply touched_iff; rewrite <- E; apply in_map, nth_In, Hi).
  destruct (key_index_spec k l T) as [K1 K2].
  apply (proj1 (NoDup_nth (map fst l) 0) HN); rewrite ?map_length; auto. rewrite !(map_nth fst l (0, 0%Z)). congruence.
Qed.

Lemma fsm_acc_ok m l P key v : fsinv m l P -> length l < ms ->
  exists m' P', fsm_modify hash ms m key (fun x => (x + v)%Z) = Some m' /\ fsinv m' (acc_add key v l) P'.
Proof.
  intros I Hl. destruct (lookup_spec m l P key I Hl) as (s & L1 & L2 & L3). unfold fsm_modify. rewrite L1.
  destruct (touched key l) eqn:T.
  - destruct L3 as [L3 L4]. rewrite L4. cbn [fst snd]. rewrite Nat.eqb_refl.
    destruct (key_index_spec key l T) as [K1 K2]. rewrite (fs_dense m l P _ I K1), K2.
    rewrite (acc_add_index key v l T). set (i := key_index key l) in *. set (w := (snd (nth i l (0%nat, 0%Z)) + v)%Z).
    eexists. exists P. split; [reflexivity|].
    assert (Hk : map fst (upd i (key, w) l) = map fst l) by (rewrite <- K2; apply map_fst_upd_same).
    assert (Hkn : forall j, fst (nth j (upd i (key, w) l) (0, 0%Z)) = fst (nth j l (0, 0%Z))).
    { intros j. rewrite <- !(map_nth fst), Hk. reflexivity. }
    constructor; cbn [fm_sparse fm_dense fm_size fm_ts]; rewrite ?upd_length; unfold cur, fsm_slot; cbn [fm_sparse fm_dense fm_size fm_ts]; try apply I.
    + rewrite firstn_upd; [rewrite (fs_ent _ _ _ I); reflexivity|]. rewrite (fs_sz _ _ _ I). exact K1.
    + rewrite Hk. apply I.
    + intros j Hj. rewrite Hkn. apply I, Hj.
  - destruct L3 as [L3 (d & L4 & L5)]. unfold cur in L3. rewrite (proj2 (Nat.eqb_neq _ _) L3). eexists. exists (P ++ [s]). split; [reflexivity|].
    rewrite (acc_add_new key v l T). cbn [Z.add].
    set (m' := mkFsm _ _ _ _).
    assert (Hsl : forall x, fsm_slot m' x = if s =? x then (fm_size m, fm_ts m) else fsm_slot m x).
    { intros x. unfold fsm_slot, m'. cbn [fm_sparse]. rewrite upd_nth, (fs_lens _ _ _ I), (proj2 (Nat.ltb_lt _ _) L2), andb_true_r. reflexivity. }
    assert (Hcm : forall x, cur m x -> cur m' x).
    { intros x Hx. unfold cur. rewrite Hsl. destruct (s =? x); [reflexivity|]. exact Hx. }
    constructor.
    + unfold m'. cbn [fm_sparse]. rewrite upd_length. apply I.
    + unfold m'. cbn [fm_dense]. rewrite upd_length. apply I.
    + apply I.
    + intros x. rewrite Hsl. change (fm_ts m') with (fm_ts m). destruct (s =? x); [reflexivity|apply I].
    + unfold m'. cbn [fm_size]. rewrite app_length, (fs_sz _ _ _ I). cbn. lia.
    + unfold m'. cbn [fm_size fm_dense]. rewrite (fs_sz _ _ _ I). rewrite (upd_split _ _ (0, 0%Z)) by (rewrite (fs_lend _ _ _ I); exact Hl).
      rewrite firstn_app, firstn_firstn, firstn_length, (fs_lend _ _ _ I).
      replace (Nat.min (S (length l)) (length l)) with (length l) by lia.
      replace (S (length l) - Nat.min (length l) ms) with 1 by lia.
      pose proof (fs_ent _ _ _ I) as E. rewrite (fs_sz _ _ _ I) in E. rewrite E. reflexivity.
    + rewrite !app_length, (fs_plen _ _ _ I). reflexivity.
    + intros i Hi. rewrite app_length in Hi. cbn in Hi. rewrite Hsl. change (fm_ts m') with (fm_ts m).
      destruct (Nat.eq_dec i (length l)) as [->|Hne].
      * rewrite app_nth2, (fs_plen _ _ _ I), Nat.sub_diag by (rewrite (fs_plen _ _ _ I); lia). cbn [nth].
        rewrite Nat.eqb_refl, (fs_sz _ _ _ I). split; [exact L2|reflexivity].
      * rewrite app_nth1 by (rewrite (fs_plen _ _ _ I); lia). destruct (fs_p _ _ _ I i ltac:(lia)) as [P1 P2]. split; [exact P1|].
        destruct (Nat.eqb_spec s (nth i P 0)) as [->|]; [|exact P2]. exfalso. apply L3. rewrite P2. reflexivity.
    + intros x Hx Hc. unfold cur in Hc. rewrite Hsl in Hc |- *. rewrite app_length. destruct (Nat.eqb_spec s x) as [<-|Hne].
      * cbn [fst]. rewrite (fs_sz _ _ _ I). cbn. split; [lia|]. rewrite app_nth2, (fs_plen _ _ _ I), Nat.sub_diag by (rewrite (fs_plen _ _ _ I); lia). reflexivity.
      * destruct (fs_cur _ _ _ I x Hx Hc) as [C1 C2]. split; [lia|]. rewrite app_nth1 by (rewrite (fs_plen _ _ _ I); lia). exact C2.
    + rewrite map_app. apply nodup_snoc; [apply I|]. intros H. apply touched_iff in H. cbn in H. congruence.
    + intros i Hi. rewrite app_length in Hi. cbn in Hi. destruct (Nat.eq_dec i (length l)) as [->|Hne].
      * rewrite app_nth2, (fs_plen _ _ _ I), Nat.sub_diag by (rewrite (fs_plen _ _ _ I); lia).
        rewrite app_nth2, Nat.sub_diag by lia. cbn [nth fst]. exists d. split; [exact L4|]. intros e He. apply Hcm, L5, He.
      * rewrite app_nth1 by (rewrite (fs_plen _ _ _ I); lia). rewrite (app_nth1 l) by lia.
        destruct (fs_path _ _ _ I i ltac:(lia)) as (d' & D1 & D2). exists d'. split; [exact D1|]. intros e He. apply Hcm, D2, He.
Qed.

Lemma fsm_clear_ok m l P : fsinv m l P -> fsinv (fsm_clear m) [] [].
Proof.
  intros I.
  assert (N : forall s, ~ cur (fsm_clear m) s).
  { intros s H. pose proof (fs_le _ _ _ I s). unfold cur, fsm_slot in *. cbn in *. lia. }
  constructor; try (intros i Hi; cbn in Hi; lia).
  - apply I.
  - apply I.
  - cbn. lia.
  - intros s. pose proof (fs_le _ _ _ I s). unfold fsm_slot in *. cbn. lia.
  - reflexivity.
  - reflexivity.
  - reflexivity.
  - intros s _ H. destruct (N s H).
  - constructor.
Qed.

Lemma fsm_make_ok : fsinv (fsm_make ms) [] [].
Proof.
  assert (H : forall s, fsm_slot (fsm_make ms) s = (0, 0)) by (intros s; unfold fsm_slot, fsm_make; cbn; apply nth_repeat).
  constructor; try (intros i Hi; cbn in Hi; lia).
  - apply repeat_length.
  - apply repeat_length.
  - cbn. lia.
  - intros s. rewrite H. cbn. lia.
  - reflexivity.
  - reflexivity.
  - reflexivity.
  - intros s _ Hc. unfold cur in Hc. rewrite H in Hc. cbn in Hc. lia.
  - constructor.
Qed.

Lemma fsm_run_ok ops : forall l0 m P, fsinv m l0 P -> (forall j, length (fold_left acc_step (firstn j ops) l0) < ms) ->
  exists m' P', fsm_run hash ms ops (Some m) = Some m' /\ fsinv m' (fold_left acc_step ops l0) P'.
Proof.
  induction ops as [|o ops IH]; intros l0 m P I HC; [exists m, P; auto|]. unfold fsm_run. cbn [fold_left].
  assert (S : exists m1 P1, fsm_step hash ms (Some m) o = Some m1 /\ fsinv m1 (acc_step l0 o) P1).
  { destruct o as [k v|]; cbn [fsm_step acc_step].
    - apply (fsm_acc_ok m l0 P); [exact I|apply (HC 0)].
    - exists (fsm_clear m), []. split; [reflexivity|]. apply (fsm_clear_ok m l0 P I). }
  destruct S as (m1 & P1 & -> & I1). apply (IH _ _ P1); [exact I1|]. intros j. apply (HC (S j)).
Qed.

Lemma fsm_correct ops : at_most_keys (ms - 1) ops ->
  exists m, fsm_run hash ms ops (Some (fsm_make ms)) = Some m /\
    fsm_entries m = acc_run ops /\ NoDup (map fst (acc_run ops)) /\
    (forall k, fsm_contains hash ms m k = Some (touched k (acc_run ops))) /\
    (forall k, touched k (acc_run ops) = true -> fsm_get hash ms m k = Some (acc_get k (acc_run ops))).
Proof.
  intros HC. destruct (fsm_run_ok ops [] (fsm_make ms) [] fsm_make_ok) as (m & P & R & I).
  { intros j. specialize (HC j). unfold acc_run in HC. lia. }
  fold (acc_run ops) in I. exists m. split; [exact R|]. split; [apply (fs_ent _ _ _ I)|]. split; [apply I|].
  assert (Hl : length (acc_run ops) < ms).
  { specialize (HC (length ops)). rewrite firstn_all in HC. lia. }
  split.
  - intros k. destruct (lookup_spec m _ P k I Hl) as (s & L1 & L2 & L3). unfold fsm_contains. rewrite L1. f_equal.
    destruct (touched k (acc_run ops)); [rewrite (proj2 L3); apply Nat.eqb_refl|]. apply Nat.eqb_neq, (proj1 L3).
  - intros k T. destruct (lookup_spec m _ P k I Hl) as (s & L1 & L2 & L3). unfold fsm_get. rewrite L1, T in *. f_equal.
    rewrite (proj2 L3). cbn [fst]. destruct (key_index_spec k _ T) as [K1 K2]. rewrite (fs_dense m _ P _ I K1).
    symmetry. apply acc_get_in; [apply I|]. rewrite <- K2 at 1. rewrite <- surjective_pairing. apply nth_In, K1.
Qed.
End FixedSize.

(** ** RatingMap *)
Lemma at_most_mono a b ops : a <= b -> at_most_keys a ops -> at_most_keys b ops.
Proof. intros H HA j. specialize (HA j). lia. Qed.

Lemma rmap_correct hash max_size bound ops :
  at_most_keys bound ops -> keys_below max_size ops -> positive_values ops ->
  rmap_execute hash max_size bound ops = Some (acc_run ops).
Proof.
  intros HA HK HP. unfold rmap_execute, rmap_select.
  destruct (bound <? 128 / 3) eqn:E1.
  - apply Nat.ltb_lt in E1. change (128 / 3) with 42 in E1.
    destruct (fsm_correct hash 128 ltac:(lia) ops) as (m & R & E & _); [apply (at_most_mono bound); [lia|exact HA]|].
    rewrite R. cbn [option_map]. rewrite E. reflexivity.
  - destruct ((max_size <? Z.to_nat 32768) || (Z.to_nat 32768 / 3 <? bound)) eqn:E2.
    + rewrite (proj1 (fra_correct max_size ops HK HP)). reflexivity.
    + apply orb_false_iff in E2. destruct E2 as [_ E2]. apply Nat.ltb_ge in E2.
      assert (Hb : Z.to_nat 32768 / 3 <= Z.to_nat 32768 - 1).
      { assert (Z.to_nat 32768 / 3 < Z.to_nat 32768); [apply Nat.div_lt; lia|lia]. }
      destruct (fsm_correct hash (Z.to_nat 32768) ltac:(lia) ops) as (m & R & E & _); [apply (at_most_mono bound); [lia|exact HA]|].
      rewrite R. cbn [option_map]. rewrite E. reflexivity.
Qed.
