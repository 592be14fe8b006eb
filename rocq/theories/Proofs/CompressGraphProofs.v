(* High degree nodes, whole graphs, total edge weight (Model/CompressModel.v). *)
From Verif Require Import Lib.Prelude Lib.Count Spec.Compress Spec.CompressInput Model.MathModel Model.VarintModel Model.CompressModel
  Proofs.VarintProofs Proofs.CompressProofs.
Local Open Scope Z_scope.

(** ** Parts *)
Lemma num_parts_spec d : (num_parts d = (d + 999) / 1000)%nat.
Proof.
  unfold num_parts, div_ceil. change (N.of_nat kHighDegreePartLength) with 1000%N.
  destruct (N.eqb_spec (N.of_nat d mod 1000) 0); dlia.
Qed.
Lemma part_of_spec nb i : (i < num_parts (length nb))%nat -> part_of nb i = firstn 1000 (skipn (i * 1000) nb).
Proof.
  intros Hi. unfold part_of. cbv zeta. change kHighDegreePartLength with 1000%nat.
  destruct (Nat.eqb_spec (i + 1) (num_parts (length nb))) as [E|E]; [|reflexivity].
  rewrite num_parts_spec in *.
  assert (Hl : N.to_nat (mod_ceil (N.of_nat (length nb)) (N.of_nat 1000)) = length (skipn (i * 1000) nb)).
  { rewrite skipn_length. unfold mod_ceil. cbv zeta. change (N.of_nat 1000) with 1000%N. destruct (N.eqb_spec (N.of_nat (length nb) mod 1000) 0); dlia. }
  rewrite Hl. rewrite firstn_all. symmetry. apply firstn_all2. rewrite skipn_length. dlia.
Qed.
Lemma part_length nb i : (i < num_parts (length nb))%nat ->
  length (part_of nb i) = (if Nat.eqb (i + 1) (num_parts (length nb)) then length nb - i * kHighDegreePartLength else kHighDegreePartLength)%nat /\
  part_of nb i <> [].
Proof.
  intros Hi. rewrite part_of_spec by exact Hi. change kHighDegreePartLength with 1000%nat.
  rewrite num_parts_spec in Hi.
  assert (Hl : length (firstn 1000 (skipn (i * 1000) nb)) = (if Nat.eqb (i + 1) (num_parts (length nb)) then length nb - i * 1000 else 1000)%nat).
  { rewrite firstn_length, skipn_length. rewrite num_parts_spec. destruct (Nat.eqb_spec (i+1) ((length nb + 999)/1000)); dlia. }
  split; [exact Hl|]. intros E. rewrite E in Hl. cbn [length] in Hl. rewrite num_parts_spec in Hl.
  destruct (Nat.eqb_spec (i + 1) ((length nb + 999) / 1000)); dlia.
Qed.

Lemma chunks_concat {A} (l : list A) k : (0 < k)%nat -> forall n, (length l <= n * k)%nat ->
  flat_map (fun i => firstn k (skipn (i * k) l)) (seq 0 n) = l.
Proof.
  intros Hk n Hn.
  assert (H : forall m, (m <= n)%nat -> flat_map (fun i => firstn k (skipn (i * k) l)) (seq 0 m) = firstn (m * k) l).
  { induction m as [|m IH]; intros Hm; [reflexivity|].
    rewrite seq_snoc, flat_map_app, IH by lia. cbn [flat_map Nat.add]. rewrite app_nil_r.
    replace (S m * k)%nat with (m * k + k)%nat by lia.
    rewrite <- (firstn_skipn (m * k) l) at 3. rewrite firstn_app, firstn_firstn.
    replace (Nat.min (m * k + k) (m * k)) with (m * k)%nat by lia.
    f_equal. rewrite firstn_length. destruct (Nat.le_gt_cases (m * k) (length l)).
    - f_equal; lia.
    - rewrite (skipn_all2 l) by lia. rewrite !firstn_nil. reflexivity. }
  rewrite H by lia. apply firstn_all2. lia.
Qed.
Lemma parts_concat nb : flat_map (part_of nb) (seq 0 (num_parts (length nb))) = nb.
Proof.
  transitivity (flat_map (fun i => firstn 1000 (skipn (i * 1000) nb)) (seq 0 (num_parts (length nb)))).
  - rewrite !flat_map_concat_map. f_equal. apply map_ext_in. intros i Hi. apply in_seq in Hi. apply part_of_spec. lia.
  - apply chunks_concat; [lia|]. rewrite num_parts_spec. dlia.
Qed.

(** ** Little-endian words *)
Lemma store_load k x suffix : 0 <= x < 2 ^ (8 * Z.of_nat k) -> load_le k (store_le k x ++ suffix) = Some x.
Proof.
  revert x; induction k as [|k IH]; intros x Hx.
  - cbn. simpl in Hx. f_equal. lia.
  - cbn [store_le app load_le]. rewrite IH.
    + f_equal. pose proof (Z.div_mod x 256 ltac:(lia)). lia.
    + replace (8 * Z.of_nat (S k)) with (8 + 8 * Z.of_nat k) in Hx by lia. rewrite Z.pow_add_r in Hx by lia.
      change (2 ^ 8) with 256 in Hx. split; [apply Z.div_pos; lia|]. apply Z.div_lt_upper_bound; lia.
Qed.
Lemma store_le_length k x : length (store_le k x) = k.
Proof. revert x; induction k; intros; cbn [store_le length]; auto. Qed.

Section Node.
Variable c : cconf.
Hypothesis Hc : conf_ok c.

Lemma id_bytes_wn : 8 * Z.of_nat (id_bytes c) = c_wn c.
Proof. unfold id_bytes. destruct Hc as ([H|H] & _); rewrite H; reflexivity. Qed.

Definition part_entry (nb : list nbr) (p : nat) (off : Z) : Z :=
  off + (if 0 <? num_ivs c (part_of nb p) then 2 ^ (c_wn c - 1) else 0).

Lemma part_entry_eq nb p off : 0 <= off < 2 ^ (c_wn c - 1) ->
  (let e := wrap_u (c_wn c) off in
   if 0 <? num_ivs c (part_of nb p) then Z.lor e (2 ^ (c_wn c - 1)) else e) = part_entry nb p off /\
  0 <= part_entry nb p off < 2 ^ c_wn c.
Proof.
  intros Ho. pose proof (wn_pos c Hc). pose proof (pow2_half (c_wn c) ltac:(lia)) as Hh. pose proof (pow2_pos (c_wn c - 1) ltac:(lia)).
  unfold part_entry. rewrite wrap_u_small by lia. cbv zeta. destruct (0 <? _).
  - pose proof (lor_disjoint off 1 (c_wn c - 1) ltac:(lia) ltac:(lia)) as Hl. rewrite !Z.mul_1_l in Hl. rewrite Hl. lia.
  - lia.
Qed.

Lemma part_loop_spec node nb ps : forall off tot,
  0 <= off ->
  let '(table, data, tot') := encode_part_loop c node nb ps off tot in
  off + Z.of_nat (length data) < 2 ^ (c_wn c - 1) ->
  length table = (id_bytes c * length ps)%nat /\
  forall j suffix, (j < length ps)%nat -> exists pre post totj,
    data = pre ++ fst (add_edges c node (num_ivs c (part_of nb (nth j ps 0%nat))) (part_of nb (nth j ps 0%nat)) totj) ++ post /\
    load_le (id_bytes c) (skipn (id_bytes c * j) (table ++ suffix)) =
      Some (part_entry nb (nth j ps 0%nat) (off + Z.of_nat (length pre))).
Proof.
  induction ps as [|p ps IH]; intros off tot Hoff.
  - cbn. intros _. split; [lia|]. intros; lia.
  - cbn [encode_part_loop].
    assert (Hn : (if c_iv c then count_intervals (c_wn c) (part_of nb p) else 0) = num_ivs c (part_of nb p)) by reflexivity.
    rewrite Hn.
    destruct (add_edges c node (num_ivs c (part_of nb p)) (part_of nb p) tot) as [d1 tot1] eqn:Ea.
    specialize (IH (off + Z.of_nat (length d1)) tot1 ltac:(lia)).
    destruct (encode_part_loop c node nb ps (off + Z.of_nat (length d1)) tot1) as [[table' data'] tot'].
    intros Hsz. rewrite app_length in Hsz. destruct IH as (Hl & IH); [lia|].
    pose proof (part_entry_eq nb p off ltac:(lia)) as (He & Her). cbv zeta in He. rewrite He.
    split.
    + rewrite app_length, store_le_length, Hl. cbn [length]. lia.
    + intros [|j] suffix Hj; cbn [nth length] in *.
      * exists [], data', tot. rewrite Ea. cbn [fst app]. split; [reflexivity|].
        rewrite Nat.mul_0_r. cbn [skipn]. rewrite <- app_assoc. rewrite store_load by (rewrite id_bytes_wn; lia).
        cbn [length]. f_equal. f_equal. lia.
      * destruct (IH j suffix ltac:(lia)) as (pre & post & totj & Hd & Hld).
        exists (d1 ++ pre), post, totj. rewrite Hd. rewrite <- !app_assoc. split; [reflexivity|].
        replace (id_bytes c * S j)%nat with (length (store_le (id_bytes c) (part_entry nb p off)) + id_bytes c * j)%nat by (rewrite store_le_length; lia).
        rewrite <- skipn_skipn, skipn_app_exact by reflexivity. rewrite Hld. rewrite app_length. f_equal. f_equal. lia.
Qed.

Context {S : Type}.
Variable cb : S -> Z -> Z -> S * bool.

(** The order in which the neighbours of a node are decoded. *)
Definition is_split (nb : list nbr) : bool := c_hd c && (kHighDegreeThreshold <=? Z.of_nat (length nb)).
Definition node_order (nb : list nbr) : list nbr :=
  if is_split nb then flat_map (fun i => decode_order c (part_of nb i)) (seq 0 (num_parts (length nb)))
  else decode_order c nb.

Definition node_order_par (sched : nat -> list nat) (nb : list nbr) : list nbr :=
  if is_split nb then flat_map (fun i => decode_order c (part_of nb i)) (sched (num_parts (length nb)))
  else decode_order c nb.

Lemma part_ok nb i : Forall (nbr_ok c) nb -> Forall (nbr_ok c) (part_of nb i).
Proof.
  intros H. rewrite Forall_forall in *. intros x Hx. apply H. unfold part_of in Hx. cbv zeta in Hx.
  revert Hx. match goal with |- In x (firstn ?a (skipn ?b nb)) -> _ => intros Hx;
    rewrite <- (firstn_skipn b nb); apply in_or_app; right; rewrite <- (firstn_skipn a (skipn b nb)); apply in_or_app; left; exact Hx end.
Qed.

Lemma decode_order_perm' nb : Forall (nbr_ok c) nb -> Permutation nb (decode_order c nb).
Proof. exact (decode_order_perm c Hc nb). Qed.

Lemma node_order_perm nb : Forall (nbr_ok c) nb -> Permutation nb (node_order nb).
Proof.
  intros Hnb. unfold node_order. destruct (is_split nb); [|apply decode_order_perm'; auto].
  rewrite <- (parts_concat nb) at 1.
  generalize (seq 0 (num_parts (length nb))) as ps. induction ps as [|p ps IH]; [constructor|].
  cbn [flat_map]. apply Permutation_app; [|exact IH]. apply decode_order_perm'; apply part_ok; exact Hnb.
Qed.

Lemma node_order_par_perm sched nb : Forall (nbr_ok c) nb -> (forall np, Permutation (sched np) (seq 0 np)) ->
  Permutation nb (node_order_par sched nb).
Proof.
  intros Hnb Hs. eapply perm_trans; [apply node_order_perm; exact Hnb|].
  unfold node_order, node_order_par. destruct (is_split nb); [|reflexivity].
  apply Permutation_flat_map, Permutation_sym, Hs.
Qed.

Lemma land_low x w : 0 <= w -> Z.land x (2 ^ (w + 1) - 1 - 2 ^ w) = x mod 2 ^ w.
Proof. intros. rewrite <- land_ones' by lia. f_equal. rewrite Z.pow_add_r by lia. lia. Qed.

Lemma decode_part_ok node nb p table data suffix s tot0 :
  Forall (nbr_ok c) nb -> Z.of_nat (length nb) < 2 ^ c_wn c -> 0 <= node < 2 ^ c_wn c ->
  encode_part_loop c node nb (seq 0 (num_parts (length nb))) (Z.of_nat (id_bytes c * num_parts (length nb))) tot0 = (table, data, tot0) \/
  (exists t, encode_part_loop c node nb (seq 0 (num_parts (length nb))) (Z.of_nat (id_bytes c * num_parts (length nb))) tot0 = (table, data, t)) ->
  Z.of_nat (id_bytes c * num_parts (length nb)) + Z.of_nat (length data) < 2 ^ (c_wn c - 1) ->
  (p < num_parts (length nb))%nat ->
  decode_part c cb (table ++ data ++ suffix) node (length nb) p s =
    Some (visit cb s (map (eff c) (decode_order c (part_of nb p)))).
Proof.
  intros Hnb Hsize Hnode He Hsz Hp.
  assert (He' : exists t, encode_part_loop c node nb (seq 0 (num_parts (length nb))) (Z.of_nat (id_bytes c * num_parts (length nb))) tot0 = (table, data, t)) by (destruct He as [He|He]; eauto).
  destruct He' as (t & He'). clear He.
  pose proof (part_loop_spec node nb (seq 0 (num_parts (length nb))) (Z.of_nat (id_bytes c * num_parts (length nb))) tot0 ltac:(lia)) as Hs.
  rewrite He' in Hs. destruct (Hs Hsz) as (Htl & Hpart). clear Hs.
  rewrite seq_length in Htl, Hpart.
  destruct (Hpart p (data ++ suffix) Hp) as (pre & post & totj & Hd & Hld). clear Hpart.
  rewrite seq_nth in Hd, Hld by exact Hp. cbn [Nat.add] in Hd, Hld.
  unfold decode_part. rewrite Hld.
  pose proof (wn_pos c Hc) as Hwn. pose proof (pow2_half (c_wn c) ltac:(lia)) as Hh.
  set (off := Z.of_nat (id_bytes c * num_parts (length nb)) + Z.of_nat (length pre)) in *.
  assert (Hoff : 0 <= off < 2 ^ (c_wn c - 1)) by (subst off; rewrite Hd, app_length in Hsz; lia).
  pose proof (part_length nb p Hp) as (Hpl & Hpne).
  assert (Hoff' : (if c_iv c then Z.land (part_entry nb p off) (2 ^ c_wn c - 1 - 2 ^ (c_wn c - 1)) else part_entry nb p off) = off).
  { unfold part_entry. destruct (c_iv c) eqn:Eiv.
    - replace (c_wn c) with (c_wn c - 1 + 1) at 2 by lia. rewrite land_low by lia.
      destruct (0 <? num_ivs c (part_of nb p)).
      + replace (off + 2 ^ (c_wn c - 1)) with (off + 1 * 2 ^ (c_wn c - 1)) by lia.
        rewrite Z.mod_add by lia. apply Z.mod_small; lia.
      + rewrite Z.add_0_r. apply Z.mod_small; lia.
    - unfold num_ivs. rewrite Eiv. cbn [Z.ltb Z.compare]. lia. }
  assert (Hiv : c_iv c && negb (Z.land (part_entry nb p off) (2 ^ (c_wn c - 1)) =? 0) = (0 <? num_ivs c (part_of nb p))).
  { unfold part_entry. destruct (c_iv c) eqn:Eiv; cbn [andb].
    - rewrite land_pow2 by (try lia; destruct (0 <? _); lia).
      destruct (0 <? num_ivs c (part_of nb p)).
      + replace (off + 2 ^ (c_wn c - 1)) with (off + 1 * 2 ^ (c_wn c - 1)) by lia.
        rewrite Z.div_add, Z.div_small by lia. change ((0 + 1) mod 2) with 1.
        destruct (Z.eqb_spec (1 * 2 ^ (c_wn c - 1)) 0); [lia|reflexivity].
      + rewrite Z.add_0_r, Z.div_small by lia. reflexivity.
    - unfold num_ivs. rewrite Eiv. reflexivity. }
  rewrite Hiv, Hoff'.
  replace (Z.of_nat (length (table ++ data ++ suffix)) <? off) with false.
  2:{ rewrite !app_length, Htl. rewrite Hd, !app_length. subst off. lia. }
  rewrite <- Hpl.
  replace (Z.to_nat off) with (length table + length pre)%nat by (rewrite Htl; subst off; lia).
  rewrite <- skipn_skipn, skipn_app_exact by reflexivity. rewrite Hd, <- !app_assoc, skipn_app_exact by reflexivity.
  apply add_edges_ok; try assumption.
  - apply part_ok; exact Hnb.
  - rewrite Hpl. destruct (Nat.eqb _ _); [lia|]. change kHighDegreePartLength with 1000%nat.
    assert (2 ^ 32 <= 2 ^ c_wn c) by (apply Z.pow_le_mono_r; lia). lia.
Qed.

Lemma decode_parts_visit data node degree (f : nat -> list nbr) ps :
  (forall p s, In p ps -> decode_part c cb data node degree p s = Some (visit cb s (map (eff c) (f p)))) ->
  forall s, decode_parts c cb data node degree ps s = Some (visit cb s (map (eff c) (flat_map f ps))).
Proof.
  intros H. induction ps as [|p ps IH]; intros s; [reflexivity|].
  cbn [decode_parts flat_map]. rewrite H by (left; reflexivity). rewrite map_app, visit_app.
  destruct (visit cb s (map (eff c) (f p))) as [s' [|]]; [reflexivity|]. apply IH. intros. apply H. right. assumption.
Qed.

Lemma decode_parts_par_visit data node degree (f : nat -> list nbr) ps :
  (forall s v w, snd (cb s v w) = false) ->
  (forall p s, In p ps -> decode_part c cb data node degree p s = Some (visit cb s (map (eff c) (f p)))) ->
  forall s, decode_parts_par c cb data node degree ps s = Some (fst (visit cb s (map (eff c) (flat_map f ps)))).
Proof.
  intros Hns H. induction ps as [|p ps IH]; intros s; [reflexivity|].
  cbn [decode_parts_par flat_map]. rewrite H by (left; reflexivity). rewrite map_app, visit_app.
  assert (Hno : forall l s, snd (visit cb s l) = false).
  { induction l as [|[v w] l IHl]; intros s0; [reflexivity|]. cbn [visit]. specialize (Hns s0 v w).
    destruct (cb s0 v w) as [s1 st]. cbn [snd] in Hns. subst st. apply IHl. }
  specialize (Hno (map (eff c) (f p)) s).
  destruct (visit cb s (map (eff c) (f p))) as [s' st]. cbn [snd] in Hno. subst st. apply IH. intros. apply H. right. assumption.
Qed.

(** Size limit of the offset table of a split neighbourhood: offsets must fit below the flag bit. *)
Definition node_bytes (node : Z) (nb : list nbr) : list Z := fst (add_sorted c node nb 0).

Lemma wstate_indep l : forall st1 st2, fst st1 = fst st2 -> fst (wst_after c l st1) = fst (wst_after c l st2).
Proof.
  induction l as [|x l IH]; intros st1 st2 H; [exact H|]. cbn [wst_after fold_left]. apply IH.
  unfold encode_edge_weight. destruct (c_ew c); [reflexivity|exact H].
Qed.

Lemma add_sorted_ok node nb tot suffix s : Forall (nbr_ok c) nb -> nb <> [] ->
  Z.of_nat (length nb) < 2 ^ c_wn c -> 0 <= node < 2 ^ c_wn c ->
  Z.of_nat (length (fst (add_sorted c node nb tot))) < 2 ^ (c_wn c - 1) ->
  decode_node c cb (fst (add_sorted c node nb tot) ++ suffix) node s = Some (visit cb s (map (eff c) (node_order nb))) /\
  ((forall s v w, snd (cb s v w) = false) -> forall sched, (forall np, Permutation (sched np) (seq 0 np)) ->
   decode_node_par c cb sched (fst (add_sorted c node nb tot) ++ suffix) node s = Some (fst (visit cb s (map (eff c) (node_order_par sched nb))))) /\
  fst (add_sorted c node nb tot) <> [] /\
  exists r b, (if c_iv c then marked_varint_decode (c_wn c) (fst (add_sorted c node nb tot) ++ suffix)
         else match varint_decode (c_wn c) (fst (add_sorted c node nb tot) ++ suffix) with None => None | Some (d, r) => Some (d, false, r) end)
         = Some (Z.of_nat (length nb), b, r).
Proof.
  intros Hnb Hne Hsize Hnode Hbytes. pose proof (wn_pos c Hc) as Hwn.
  unfold add_sorted, decode_node, decode_node_par in *. destruct (Nat.eqb_spec (length nb) 0) as [E0|E0]; [destruct nb; [congruence|cbn [length] in E0; lia]|].
  cbv zeta in *. fold (is_split nb) in *.
  set (ni := if c_iv c && negb (is_split nb) then count_intervals (c_wn c) nb else 0) in *.
  set (header := if c_iv c then marked_varint_encode (c_wn c) (Z.of_nat (length nb)) (0 <? ni) else varint_encode (c_wn c) (Z.of_nat (length nb))) in *.
  assert (Hhead : forall rest, (if c_iv c then marked_varint_decode (c_wn c) (header ++ rest)
         else match varint_decode (c_wn c) (header ++ rest) with None => None | Some (d, r) => Some (d, false, r) end)
         = Some (Z.of_nat (length nb), c_iv c && (0 <? ni), rest)).
  { intros rest. subst header. destruct (c_iv c); cbn [andb].
    - apply marked_roundtrip; lia.
    - rewrite varint_roundtrip by lia. reflexivity. }
  assert (Hne' : header <> []).
  { intros E. specialize (Hhead []). rewrite E in Hhead. cbn in Hhead. destruct (c_iv c); discriminate. }
  destruct (is_split nb) eqn:Es.
  - destruct (encode_part_loop c node nb (seq 0 (num_parts (length nb))) (Z.of_nat (id_bytes c * num_parts (length nb))) tot) as [[table data] tot'] eqn:Ee.
    cbn [fst] in *. rewrite <- !app_assoc.
    assert (Hparts : forall p s', (p < num_parts (length nb))%nat ->
      decode_part c cb (table ++ data ++ suffix) node (length nb) p s' = Some (visit cb s' (map (eff c) (decode_order c (part_of nb p))))).
    { intros p s' Hp.
      apply decode_part_ok with (tot0 := tot); try assumption; try lia.
      { right. eauto. }
      assert (Htl : length table = (id_bytes c * num_parts (length nb))%nat).
      { clear -Ee. assert (H : forall ps off tot, length (fst (fst (encode_part_loop c node nb ps off tot))) = (id_bytes c * length ps)%nat).
        { clear. induction ps as [|p ps IH]; intros off tot; cbn [encode_part_loop]; [cbn; lia|].
          destruct (add_edges c node _ (part_of nb p) tot) as [d1 tot1]. specialize (IH (off + Z.of_nat (length d1)) tot1).
          destruct (encode_part_loop c node nb ps _ tot1) as [[t' d'] tt]. cbn [fst length] in *.
          rewrite app_length, store_le_length, IH. lia. }
        specialize (H (seq 0 (num_parts (length nb))) (Z.of_nat (id_bytes c * num_parts (length nb))) tot). rewrite Ee in H.
        cbn [fst] in H. rewrite seq_length in H. exact H. }
      rewrite !app_length, Htl in Hbytes. lia. }
    rewrite Hhead. split; [|split; [|split; [|eauto]]].
    + unfold is_split in Es. rewrite Es. rewrite Nat2Z.id. unfold node_order, is_split. rewrite Es.
      apply decode_parts_visit. intros p s' Hp. apply in_seq in Hp. apply Hparts. lia.
    + intros Hns sched Hsched. unfold is_split in Es. rewrite Es. rewrite Nat2Z.id. unfold node_order_par, is_split. rewrite Es.
      apply decode_parts_par_visit; [exact Hns|]. intros p s' Hp. apply Hparts.
      apply (Permutation_in _ (Hsched _)) in Hp. apply in_seq in Hp. lia.
    + intros E. apply app_eq_nil in E. destruct E; contradiction.
  - assert (Hni : ni = num_ivs c nb). { subst ni. unfold num_ivs. rewrite andb_true_r. destruct (c_iv c); reflexivity. }
    clearbody ni. subst ni.
    pose proof (fun suffix => add_edges_ok c Hc cb node nb tot suffix s Hnb Hne Hsize Hnode) as Ha.
    destruct (add_edges c node (num_ivs c nb) nb tot) as [bytes tot'] eqn:Ea. cbn [fst] in *.
    assert (Hiv : c_iv c && (0 <? num_ivs c nb) = (0 <? num_ivs c nb)) by (unfold num_ivs; destruct (c_iv c); reflexivity).
    rewrite <- !app_assoc. rewrite Hhead. split; [|split; [|split; [|eauto]]].
    + unfold is_split in Es. rewrite Es. unfold node_order, is_split. rewrite Es. rewrite Hiv. apply Ha.
    + intros _ sched _. unfold is_split in Es. rewrite Es. unfold node_order_par, is_split. rewrite Es. rewrite Hiv, Ha.
      destruct (visit cb s (map (eff c) (decode_order c nb))); reflexivity.
    + intros E. apply app_eq_nil in E. destruct E; contradiction.
Qed.
End Node.

(** ** Whole graphs *)
Section Graph.
Variable c : cconf.
Hypothesis Hc : conf_ok c.
Variable sort : list nbr -> list nbr.
Hypothesis Hsort : forall l, Permutation (sort l) l.

Lemma build_loop_spec nbs : forall node data tot,
  let '(offsets, data', tot') := build_loop c sort node nbs data tot in
  length offsets = length nbs /\
  (exists ext, data' = data ++ ext) /\
  (Z.of_nat (length data') < 2 ^ c_wi c ->
   forall u, (u < length nbs)%nat -> exists pre post totu,
     data' = pre ++ fst (add_sorted c (Z.of_nat (node + u)) (sort (nth u nbs [])) totu) ++ post /\
     nth u offsets 0 = Z.of_nat (length pre) /\
     (if Nat.eqb (u + 1) (length nbs) then Z.of_nat (length data') else nth (u + 1) offsets 0) =
       Z.of_nat (length pre + length (fst (add_sorted c (Z.of_nat (node + u)) (sort (nth u nbs [])) totu)))).
Proof.
  assert (Hwi : 0 <= c_wi c) by (destruct Hc as (_ & [?|?] & _); lia).
  induction nbs as [|nb nbs IH]; intros node data tot.
  - cbn. split; [reflexivity|]. split; [exists []; rewrite app_nil_r; reflexivity|]. intros; lia.
  - cbn [build_loop]. destruct (add_sorted c (Z.of_nat node) (sort nb) tot) as [bytes tot1] eqn:Ea.
    specialize (IH (S node) (data ++ bytes) tot1).
    destruct (build_loop c sort (S node) nbs (data ++ bytes) tot1) as [[offsets data'] tot'] eqn:Eb.
    destruct IH as (Hl & (ext & Hext) & IH). cbn [length]. split; [lia|]. split.
    { exists (bytes ++ ext). rewrite Hext, app_assoc. reflexivity. }
    intros Hsz u Hu. destruct u as [|u].
    + exists data, ext, tot. rewrite Nat.add_0_r. cbn [nth]. rewrite Ea. cbn [fst].
      split; [rewrite Hext, app_assoc; reflexivity|].
      split. { apply wrap_u_small. split; [lia|]. rewrite Hext, !app_length in Hsz. lia. }
      cbn [Nat.add]. destruct (Nat.eqb_spec 1 (S (length nbs))) as [E|E].
      * assert (Hnn : nbs = []) by (destruct nbs; [reflexivity|cbn [length] in E; lia]). subst nbs.
        cbn in Eb. injection Eb as _ <- _. rewrite app_length. lia.
      * destruct (IH Hsz 0%nat ltac:(lia)) as (pre & post & totu & Hd & Ho & _).
        cbn [nth]. rewrite Ho. destruct nbs as [|nb2 nbs]; [cbn [length] in E; lia|].
        cbn [build_loop] in Eb. destruct (add_sorted c (Z.of_nat (S node)) (sort nb2) tot1) as [b2 t2].
        destruct (build_loop c sort (S (S node)) nbs _ _) as [[o2 d2] t3]. injection Eb as <- <- _. cbn [nth] in Ho.
        rewrite <- Ho. rewrite wrap_u_small; [rewrite app_length; lia|]. split; [lia|]. rewrite Hext, !app_length in Hsz. rewrite app_length. lia.
    + destruct (IH Hsz u ltac:(cbn [length] in Hu; lia)) as (pre & post & totu & Hd & Ho & Hn).
      exists pre, post, totu. cbn [nth]. replace (node + S u)%nat with (S node + u)%nat by lia.
      split; [exact Hd|]. split; [exact Ho|].
      replace (Nat.eqb (S u + 1) (S (length nbs))) with (Nat.eqb (u + 1) (length nbs)) by (destruct (Nat.eqb_spec (u+1) (length nbs)), (Nat.eqb_spec (S u + 1) (S (length nbs))); lia).
      exact Hn.
Qed.

(** The limits of the format: the whole structure is addressable with EdgeIDs, each neighbourhood is
    addressable with one bit less than a NodeID. *)
Definition fits (m : Z) (nbs : list (list nbr)) : Prop :=
  let g := cn_build c sort m nbs in
  Z.of_nat (length (cn_edges g)) < 2 ^ c_wi c /\
  forall u, (u < length nbs)%nat -> nth (u + 1) (cn_nodes g) 0 - nth u (cn_nodes g) 0 < 2 ^ (c_wn c - 1).

Lemma graph_lossless_lemma nbs m : graph_ok c nbs -> fits m nbs ->
  let g := cn_build c sort m nbs in
  length (cn_nodes g) = S (length nbs) /\
  forall u, (u < length nbs)%nat ->
    cn_degree c g u = Some (Z.of_nat (length (nth u nbs []))) /\
    (exists order, Permutation order (nth u nbs []) /\
      forall (St : Type) (cb : St -> Z -> Z -> St * bool) s,
        cn_adjacent_nodes c g u cb s = Some (fst (visit cb s (map (eff c) order)))) /\
    (forall sched, (forall np, Permutation (sched np) (seq 0 np)) -> exists order, Permutation order (nth u nbs []) /\
      forall (St : Type) (cb : St -> Z -> Z -> St * bool) s, (forall s v w, snd (cb s v w) = false) ->
        cn_parallel_adjacent_nodes c g u sched cb s = Some (fst (visit cb s (map (eff c) order)))).
Proof.
  intros (Hn & Hnbs) (Hsz & Hnsz). unfold cn_build in *.
  pose proof (build_loop_spec nbs 0 [] 0) as Hb.
  destruct (build_loop c sort 0 nbs [] 0) as [[offsets data] tot]. cbn [cn_nodes cn_edges] in *.
  destruct Hb as (Hl & _ & Hb). cbn [app] in *. cbv zeta. cbn [cn_nodes cn_edges].
  split; [rewrite app_length, Hl; cbn; lia|].
  intros u Hu. destruct (Hb Hsz u Hu) as (pre & post & totu & Hd & Ho & Hnx). clear Hb.
  cbn [Nat.add] in Hd, Hnx.
  assert (Hfrom : nth u (offsets ++ [wrap_u (c_wi c) (Z.of_nat (length data))]) 0 = Z.of_nat (length pre)).
  { rewrite app_nth1 by lia. exact Ho. }
  assert (Hto : nth (u + 1) (offsets ++ [wrap_u (c_wi c) (Z.of_nat (length data))]) 0 =
     Z.of_nat (length pre + length (fst (add_sorted c (Z.of_nat u) (sort (nth u nbs [])) totu)))).
  { rewrite <- Hnx. destruct (Nat.eqb_spec (u + 1) (length nbs)) as [E|E].
    - rewrite app_nth2 by lia. replace (u + 1 - length offsets)%nat with 0%nat by lia. cbn [nth].
      apply wrap_u_small. lia.
    - apply app_nth1. lia. }
  specialize (Hnsz u Hu). rewrite Hfrom, Hto in Hnsz.
  assert (Hin : In (nth u nbs []) nbs) by (apply nth_In; exact Hu).
  rewrite Forall_forall in Hnbs. destruct (Hnbs _ Hin) as (Hok & Hdeg).
  assert (Hok' : Forall (nbr_ok c) (sort (nth u nbs []))).
  { apply Forall_forall. rewrite Forall_forall in Hok. intros x Hx. apply Hok. eapply Permutation_in; [apply Hsort|exact Hx]. }
  pose proof (Permutation_length (Hsort (nth u nbs []))) as Hlen.
  set (nb := sort (nth u nbs [])) in *. set (bytes := fst (add_sorted c (Z.of_nat u) nb totu)) in *.
  unfold cn_degree, cn_adjacent_nodes, cn_parallel_adjacent_nodes. cbn [cn_nodes cn_edges]. rewrite Hfrom, Hto.
  assert (Hdata : skipn (Z.to_nat (Z.of_nat (length pre))) data = bytes ++ post).
  { rewrite Nat2Z.id, Hd. apply skipn_app_exact; reflexivity. }
  rewrite Hdata.
  assert (Hcase : nb = [] \/ nb <> []) by (destruct nb; [left; reflexivity|right; discriminate]).
  destruct Hcase as [Enb|Hne].
  - assert (Hb0 : bytes = []) by (subst bytes; rewrite Enb; reflexivity). rewrite Enb in Hlen. rewrite Hb0. cbn [length]. rewrite Nat.add_0_r, Z.eqb_refl.
    cbn [length] in Hlen. split; [rewrite <- Hlen; reflexivity|].
    assert (Hnil : nth u nbs [] = []) by (destruct (nth u nbs []); [reflexivity|discriminate]). rewrite Hnil.
    split; [exists []; split; [constructor|reflexivity]|]. intros sched _. exists []. split; [constructor|reflexivity].
  - assert (Hnode : 0 <= Z.of_nat u < 2 ^ c_wn c) by lia.
    assert (Hd1 : Z.of_nat (length nb) < 2 ^ c_wn c) by (rewrite Hlen; exact Hdeg).
    assert (Hd2 : Z.of_nat (length (fst (add_sorted c (Z.of_nat u) nb totu))) < 2 ^ (c_wn c - 1)) . { fold bytes. lia. }
    assert (Hcommon := fun St cb s => add_sorted_ok c Hc (S := St) cb (Z.of_nat u) nb totu post s Hok' Hne Hd1 Hnode Hd2).
    fold bytes in Hcommon.
    destruct (Hcommon unit (fun s _ _ => (s, false)) tt) as (_ & _ & Hbne & r & b & Hhd).
    assert (Hneq : Z.of_nat (length pre) =? Z.of_nat (length pre + length bytes) = false).
    { destruct bytes; [congruence|]. cbn [length]. lia. }
    rewrite Hneq. split.
    + destruct (c_iv c).
      * rewrite Hhd. f_equal. lia.
      * destruct (varint_decode (c_wn c) (bytes ++ post)) as [[d r']|]; [|discriminate]. injection Hhd as -> _ _. f_equal. lia.
    + split; [exists (node_order c nb); split|].
      * eapply perm_trans; [apply Permutation_sym, node_order_perm; assumption|]. apply Hsort.
      * intros St cb s. destruct (Hcommon St cb s) as (Hdec & _). rewrite Hdec.
        destruct (visit cb s (map (eff c) (node_order c nb))); reflexivity.
      * intros sched Hsched. exists (node_order_par c sched nb). split.
        { eapply perm_trans; [apply Permutation_sym, node_order_par_perm; assumption|]. apply Hsort. }
        intros St cb s Hns. destruct (Hcommon St cb s) as (_ & Hpar & _). apply Hpar; assumption.
Qed.
End Graph.
