(* Closed forms of the loops of the subgraph extraction. *)
From Verif Require Import Lib.Prelude Lib.Slice Spec.Induced Spec.ExtendSpec Model.SubgraphModel.

(** ** Weight detection *)
Lemma zsum_ge_len l : (forall x, In x l -> (1 <= x)%Z) -> (Z.of_nat (length l) <= zsum l)%Z.
Proof.
  induction l as [|x l IH]; intros H; cbn [zsum length]; [lia|].
  assert (1 <= x)%Z by (apply H; left; auto).
  assert (Z.of_nat (length l) <= zsum l)%Z by (apply IH; intros; apply H; right; auto). lia.
Qed.
Lemma zsum_eq_len l : (forall x, In x l -> (1 <= x)%Z) -> zsum l = Z.of_nat (length l) -> l = repeat 1%Z (length l).
Proof.
  induction l as [|x l IH]; intros H E; cbn [length repeat]; auto. cbn [zsum length] in E.
  assert (1 <= x)%Z by (apply H; left; auto).
  assert (Hl : forall y, In y l -> (1 <= y)%Z) by (intros; apply H; right; auto).
  pose proof (zsum_ge_len l Hl). f_equal; [lia|]. apply IH; auto; lia.
Qed.
Lemma zsum_repeat1 n : zsum (repeat 1%Z n) = Z.of_nat n.
Proof. induction n; cbn [repeat zsum]; lia. Qed.

(** ** Rows *)
Definition prow (part mapping : list nat) (b : nat) (adj : list (nat * Z)) : list (nat * Z) :=
  map (fun e => (nth (fst e) mapping 0, snd e)) (filter (fun e => in_block part b (fst e)) adj).

Lemma wr_ok {A} (a : list A) i x : i < length a -> wr a i x = Some (splice a i [x]).
Proof. intros H. unfold wr. destruct (Nat.ltb_spec i (length a)); [|lia]. now rewrite upd_splice. Qed.

Lemma push_edges_spec ewf part mapping b e0 : forall adj edges ews e,
  (forall v w, In (v, w) adj -> v < length mapping) ->
  e0 + e + length (prow part mapping b adj) <= length edges ->
  (ewf = true -> e0 + e + length (prow part mapping b adj) <= length ews) ->
  push_edges ewf part mapping b e0 adj edges ews e =
  Some (splice edges (e0 + e) (map fst (prow part mapping b adj)),
        if ewf then splice ews (e0 + e) (map snd (prow part mapping b adj)) else ews,
        e + length (prow part mapping b adj)).
Proof.
  induction adj as [|[v w] adj IH]; intros edges ews e Hm He Hw.
  - cbn in *. rewrite !splice_nil, Nat.add_0_r by lia. destruct ewf; auto.
    rewrite splice_nil; auto. specialize (Hw eq_refl); lia.
  - assert (Hm' : forall v w, In (v, w) adj -> v < length mapping)
      by (intros v' w' Hi; apply (Hm v' w'); right; auto).
    unfold prow in *. cbn [push_edges filter fst] in *. destruct (in_block part b v) eqn:Eb.
    + cbn [map length fst snd] in *.
      assert (Hv : v < length mapping) by (apply (Hm v w); left; auto).
      rewrite (nth_error_nth' mapping 0 Hv).
      rewrite wr_ok by lia.
      assert (Ew : wr_if ewf ews (e0 + e) w = Some (if ewf then splice ews (e0 + e) [w] else ews)).
      { unfold wr_if. destruct ewf; auto. specialize (Hw eq_refl). apply wr_ok; lia. }
      rewrite Ew. rewrite IH; clear IH; auto.
      * f_equal. f_equal; [f_equal|].
        -- replace (e0 + S e) with (e0 + e + length [nth v mapping 0]) by (cbn; lia).
           rewrite splice_app; [reflexivity|]. cbn [length]. rewrite !map_length in *. lia.
        -- destruct ewf; auto. specialize (Hw eq_refl).
           replace (e0 + S e) with (e0 + e + length [w]) by (cbn; lia).
           rewrite splice_app; [reflexivity|]. cbn [length]. rewrite !map_length in *. lia.
        -- lia.
      * rewrite splice_length by (cbn [length]; lia). lia.
      * intros ->. specialize (Hw eq_refl). rewrite splice_length by (cbn [length]; lia). lia.
    + apply IH; auto.
Qed.

(** ** Closed form of the node loops *)
Fixpoint offs0 (e : nat) (rows : list (list (nat * Z))) : list nat :=
  match rows with [] => [] | r :: t => e :: offs0 (e + length r) t end.
Definition offsets (e : nat) (rows : list (list (nat * Z))) : list nat :=
  offs0 e rows ++ [e + length (concat rows)].

Lemma offs0_length rows : forall e, length (offs0 e rows) = length rows.
Proof. induction rows; intros; cbn; auto. Qed.
Lemma offsets_length rows e : length (offsets e rows) = S (length rows).
Proof. unfold offsets. rewrite app_length, offs0_length. cbn; lia. Qed.
Lemma offsets_cons e r rows : offsets e (r :: rows) = e :: offsets (e + length r) rows.
Proof. unfold offsets. cbn [offs0 concat app]. rewrite app_length. do 3 f_equal. lia. Qed.
Lemma offs0_app rows1 : forall e rows2,
  offs0 e (rows1 ++ rows2) = offs0 e rows1 ++ offs0 (e + length (concat rows1)) rows2.
Proof.
  induction rows1 as [|r t IH]; intros; cbn [offs0 concat app length].
  - now rewrite Nat.add_0_r.
  - rewrite IH, app_length. do 3 f_equal. lia.
Qed.
Lemma offsets_snoc e rows r : offsets e (rows ++ [r]) = offsets e rows ++ [e + length (concat rows) + length r].
Proof.
  unfold offsets. rewrite offs0_app. cbn [offs0]. rewrite <- !app_assoc, concat_app, app_length.
  cbn [concat]. rewrite app_nil_r. cbn [app]. do 3 f_equal. lia.
Qed.

Definition grow (g : lgraph) (part mapping : list nat) (b u : nat) : list (nat * Z) :=
  prow part mapping b (lg_adj g u).

(** Memory after writing the subgraph rows of the nodes [us]: node entries from [p], edges from [q]. *)
Definition put_rows (g : lgraph) (nwf ewf : bool) (part mapping : list nat) (b p q e : nat) (us : list nat) (mem : smem) : smem :=
  let rows := map (grow g part mapping b) us in
  Smem (splice (sm_nodes mem) p (offs0 e rows))
       (splice (sm_edges mem) q (map fst (concat rows)))
       (if nwf then splice (sm_nw mem) p (map (lg_weight g) us) else sm_nw mem)
       (if ewf then splice (sm_ew mem) q (map snd (concat rows)) else sm_ew mem).

Definition lg_closed (g : lgraph) (n : nat) : Prop :=
  forall u v w, u < length g -> In (v, w) (lg_adj g u) -> v < n.

Lemma nth_error_lg g u : u < length g -> nth_error g u = Some (lg_weight g u, lg_adj g u).
Proof.
  intros H. rewrite (nth_error_nth' g (0%Z, []) H). unfold lg_weight, lg_adj. now destruct (nth u g _).
Qed.

Lemma build_node_spec g nwf ewf part mapping b e0 pos u e mem :
  u < length g -> lg_closed g (length mapping) ->
  fits nwf ewf pos 1 (e0 + e) (length (grow g part mapping b u)) mem ->
  build_node g nwf ewf part mapping b e0 pos u e mem =
  Some (put_rows g nwf ewf part mapping b pos (e0 + e) e [u] mem, e + length (grow g part mapping b u)).
Proof.
  intros Hu Hc (F1 & F2 & F3 & F4). unfold build_node. rewrite nth_error_lg by auto.
  rewrite wr_ok by lia.
  assert (E1 : wr_if nwf (sm_nw mem) pos (lg_weight g u) =
               Some (if nwf then splice (sm_nw mem) pos [lg_weight g u] else sm_nw mem)).
  { unfold wr_if. destruct nwf; auto. specialize (F3 eq_refl). apply wr_ok; lia. }
  rewrite E1. rewrite push_edges_spec.
  - fold (grow g part mapping b u). unfold put_rows. cbn [map concat offs0]. rewrite app_nil_r. reflexivity.
  - intros v w Hi. apply (Hc u v w); auto.
  - fold (grow g part mapping b u). auto.
  - intros ->. fold (grow g part mapping b u). auto.
Qed.

Lemma put_rows_len g nwf ewf part mapping b p q e us mem :
  fits nwf ewf p (length us) q (length (concat (map (grow g part mapping b) us))) mem ->
  let m' := put_rows g nwf ewf part mapping b p q e us mem in
  length (sm_nodes m') = length (sm_nodes mem) /\ length (sm_edges m') = length (sm_edges mem) /\
  length (sm_nw m') = length (sm_nw mem) /\ length (sm_ew m') = length (sm_ew mem).
Proof.
  intros (F1 & F2 & F3 & F4). cbn. repeat split.
  - apply splice_length. rewrite offs0_length, map_length; auto.
  - apply splice_length. rewrite map_length; auto.
  - destruct nwf; auto. apply splice_length. rewrite map_length; auto.
  - destruct ewf; auto. apply splice_length. rewrite map_length; auto.
Qed.

Lemma put_rows_cons g nwf ewf part mapping b p q e u us mem :
  fits nwf ewf p (S (length us)) q (length (concat (map (grow g part mapping b) (u :: us)))) mem ->
  put_rows g nwf ewf part mapping b (S p) (q + length (grow g part mapping b u)) (e + length (grow g part mapping b u)) us
    (put_rows g nwf ewf part mapping b p q e [u] mem) =
  put_rows g nwf ewf part mapping b p q e (u :: us) mem.
Proof.
  intros (F1 & F2 & F3 & F4). unfold put_rows. cbn [map concat offs0 sm_nodes sm_edges sm_nw sm_ew].
  cbn [map concat] in *. rewrite app_length in *. rewrite app_nil_r.
  set (r := grow g part mapping b u) in *. set (rows := map (grow g part mapping b) us) in *.
  f_equal.
  - replace (S p) with (p + length [e]) by (cbn; lia). rewrite splice_app; [reflexivity|].
    cbn [length]. unfold rows. rewrite offs0_length, map_length. lia.
  - rewrite map_app. replace (length r) with (length (map fst r)) by apply map_length.
    apply splice_app. rewrite !map_length. lia.
  - destruct nwf; auto. specialize (F3 eq_refl).
    replace (S p) with (p + length [lg_weight g u]) by (cbn; lia). rewrite splice_app; [reflexivity|].
    cbn [length]. rewrite map_length. lia.
  - destruct ewf; auto. specialize (F4 eq_refl).
    rewrite map_app. replace (length r) with (length (map snd r)) by apply map_length.
    apply splice_app. rewrite !map_length. lia.
Qed.

Lemma lazy_like_step g nwf ewf part mapping b p q e u us mem :
  fits nwf ewf p (S (length us)) q (length (concat (map (grow g part mapping b) (u :: us)))) mem ->
  fits nwf ewf p 1 q (length (grow g part mapping b u)) mem /\
  fits nwf ewf (S p) (length us) (q + length (grow g part mapping b u)) (length (concat (map (grow g part mapping b) us)))
       (put_rows g nwf ewf part mapping b p q e [u] mem).
Proof.
  intros (F1 & F2 & F3 & F4). cbn [map concat] in *. rewrite app_length in *.
  assert (F : fits nwf ewf p 1 q (length (grow g part mapping b u)) mem).
  { repeat split; try lia; intros Hx; try specialize (F3 Hx); try specialize (F4 Hx); lia. }
  split; auto.
  assert (L := put_rows_len g nwf ewf part mapping b p q e [u] mem).
  cbn zeta in L. cbn [length map concat] in L. rewrite app_nil_r in L.
  destruct (L F) as (L1 & L2 & L3 & L4). unfold fits. rewrite L1, L2, L3, L4.
  repeat split; try lia; intros Hx; try specialize (F3 Hx); try specialize (F4 Hx); lia.
Qed.

Lemma lazy_loop_spec g nwf ewf part mapping b : lg_closed g (length mapping) ->
  forall us i e mem, (forall u, In u us -> u < length g) ->
  fits nwf ewf i (length us) e (length (concat (map (grow g part mapping b) us))) mem ->
  lazy_loop g nwf ewf part mapping b us i e mem =
  Some (put_rows g nwf ewf part mapping b i e e us mem, e + length (concat (map (grow g part mapping b) us))).
Proof.
  intros Hc us. induction us as [|u us IH]; intros i e mem Hu F.
  - cbn [lazy_loop map concat length]. unfold put_rows. cbn. destruct F as (F1 & F2 & F3 & F4). cbn in *.
    rewrite !splice_nil, Nat.add_0_r by lia.
    replace (if nwf then splice (sm_nw mem) i [] else sm_nw mem) with (sm_nw mem).
    2:{ destruct nwf; auto. specialize (F3 eq_refl). rewrite splice_nil; auto; lia. }
    replace (if ewf then splice (sm_ew mem) e [] else sm_ew mem) with (sm_ew mem).
    2:{ destruct ewf; auto. specialize (F4 eq_refl). rewrite splice_nil; auto; lia. }
    now destruct mem.
  - cbn [lazy_loop]. destruct (lazy_like_step _ _ _ _ _ _ _ _ e _ _ _ F) as [Fa Fb].
    rewrite build_node_spec; auto. 2:{ apply Hu; left; auto. }
    cbn [Nat.add]. rewrite IH; auto. 2:{ intros; apply Hu; right; auto. }
    rewrite put_rows_cons by auto. cbn [map concat]. rewrite app_length. do 2 f_equal. lia.
Qed.

Lemma build_loop_spec g nwf ewf part mapping b ns e0 : lg_closed g (length mapping) ->
  forall us i e mem, (forall u, In u us -> u < length g) ->
  slice (sm_nodes mem) (ns + i) (length us) = us ->
  fits nwf ewf (ns + i) (length us) (e0 + e) (length (concat (map (grow g part mapping b) us))) mem ->
  build_loop g nwf ewf part mapping b ns e0 (length us) i e mem =
  Some (put_rows g nwf ewf part mapping b (ns + i) (e0 + e) e us mem, e + length (concat (map (grow g part mapping b) us))).
Proof.
  intros Hc us. induction us as [|u us IH]; intros i e mem Hu Hs F.
  - cbn [build_loop map concat length]. unfold put_rows. cbn. destruct F as (F1 & F2 & F3 & F4). cbn in *.
    rewrite !splice_nil, Nat.add_0_r by lia.
    replace (if nwf then splice (sm_nw mem) (ns + i) [] else sm_nw mem) with (sm_nw mem).
    2:{ destruct nwf; auto. specialize (F3 eq_refl). rewrite splice_nil; auto; lia. }
    replace (if ewf then splice (sm_ew mem) (e0 + e) [] else sm_ew mem) with (sm_ew mem).
    2:{ destruct ewf; auto. specialize (F4 eq_refl). rewrite splice_nil; auto; lia. }
    now destruct mem.
  - cbn [build_loop length]. destruct (lazy_like_step _ _ _ _ _ _ _ _ e _ _ _ F) as [Fa Fb].
    assert (Hn : nth_error (sm_nodes mem) (ns + i) = Some u).
    { assert (E := nth_error_slice (sm_nodes mem) (ns + i) (length (u :: us)) 0).
      rewrite Hs in E. cbn in E. rewrite Nat.add_0_r in E. now rewrite <- E. }
    rewrite Hn. rewrite build_node_spec; auto. 2:{ apply Hu; left; auto. }
    rewrite <- Nat.add_assoc in Fb.
    replace (S (ns + i)) with (ns + S i) in Fb by lia.
    rewrite IH; auto. 2:{ intros; apply Hu; right; auto. }
    + replace (ns + S i) with (S (ns + i)) by lia. rewrite Nat.add_assoc.
      rewrite put_rows_cons by auto. cbn [map concat]. rewrite app_length. do 2 f_equal. lia.
    + unfold put_rows. cbn [sm_nodes map offs0]. destruct F as (F1 & _). cbn [length] in F1.
      rewrite slice_splice_out by (cbn [length]; lia).
      cbn [length] in Hs. rewrite (slice_S _ _ _ u Hn) in Hs. injection Hs as Hs.
      now replace (ns + S i) with (S (ns + i)) by lia.
Qed.

(** ** Reading back *)
Lemma csr_rows_offsets rows : forall pre,
  csr_rows (offsets (length pre) rows) (pre ++ concat rows) = rows.
Proof.
  induction rows as [|r rows IH]; intros pre.
  - reflexivity.
  - rewrite offsets_cons. specialize (IH (pre ++ r)). rewrite app_length in IH.
    cbn [concat]. rewrite <- app_assoc in IH.
    destruct rows as [|r' rows'].
    + cbn. rewrite app_nil_r. f_equal. apply nth_error_ext; intros i. rewrite nth_error_slice.
      destruct (Nat.ltb_spec i (length pre + length r + 0 - length pre)).
      * rewrite nth_error_app2 by lia. f_equal; lia.
      * symmetry; apply nth_error_None; lia.
    + rewrite offsets_cons in *. cbn [csr_rows] in *. rewrite IH. f_equal.
      apply nth_error_ext; intros i. rewrite nth_error_slice.
      destruct (Nat.ltb_spec i (length pre + length r - length pre)).
      * rewrite nth_error_app2 by lia. rewrite nth_error_app1 by lia. f_equal; lia.
      * symmetry; apply nth_error_None; lia.
Qed.

Lemma combine_fst_snd {A B} (l : list (A * B)) : combine (map fst l) (map snd l) = l.
Proof. induction l as [|[a b] l IH]; cbn; congruence. Qed.
Lemma combine_fst_ones (l : list (nat * Z)) : (forall x, In x (map snd l) -> x = 1%Z) ->
  combine (map fst l) (repeat 1%Z (length l)) = l.
Proof.
  induction l as [|[a b] l IH]; intros H; cbn; auto. rewrite IH by (intros; apply H; right; auto).
  rewrite (H b) by (left; auto). auto.
Qed.

Lemma read_view_rows mem ns es nwf ewf (ws : list Z) (rows : list (list (nat * Z))) :
  length ws = length rows ->
  fits nwf ewf ns (length rows + 1) es (length (concat rows)) mem \/
    (ns + length rows + 1 <= length (sm_nodes mem) /\ es + length (concat rows) <= length (sm_edges mem) /\
     (nwf = true -> ns + length rows <= length (sm_nw mem)) /\ (ewf = true -> es + length (concat rows) <= length (sm_ew mem))) ->
  slice (sm_nodes mem) ns (length rows + 1) = offsets 0 rows ->
  slice (sm_edges mem) es (length (concat rows)) = map fst (concat rows) ->
  (forall x, In x ws -> (1 <= x)%Z) -> (forall x, In x (map snd (concat rows)) -> (1 <= x)%Z) ->
  (if nwf then slice (sm_nw mem) ns (length rows) = ws else forall x, In x ws -> x = 1%Z) ->
  (if ewf then slice (sm_ew mem) es (length (concat rows)) = map snd (concat rows)
   else forall x, In x (map snd (concat rows)) -> x = 1%Z) ->
  read_view mem (View ns (length rows) es (length (concat rows)) nwf ewf) = Some (combine ws rows).
Proof.
  intros Hl F S1 S2 P1 P2 W1 W2.
  assert (F' : ns + length rows + 1 <= length (sm_nodes mem) /\ es + length (concat rows) <= length (sm_edges mem) /\
     (nwf = true -> ns + length rows <= length (sm_nw mem)) /\ (ewf = true -> es + length (concat rows) <= length (sm_ew mem))).
  { destruct F as [(F1 & F2 & F3 & F4)|F]; auto. repeat split; try lia; intros Hx; try specialize (F3 Hx); try specialize (F4 Hx); lia. }
  clear F. destruct F' as (F1 & F2 & F3 & F4). unfold read_view. cbn [v_ns v_n v_es v_m v_nwf v_ewf].
  destruct (Nat.leb_spec (ns + length rows + 1) (length (sm_nodes mem))); [|lia].
  destruct (Nat.leb_spec (es + length (concat rows)) (length (sm_edges mem))); [|lia].
  assert (B1 : (negb nwf || (ns + length rows <=? length (sm_nw mem))) = true).
  { destruct nwf; auto. cbn. apply Nat.leb_le; auto. }
  assert (B2 : (negb ewf || (es + length (concat rows) <=? length (sm_ew mem))) = true).
  { destruct ewf; auto. cbn. apply Nat.leb_le; auto. }
  rewrite B1, B2. cbn [andb].
  rewrite S1, S2.
  (* weights *)
  assert (R1 : forall (f : bool) (src l : list Z) n, n = length l -> (forall x, In x l -> (1 <= x)%Z) ->
     (if f then src = l else forall x, In x l -> x = 1%Z) ->
     (if (zsum (if f then src else repeat 1%Z n) =? Z.of_nat n)%Z then repeat 1%Z n else (if f then src else repeat 1%Z n)) = l).
  { intros f src l n -> Hp Hf. destruct f.
    - subst src. destruct (Z.eqb_spec (zsum l) (Z.of_nat (length l))); auto. symmetry. apply zsum_eq_len; auto.
    - rewrite zsum_repeat1, Z.eqb_refl. clear Hp. induction l; cbn; auto.
      rewrite IHl by (intros; apply Hf; right; auto). rewrite (Hf a) by (left; auto). auto. }
  rewrite (R1 nwf _ ws _ (eq_sym Hl) P1 W1).
  rewrite (R1 ewf _ (map snd (concat rows)) (length (concat rows)) (eq_sym (map_length _ _)) P2 W2).
  rewrite combine_fst_snd. f_equal. f_equal. exact (csr_rows_offsets rows []).
Qed.
