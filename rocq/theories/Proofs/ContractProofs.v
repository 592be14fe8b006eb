(* Proofs about buffered contraction (C12, C13). *)
From Verif Require Import Lib.Prelude Lib.Count Spec.Graph Spec.Quotient Spec.RatingMap Model.CsrModel Model.RatingMapModel Model.ContractModel.
From Verif Require Import Proofs.CsrProofs Proofs.PermProofs Proofs.RatingMapProofs Proofs.QuotientProofs Proofs.ContractPreProofs.

Lemma ls_cons a l : list_sum (a :: l) = a + list_sum l.
Proof. reflexivity. Qed.

(** ** Navigable lists *)
Definition nav_ok (K : nat) (l : navl) (content : list (nat * Z)) : Prop :=
  (forall ch, In ch (nv_chunks l) -> length ch = K) /\ length (nv_cur l) <= K /\ concat (nv_chunks l) ++ nv_cur l = content.

Lemma concat_length_const {A} K (ll : list (list A)) : (forall ch, In ch ll -> length ch = K) -> length (concat ll) = length ll * K.
Proof.
  induction ll as [|a ll IH]; intros H; [reflexivity|]. cbn [concat length]. rewrite app_length, IH by (intros; apply H; right; assumption).
  rewrite (H a) by (left; reflexivity). lia.
Qed.

Lemma nav_pos K l content : nav_ok K l content -> nav_position K l = length content.
Proof. intros (H1 & H2 & <-). unfold nav_position. rewrite app_length, (concat_length_const K) by exact H1. reflexivity. Qed.

Lemma nav_push_ok K l content e : 0 < K -> nav_ok K l content -> nav_ok K (nav_push K l e) (content ++ [e]) /\ nv_markers (nav_push K l e) = nv_markers l.
Proof.
  intros HK (H1 & H2 & <-). unfold nav_push. destruct (Nat.eqb_spec (length (nv_cur l)) K) as [E|E].
  - unfold nav_flush. destruct (nv_cur l) as [|x t] eqn:Ec; [cbn in E; lia|]. rewrite <- Ec in *. cbn [nv_chunks nv_cur nv_markers]. split; [|reflexivity].
    split; [|split].
    + cbn. intros ch Hch. apply in_app_or in Hch. destruct Hch as [Hch|[<-|[]]]; auto.
    + cbn. lia.
    + cbn. rewrite concat_app. cbn [concat]. rewrite app_nil_r. reflexivity.
  - cbn [nv_chunks nv_cur nv_markers]. split; [|reflexivity]. split; [exact H1|]. split; cbn; [rewrite app_length; cbn; lia|apply app_assoc].
Qed.

Lemma nav_pushes_ok K es : 0 < K -> forall l content, nav_ok K l content ->
  nav_ok K (fold_left (nav_push K) es l) (content ++ es) /\ nv_markers (fold_left (nav_push K) es l) = nv_markers l.
Proof.
  intros HK. induction es as [|e es IH]; intros l content H; [rewrite app_nil_r; auto|]. cbn [fold_left].
  destruct (nav_push_ok K l content e HK H) as [H1 H2]. destruct (IH _ _ H1) as [H3 H4]. split; [|congruence].
  rewrite <- app_assoc in H3. exact H3.
Qed.

Lemma nth_chunks K (d : nat * Z) chunks lst pos : 0 < K -> (forall ch, In ch chunks -> length ch = K) -> length lst <= K ->
  pos < length (concat chunks ++ lst) -> nth (pos mod K) (nth (pos / K) (chunks ++ [lst]) []) d = nth pos (concat chunks ++ lst) d.
Proof.
  intros HK. revert pos. induction chunks as [|ch chunks IH]; intros pos Hc Hl Hp.
  - cbn [concat app] in *. assert (Hd : pos / K = 0 \/ pos = K) by (destruct (Nat.eq_dec pos K); [auto|left; apply Nat.div_small; lia]).
    destruct Hd as [Hd|Hd]; [|lia]. rewrite Hd. cbn [nth]. f_equal. apply Nat.mod_small. lia.
  - assert (HL := Hc ch (or_introl eq_refl)). cbn [concat app] in *. rewrite <- app_assoc in *.
    destruct (lt_dec pos K) as [L|L].
    + rewrite Nat.div_small, Nat.mod_small by exact L. cbn [nth]. rewrite app_nth1 by lia. reflexivity.
    + assert (Hm : pos mod K = (pos - K) mod K) by (replace pos with ((pos - K) + 1 * K) at 1 by lia; apply Nat.mod_add; lia).
      assert (Hd : pos / K = S ((pos - K) / K)) by (replace pos with ((pos - K) + 1 * K) at 1 by lia; rewrite Nat.div_add by lia; lia).
      rewrite Hm, Hd. cbn [nth].
      rewrite IH; [|intros x Hx; apply Hc; right; exact Hx|exact Hl|rewrite app_length in Hp; lia].
      rewrite (app_nth2 ch) by lia. rewrite HL. reflexivity.
Qed.

Lemma nav_get_ok K l content pos : 0 < K -> nav_ok K l content -> pos < length content -> nav_get K (nav_flush l) pos = nth pos content (0, 0%Z).
Proof.
  intros HK (H1 & H2 & <-) Hp. unfold nav_get, nav_flush. destruct (nv_cur l) as [|x t] eqn:Ec.
  - rewrite app_nil_r in *. pose proof (nth_chunks K (0, 0%Z) (nv_chunks l) [] pos HK H1 ltac:(cbn; lia)) as N. rewrite app_nil_r in N. rewrite <- N by exact Hp.
    f_equal. destruct (lt_dec (pos / K) (length (nv_chunks l))) as [L|L]; [rewrite app_nth1 by exact L; reflexivity|].
    exfalso. apply L. apply Nat.div_lt_upper_bound; [lia|]. rewrite (concat_length_const K) in Hp by exact H1. lia.
  - rewrite <- Ec in *. cbn [nv_chunks]. apply nth_chunks; assumption.
Qed.

Lemma nav_flush_markers l : nv_markers (nav_flush l) = nv_markers l.
Proof. unfold nav_flush. destruct (nv_cur l); reflexivity. Qed.

(** ** Chunks *)
Fixpoint tiles (s : nat) (l : list (nat * nat)) (e : nat) : Prop :=
  match l with [] => s = e | (a, b) :: t => s = a /\ a <= b /\ tiles b t e end.

Lemma tiles_snoc l : forall s m e, tiles s l m -> m <= e -> tiles s (l ++ [(m, e)]) e.
Proof. induction l as [|[a b] l IH]; intros s m e H Hm; cbn in *; [auto|]. destruct H as (-> & H1 & H2). eauto. Qed.

Lemma chunk_loop_tiles fd limit k : forall c start count acc, tiles 0 acc start -> start <= c ->
  let '(start', acc') := chunk_loop fd limit (seq c k) start count acc in tiles 0 acc' start' /\ start' <= c + k.
Proof.
  induction k as [|k IH]; intros c start count acc HT Hs; cbn [seq chunk_loop].
  - split; [exact HT|lia].
  - destruct (limit <=? count + fd c).
    + destruct (Nat.eqb_spec start c) as [->|Hne].
      * specialize (IH (S c) (S c) 0 (acc ++ [(c, S c)])). destruct (chunk_loop _ _ _ _ _ _). replace (c + S k) with (S c + k) by lia.
        apply IH; [|lia]. apply (tiles_snoc acc 0 c); [exact HT|lia].
      * specialize (IH (S c) c 0 (acc ++ [(start, c)])). destruct (chunk_loop _ _ _ _ _ _). replace (c + S k) with (S c + k) by lia.
        apply IH; [|lia]. apply (tiles_snoc acc 0 start); [exact HT|lia].
    + specialize (IH (S c) start (count + fd c) acc). destruct (chunk_loop _ _ _ _ _ _). replace (c + S k) with (S c + k) by lia.
      apply IH; [exact HT|lia].
Qed.

Lemma make_chunks_tiles fd split limit c_n : tiles 0 (make_chunks fd split limit c_n) c_n.
Proof.
  unfold make_chunks. destruct split; [|cbn; auto using Nat.le_0_l].
  pose proof (chunk_loop_tiles fd limit c_n 0 0 0 [] eq_refl (le_n 0)) as H. destruct (chunk_loop _ _ _ _ _ _) as [start acc].
  destruct H as [H1 H2]. destruct (Nat.eqb_spec start c_n) as [->|]; [exact H1|]. apply (tiles_snoc acc 0 start); [exact H1|lia].
Qed.

(** ** Contraction *)
Section Buffered.
Variables (K T : nat) (hash : nat -> nat) (g : graph) (c_n : nat) (mapping : list nat) (bi : list nat * list nat) (split : bool).
Hypothesis HK : 0 < K.
Hypothesis Cg : closed_graph g.
Hypothesis Pos : forall u v w, u < gn g -> In (v, w) (gadj g u) -> (0 < w)%Z.
Let f u := nth u mapping 0.
Hypothesis Hf : maps_into (gn g) c_n f.
Hypothesis Hb : forall c, c < c_n -> is_bucket g f c (bucket_of bi c).

Definition Ent (c : nat) : list (nat * Z) := acc_run (collect_ops g mapping c (bucket_of bi c)).
Definition deg (c : nat) : nat := length (Ent c).
Definition wt (c : nat) : Z := zsum (map (gvw g) (bucket_of bi c)).
Definition fdeg (c : nat) : nat := fine_degree g (bucket_of bi c).

Lemma collect_bucket c b : collect_ops g mapping c b = bucket_ops g f c b.
Proof. reflexivity. Qed.

Lemma collect_execute c : c < c_n -> rmap_execute hash c_n (fdeg c) (collect_ops g mapping c (bucket_of bi c)) = Some (Ent c).
Proof.
  intros Hc. apply rmap_correct.
  - intros j. unfold acc_run. 
    assert (NC : no_clear (firstn j (collect_ops g mapping c (bucket_of bi c)))).
    { intros o Ho. apply (bucket_ops_no_clear g f c (bucket_of bi c)). rewrite <- collect_bucket. rewrite <- (firstn_skipn j). apply in_or_app. left. exact Ho. }
    pose proof (acc_fold_length _ NC []) as L. cbn [length Nat.add] in L. etransitivity; [exact L|]. rewrite firstn_length.
    pose proof (bucket_ops_length g f c (bucket_of bi c)) as L2. rewrite <- collect_bucket in L2. unfold fdeg, fine_degree. lia.
  - intros k v H. rewrite collect_bucket in H. apply in_flat_map in H. destruct H as (u & Hu & H). apply in_node_ops in H. destruct H as (_ & x & Hx & <-).
    apply (bucket_in g f c _ u (Hb c Hc)) in Hu. apply Hf. apply (Cg u x v (proj1 Hu) Hx).
  - intros k v H. rewrite collect_bucket in H. apply in_flat_map in H. destruct H as (u & Hu & H). apply in_node_ops in H. destruct H as (_ & x & Hx & _).
    apply (bucket_in g f c _ u (Hb c Hc)) in Hu. apply (Pos u x v (proj1 Hu) Hx).
Qed.

Lemma deg_le c : deg c <= fdeg c.
Proof.
  unfold deg, Ent, fdeg, fine_degree. pose proof (acc_fold_length _ (bucket_ops_no_clear g f c (bucket_of bi c)) []) as L. cbn [length Nat.add] in L.
  pose proof (bucket_ops_length g f c (bucket_of bi c)). rewrite collect_bucket. unfold acc_run. lia.
Qed.

(** *** Collecting one chunk *)
Definition seg_ok (content : list (nat * Z)) (mk : nat * nat) : Prop :=
  snd mk + deg (fst mk) <= length content /\ forall j, j < deg (fst mk) -> nth (snd mk + j) content (0, 0%Z) = nth j (Ent (fst mk)) (0, 0%Z).

Lemma seg_ok_app content more mk : seg_ok content mk -> seg_ok (content ++ more) mk.
Proof. intros [H1 H2]. split; [rewrite app_length; lia|]. intros j Hj. rewrite app_nth1 by lia. apply H2, Hj. Qed.

Record ginv (owner : nat -> nat) (nodes0 : list nat) (nw0 : list Z) (done : list nat) (st : list navl * list nat * list Z) : Prop := mkGinv {
  gi_lists : length (fst (fst st)) = T;
  gi_nav : forall t, t < T -> exists content, nav_ok K (nth t (fst (fst st)) nav_empty) content /\
     map fst (nv_markers (nth t (fst (fst st)) nav_empty)) = filter (fun c => owner c =? t) done /\
     forall mk, In mk (nv_markers (nth t (fst (fst st)) nav_empty)) -> seg_ok content mk;
  gi_nlen : length (snd (fst st)) = S c_n;
  gi_nodes : forall i, nth i (snd (fst st)) 0 = match i with 0 => nth 0 nodes0 0 | S c => if in_dec Nat.eq_dec c done then deg c else nth (S c) nodes0 0 end;
  gi_wlen : length (snd st) = c_n;
  gi_nw : forall c, nth c (snd st) 0%Z = if in_dec Nat.eq_dec c done then wt c else nth c nw0 0%Z }.

Lemma collect_ok owner nodes0 nw0 order : (forall c, owner c < T) -> NoDup order -> (forall c, In c order -> c < c_n) ->
  length nodes0 = S c_n -> length nw0 = c_n -> (split = true -> forall c, In c order -> nth (S c) nodes0 0 = fdeg c) ->
  exists st, fold_left (process_coarse K hash g c_n mapping bi split owner) order (Some (repeat nav_empty T, nodes0, nw0)) = Some st /\
    ginv owner nodes0 nw0 order st.
Proof.
  intros Hown HN Hlt Hn0 Hw0 Hfd. revert HN Hlt Hfd. induction order as [|c order IH] using rev_ind; intros HN Hlt Hfd.
  - eexists. split; [reflexivity|]. constructor; cbn [fst snd]; auto.
    + apply repeat_length.
    + intros t Ht. exists []. rewrite nth_repeat. split; [split; [intros ch []|split; [cbn; lia|reflexivity]]|]. split; [reflexivity|intros mk []].
    + intros [|c]; reflexivity.
  - destruct IH as ([[lists nodes] nw] & E & I).
    + apply NoDup_remove_1 in HN. rewrite app_nil_r in HN. exact HN.
    + intros x Hx. apply Hlt, in_or_app. left. exact Hx.
    + intros Hs x Hx. apply Hfd; [exact Hs|]. apply in_or_app. left. exact Hx.
    + assert (Hc : c < c_n) by (apply Hlt, in_or_app; right; left; reflexivity).
      assert (Hnin : ~ In c order) by (apply NoDup_remove_2 in HN; rewrite app_nil_r in HN; exact HN).
      rewrite fold_left_app, E. cbn [fold_left]. unfold process_coarse at 1.
      destruct I as [I1 I2 I3 I4 I5 I6]. cbn [fst snd] in *.
      assert (Hbound : (if split then nth (S c) nodes 0 else fine_degree g (bucket_of bi c)) = fdeg c).
      { destruct split eqn:Es; [|reflexivity]. rewrite I4. destruct (in_dec Nat.eq_dec c order); [contradiction|]. apply Hfd; [reflexivity|]. apply in_or_app. right. left. reflexivity. }
      cbv zeta. rewrite Hbound, collect_execute by exact Hc. eexists. split; [reflexivity|]. fold (deg c) (wt c).
      constructor; cbn [fst snd]; rewrite ?upd_length; auto.
      * intros t Ht. rewrite upd_nth, I1, (proj2 (Nat.ltb_lt _ _) (Hown c)), andb_true_r. rewrite filter_app. cbn [filter].
        destruct (I2 t Ht) as (content & N1 & N2 & N3). destruct (Nat.eqb_spec (owner c) t) as [Eo|Eo].
        -- exists (content ++ Ent c). rewrite Eo. set (l := nth t lists nav_empty) in *.
           assert (N0 : nav_ok K (nav_mark K c l) content) by exact N1.
           destruct (nav_pushes_ok K (Ent c) HK _ _ N0) as [P1 P2]. split; [exact P1|]. rewrite P2. cbn [nav_mark nv_markers].
           split; [rewrite map_app, N2; reflexivity|]. intros mk Hmk. apply in_app_or in Hmk. destruct Hmk as [Hmk|[<-|[]]].
           ++ apply seg_ok_app, N3, Hmk.
           ++ rewrite (nav_pos K l content N1). split; cbn [fst snd]; [rewrite app_length; unfold deg; lia|].
              intros j Hj. rewrite app_nth2 by lia. f_equal. lia.
        -- rewrite app_nil_r. exists content. auto.
      * intros [|x].
        -- rewrite upd_nth_other by lia. apply (I4 0).
        -- rewrite upd_nth, I3, (proj2 (Nat.ltb_lt _ _)) by lia. rewrite andb_true_r. change (S c =? S x) with (c =? x).
           rewrite (I4 (S x)). destruct (in_dec Nat.eq_dec x (order ++ [c])) as [Hin|Hin]; destruct (Nat.eqb_spec c x) as [<-|Hne]; auto.
           ++ destruct (in_dec Nat.eq_dec x order) as [Hi|Hi]; [reflexivity|]. apply in_app_or in Hin. destruct Hin as [?|[?|[]]]; contradiction.
           ++ exfalso. apply Hin, in_or_app. right. left. reflexivity.
           ++ destruct (in_dec Nat.eq_dec x order) as [Hi|Hi]; [|reflexivity]. exfalso. apply Hin, in_or_app. left. exact Hi.
      * intros x. rewrite upd_nth, I5, (proj2 (Nat.ltb_lt _ _) Hc), andb_true_r. rewrite (I6 x).
        destruct (in_dec Nat.eq_dec x (order ++ [c])) as [Hin|Hin]; destruct (Nat.eqb_spec c x) as [<-|Hne]; auto.
        ++ destruct (in_dec Nat.eq_dec x order) as [Hi|Hi]; [reflexivity|]. apply in_app_or in Hin. destruct Hin as [?|[?|[]]]; contradiction.
        ++ exfalso. apply Hin, in_or_app. right. left. reflexivity.
        ++ destruct (in_dec Nat.eq_dec x order) as [Hi|Hi]; [|reflexivity]. exfalso. apply Hin, in_or_app. left. exact Hi.
Qed.

(** *** Copying the edges of one chunk *)
Lemma write_loop (lists : list navl) (t base pos : nat) (vals : nat -> nat * Z) k : forall edges ew,
  (forall j, j < k -> nav_get K (nth t lists nav_empty) (pos + j) = vals j) -> base + k <= length edges -> base + k <= length ew ->
  let '(edges', ew') := fold_left (fun st j => let '(edges, ew) := st in
     let '(v, w) := nav_get K (nth t lists nav_empty) (pos + j) in (upd (base + j) v edges, upd (base + j) w ew)) (seq 0 k) (edges, ew) in
  length edges' = length edges /\ length ew' = length ew /\
  (forall p, nth p edges' 0 = if (base <=? p) && (p <? base + k) then fst (vals (p - base)) else nth p edges 0) /\
  (forall p, nth p ew' 0%Z = if (base <=? p) && (p <? base + k) then snd (vals (p - base)) else nth p ew 0%Z).
Proof.
  induction k as [|k IH]; intros edges ew Hv H1 H2.
  - cbn [seq fold_left]. repeat split; intros p; destruct (Nat.leb_spec base p), (Nat.ltb_spec p (base + 0)); cbn; auto; lia.
  - rewrite seq_snoc, fold_left_app. cbn [fold_left Nat.add]. specialize (IH edges ew (fun j Hj => Hv j (Nat.lt_lt_succ_r _ _ Hj)) ltac:(lia) ltac:(lia)).
    destruct (fold_left _ (seq 0 k) (edges, ew)) as [e1 w1]. destruct IH as (L1 & L2 & G1 & G2). rewrite (Hv k) by lia.
    destruct (vals k) as [v w] eqn:Ev. rewrite !upd_length. repeat split; auto; intros p; rewrite upd_nth, ?L1, ?L2, ?G1, ?G2.
    + rewrite (proj2 (Nat.ltb_lt _ _)) by lia. rewrite andb_true_r. destruct (Nat.eqb_spec (base + k) p) as [<-|Hne].
      * rewrite (proj2 (Nat.leb_le _ _)), (proj2 (Nat.ltb_lt _ _)) by lia. cbn. replace (base + k - base) with k by lia. rewrite Ev. reflexivity.
      * destruct (Nat.leb_spec base p), (Nat.ltb_spec p (base + k)), (Nat.ltb_spec p (base + S k)); cbn; auto; lia.
    + rewrite (proj2 (Nat.ltb_lt _ _)) by lia. rewrite andb_true_r. destruct (Nat.eqb_spec (base + k) p) as [<-|Hne].
      * rewrite (proj2 (Nat.leb_le _ _)), (proj2 (Nat.ltb_lt _ _)) by lia. cbn. replace (base + k - base) with k by lia. rewrite Ev. reflexivity.
      * destruct (Nat.leb_spec base p), (Nat.ltb_spec p (base + k)), (Nat.ltb_spec p (base + S k)); cbn; auto; lia.
Qed.

Definition placed (c : nat) (edges : list nat) (ew : list Z) : Prop :=
  forall j, j < deg c -> nth (psum deg c + j) edges 0 = fst (nth j (Ent c) (0, 0%Z)) /\ nth (psum deg c + j) ew 0%Z = snd (nth j (Ent c) (0, 0%Z)).

Definition marker_ok (lists : list navl) (nodes : list nat) (mk : nat * (nat * nat)) : Prop :=
  let c := fst (snd mk) in
  c < c_n /\ nth c nodes 0 = psum deg c /\ nth (S c) nodes 0 = psum deg (S c) /\
  forall j, j < deg c -> nav_get K (nth (fst mk) lists nav_empty) (snd (snd mk) + j) = nth j (Ent c) (0, 0%Z).

Lemma write_markers lists nodes M mks : psum deg c_n <= M -> (forall mk, In mk mks -> marker_ok lists nodes mk) ->
  forall edges ew, length edges = M -> length ew = M ->
  let '(edges', ew') := fold_left (write_marker K lists nodes) mks (edges, ew) in
  length edges' = M /\ length ew' = M /\
  (forall c, c < c_n -> In c (map (fun mk => fst (snd mk)) mks) \/ placed c edges ew -> placed c edges' ew').
Proof.
  intros HM. induction mks as [|[t [c pos]] mks IH] using rev_ind; intros Hok edges ew L1 L2.
  - cbn [fold_left]. repeat split; auto; intros; destruct H0 as [[]|H0]; apply H0; assumption.
  - rewrite fold_left_app. cbn [fold_left]. specialize (IH (fun mk Hmk => Hok mk (in_or_app _ _ _ (or_introl Hmk))) edges ew L1 L2).
    destruct (fold_left _ mks (edges, ew)) as [e1 w1]. destruct IH as (G1 & G2 & G3).
    destruct (Hok (t, (c, pos))) as (Hc & N1 & N2 & N3); [apply in_or_app; right; left; reflexivity|]. cbn [fst snd] in *.
    unfold write_marker. rewrite N1, N2. assert (HS := psum_S deg c). rewrite HS. replace (psum deg c + deg c - psum deg c) with (deg c) by lia.
    assert (Hle := psum_le deg (S c) c_n Hc).
    pose proof (write_loop lists t (psum deg c) pos (fun j => nth j (Ent c) (0, 0%Z)) (deg c) e1 w1 N3 ltac:(lia) ltac:(lia)) as W.
    destruct (fold_left _ (seq 0 (deg c)) (e1, w1)) as [e2 w2]. destruct W as (W1 & W2 & W3 & W4).
    repeat split; try congruence.
    + rewrite W3. destruct (Nat.eq_dec c0 c) as [->|Hne].
      * rewrite (proj2 (Nat.leb_le _ _)), (proj2 (Nat.ltb_lt _ _)) by lia. cbn. f_equal. f_equal. lia.
      * assert (Hout : (psum deg c <=? psum deg c0 + j) && (psum deg c0 + j <? psum deg c + deg c) = false).
        { assert (HS0 := psum_S deg c0). destruct (lt_dec c0 c) as [L|L].
          - assert (P := psum_le deg (S c0) c L). destruct (Nat.leb_spec (psum deg c) (psum deg c0 + j)); [lia|reflexivity].
          - assert (L' : S c <= c0) by lia. assert (P := psum_le deg (S c) c0 L'). destruct (Nat.leb_spec (psum deg c) (psum deg c0 + j)), (Nat.ltb_spec (psum deg c0 + j) (psum deg c + deg c)); cbn; auto; lia. }
        rewrite Hout. apply (G3 c0 H); [|exact H1]. rewrite map_app, in_app_iff in H0. cbn in H0. destruct H0 as [[H0|[H0|[]]]|H0]; auto. congruence.
    + rewrite W4. destruct (Nat.eq_dec c0 c) as [->|Hne].
      * rewrite (proj2 (Nat.leb_le _ _)), (proj2 (Nat.ltb_lt _ _)) by lia. cbn. f_equal. f_equal. lia.
      * assert (Hout : (psum deg c <=? psum deg c0 + j) && (psum deg c0 + j <? psum deg c + deg c) = false).
        { assert (HS0 := psum_S deg c0). destruct (lt_dec c0 c) as [L|L].
          - assert (P := psum_le deg (S c0) c L). destruct (Nat.leb_spec (psum deg c) (psum deg c0 + j)); [lia|reflexivity].
          - assert (L' : S c <= c0) by lia. assert (P := psum_le deg (S c) c0 L'). destruct (Nat.leb_spec (psum deg c) (psum deg c0 + j)), (Nat.ltb_spec (psum deg c0 + j) (psum deg c + deg c)); cbn; auto; lia. }
        rewrite Hout. apply (G3 c0 H); [|exact H1]. rewrite map_app, in_app_iff in H0. cbn in H0. destruct H0 as [[H0|[H0|[]]]|H0]; auto. congruence.
Qed.

(** *** One chunk *)
Definition init_node (i : nat) : nat := if split then fdeg (i - 1) else 0.

Record cinv (M s : nat) (st : cstate) : Prop := mkCinv {
  ci_nlen : length (ct_nodes st) = S c_n;
  ci_wlen : length (ct_nw st) = c_n;
  ci_elen : length (ct_edges st) = M;
  ci_ewlen : length (ct_ew st) = M;
  ci_nodes : forall i, i <= c_n -> nth i (ct_nodes st) 0 = if i <=? s then psum deg i else init_node i;
  ci_nw : forall c, c < s -> nth c (ct_nw st) 0%Z = wt c;
  ci_placed : forall c, c < s -> placed c (ct_edges st) (ct_ew st) }.

Lemma prefix_range_nth nodes s e i : s <= e -> e < length nodes -> nth s nodes 0 = psum deg s ->
  (forall c, s <= c < e -> nth (S c) nodes 0 = deg c) ->
  nth i (prefix_range nodes s e) 0 = if (s <=? i) && (i <=? e) then psum deg i else nth i nodes 0.
Proof.
  intros Hs He H0 H1. unfold prefix_range.
  assert (Ls : length (firstn s nodes) = s) by (rewrite firstn_length; lia).
  assert (Lm : length (firstn (S e - s) (skipn s nodes)) = S e - s) by (rewrite firstn_length, skipn_length; lia).
  destruct (Nat.leb_spec s i) as [Hi|Hi]; cbn [andb].
  - rewrite app_nth2 by lia. rewrite Ls. destruct (Nat.leb_spec i e) as [Hie|Hie].
    + rewrite app_nth1 by (rewrite prefix_sum_length, Lm; lia). rewrite prefix_sum_nth by (rewrite Lm; lia). rewrite firstn_firstn.
      replace (Nat.min (S (i - s)) (S e - s)) with (S (i - s)) by lia.
      assert (G : forall k, s + k <= e -> list_sum (firstn (S k) (skipn s nodes)) = psum deg (s + k)).
      { induction k as [|k IH]; intros Hk.
        - rewrite (skipn_cons_nth 0 s) by lia. cbn [firstn]. cbn. rewrite H0. replace (s + 0) with s by lia. lia.
        - assert (Ef : firstn (S (S k)) (skipn s nodes) = firstn (S k) (skipn s nodes) ++ [nth (s + S k) nodes 0]).
          { rewrite <- (firstn_skipn (S k) (firstn (S (S k)) (skipn s nodes))), firstn_firstn. replace (Nat.min (S k) (S (S k))) with (S k) by lia. f_equal.
            rewrite (skipn_cons_nth 0) by (rewrite firstn_length, skipn_length; lia). rewrite nth_firstn_lt, nth_skipn by lia. f_equal.
            apply skipn_all2. rewrite firstn_length. lia. }
          rewrite Ef, list_sum_app, IH by lia. replace (s + S k) with (S (s + k)) by lia. rewrite H1 by lia. rewrite psum_S. cbn. lia. }
      rewrite G by lia. f_equal. lia.
    + rewrite app_nth2 by (rewrite prefix_sum_length, Lm; lia). rewrite prefix_sum_length, Lm, nth_skipn. f_equal. lia.
  - rewrite app_nth1 by lia. apply nth_firstn_lt, Hi.
Qed.

Lemma prefix_range_length nodes s e : s <= e -> e < length nodes -> length (prefix_range nodes s e) = length nodes.
Proof. intros Hs He. unfold prefix_range. rewrite !app_length, prefix_sum_length, !firstn_length, !skipn_length. lia. Qed.

Lemma perm_map_nth {A} (d : A) l ix : Permutation ix (seq 0 (length l)) -> Permutation (map (fun i => nth i l d) ix) l.
Proof. intros P. rewrite (Permutation_map (fun i => nth i l d) P). rewrite map_nth_seq. reflexivity. Qed.

Lemma filter_partition_perm {A} (own : A -> nat) (l : list A) k : (forall x, In x l -> own x < k) ->
  Permutation (flat_map (fun t => filter (fun x => own x =? t) l) (seq 0 k)) l.
Proof.
  induction l as [|x l IH]; intros H.
  - cbn. induction (seq 0 k); [constructor|]. cbn. assumption.
  - assert (Hx := H x (or_introl eq_refl)).
    assert (Hs : seq 0 k = seq 0 (own x) ++ own x :: seq (S (own x)) (k - S (own x))).
    { replace k with (own x + S (k - S (own x))) at 1 by lia. rewrite seq_app. reflexivity. }
    transitivity (x :: flat_map (fun t => filter (fun y => own y =? t) l) (seq 0 k)); [|apply perm_skip, IH; intros y Hy; apply H; right; exact Hy].
    rewrite Hs, !flat_map_app. cbn [flat_map]. cbn [filter]. rewrite Nat.eqb_refl.
    assert (E1 : forall ts, ~ In (own x) ts -> flat_map (fun t => if own x =? t then x :: filter (fun y => own y =? t) l else filter (fun y => own y =? t) l) ts
        = flat_map (fun t => filter (fun y => own y =? t) l) ts).
    { induction ts as [|t ts IHt]; intros Ht; [reflexivity|]. cbn [flat_map]. rewrite IHt by (intros Hi; apply Ht; right; exact Hi).
      destruct (Nat.eqb_spec (own x) t) as [Et|]; [exfalso; apply Ht; left; congruence|reflexivity]. }
    rewrite (E1 (seq 0 (own x))) by (rewrite in_seq; lia). rewrite (E1 (seq (S (own x)) _)) by (rewrite in_seq; lia).
    cbn [app]. symmetry. apply Permutation_middle.
Qed.

Lemma chunk_ok M sch st s e : psum deg c_n <= M -> cinv M s st -> s <= e -> e <= c_n -> valid_sched T s e (sch s e) ->
  exists st', process_chunk K T hash g c_n mapping bi split sch (Some st) (s, e) = Some st' /\ cinv M e st'.
Proof.
  intros HM I Hse Hec (V1 & V2 & V3 & V4). destruct I as [I1 I2 I3 I4 I5 I6 I7].
  assert (Hin : forall c, In c (cs_order (sch s e)) <-> s <= c < e).
  { intros c. split; intros H.
    - apply (Permutation_in _ V2) in H. apply in_seq in H. lia.
    - apply (Permutation_in _ (Permutation_sym V2)). apply in_seq. lia. }
  destruct (collect_ok (cs_owner (sch s e)) (ct_nodes st) (ct_nw st) (cs_order (sch s e)) V1) as ([[lists nodes] nw] & Ec & G).
  { apply (Permutation_NoDup (Permutation_sym V2)), seq_NoDup. }
  { intros c Hc. apply Hin in Hc. lia. }
  { exact I1. } { exact I2. }
  { intros Hs c Hc. apply Hin in Hc. rewrite I5 by lia. destruct (Nat.leb_spec (S c) s); [lia|]. unfold init_node. rewrite Hs. f_equal. lia. }
  unfold process_chunk. rewrite Ec. destruct G as [G1 G2 G3 G4 G5 G6]. cbn [fst snd] in *.
  set (nodes' := prefix_range nodes s e). set (lists' := map nav_flush lists).
  assert (Hnodes' : forall i, i <= c_n -> nth i nodes' 0 = if i <=? e then psum deg i else init_node i).
  { intros i Hi. unfold nodes'. rewrite (prefix_range_nth nodes s e i Hse ltac:(lia)).
    - destruct (Nat.leb_spec s i), (Nat.leb_spec i e); cbn [andb]; try reflexivity; try lia.
      + rewrite G4. destruct i as [|c]; [lia|]. destruct (in_dec Nat.eq_dec c (cs_order (sch s e))) as [Hc|Hc]; [apply Hin in Hc; lia|].
        rewrite I5 by exact Hi. destruct (Nat.leb_spec (S c) s); [lia|reflexivity].
      + rewrite G4. destruct i as [|c]; [rewrite I5 by lia; reflexivity|]. destruct (in_dec Nat.eq_dec c (cs_order (sch s e))) as [Hc|Hc]; [apply Hin in Hc; lia|].
        rewrite I5 by exact Hi. destruct (Nat.leb_spec (S c) s); [reflexivity|lia].
    - rewrite G4. destruct s as [|c]; [rewrite I5 by lia; reflexivity|]. destruct (in_dec Nat.eq_dec c (cs_order (sch (S c) e))) as [Hc|Hc]; [apply Hin in Hc; lia|].
      rewrite I5 by lia. rewrite Nat.leb_refl. reflexivity.
    - intros c Hc. rewrite G4. destruct (in_dec Nat.eq_dec c (cs_order (sch s e))) as [Hi'|Hi']; [reflexivity|]. exfalso. apply Hi', Hin, Hc. }
  assert (HL' : forall t, t < T -> nth t lists' nav_empty = nav_flush (nth t lists nav_empty)).
  { intros t Ht. unfold lists'. rewrite (nth_indep _ nav_empty (nav_flush nav_empty)) by (rewrite map_length; lia). apply map_nth. }
  set (all := flat_map (fun t => map (fun mk => (t, mk)) (nv_markers (nth t lists' nav_empty))) (cs_lists (sch s e))).
  assert (Hall : Permutation (map (fun mk => fst (snd mk)) all) (cs_order (sch s e))).
  { transitivity (flat_map (fun t => filter (fun c => cs_owner (sch s e) c =? t) (cs_order (sch s e))) (cs_lists (sch s e))).
    - unfold all. assert (Gx : forall ts, (forall t, In t ts -> t < T) -> map (fun mk => fst (snd mk)) (flat_map (fun t => map (fun mk => (t, mk)) (nv_markers (nth t lists' nav_empty))) ts)
          = flat_map (fun t => filter (fun c => cs_owner (sch s e) c =? t) (cs_order (sch s e))) ts).
      { induction ts as [|t ts IHt]; intros Ht; [reflexivity|]. cbn [flat_map]. rewrite map_app, IHt by (intros; apply Ht; right; assumption). f_equal.
        rewrite map_map. cbn [snd fst]. assert (Htt := Ht t (or_introl eq_refl)). rewrite HL' by exact Htt. rewrite nav_flush_markers.
        destruct (G2 t Htt) as (content & _ & N2 & _). rewrite <- N2. reflexivity. }
      rewrite Gx; [reflexivity|]. intros t Ht. apply (Permutation_in _ V3) in Ht. apply in_seq in Ht. lia.
    - rewrite (Permutation_flat_map _ V3). apply filter_partition_perm. intros c _. apply V1. }
  assert (Hmk : forall mk, In mk all -> marker_ok lists' nodes' mk).
  { intros [t [c pos]] H. assert (Hc : In c (map (fun mk => fst (snd mk)) all)) by (change c with ((fun mk : nat * (nat * nat) => fst (snd mk)) (t, (c, pos))); apply in_map, H).
    apply (Permutation_in _ Hall), Hin in Hc. unfold all in H. apply in_flat_map in H. destruct H as (t' & Ht & H). apply in_map_iff in H. destruct H as (mk' & E' & H). injection E' as -> ->.
    apply (Permutation_in _ V3), in_seq in Ht. destruct (G2 t ltac:(lia)) as (content & N1 & N2 & N3).
    rewrite HL', nav_flush_markers in H by lia. specialize (N3 _ H). destruct N3 as [S1 S2]. cbn [fst snd] in *.
    split; cbn [fst snd]; [lia|]. rewrite !Hnodes' by lia. rewrite (proj2 (Nat.leb_le c e)), (proj2 (Nat.leb_le (S c) e)) by lia.
    split; [reflexivity|]. split; [reflexivity|]. intros j Hj. rewrite HL' by lia. rewrite (nav_get_ok K _ content) by (auto; lia). apply S2, Hj. }
  set (mks := map (fun i => nth i all (0, (0, 0))) (cs_writes (sch s e))).
  assert (Hlen : length all = e - s).
  { rewrite <- (map_length (fun mk => fst (snd mk))), (Permutation_length Hall), (Permutation_length V2), seq_length. reflexivity. }
  assert (Hmks : Permutation mks all) by (apply perm_map_nth; rewrite Hlen; exact V4).
  assert (Efold : fold_left (fun a i => write_marker K lists' nodes' a (nth i all (0, (0, 0)))) (cs_writes (sch s e)) (ct_edges st, ct_ew st)
      = fold_left (write_marker K lists' nodes') mks (ct_edges st, ct_ew st)).
  { unfold mks. generalize (ct_edges st, ct_ew st). generalize (cs_writes (sch s e)). clear. induction l as [|i l IH]; intros a; [reflexivity|]. cbn [map fold_left]. apply IH. }
  cbv zeta. fold nodes' lists' all. rewrite Efold.
  pose proof (write_markers lists' nodes' M mks HM (fun mk H => Hmk mk (Permutation_in _ Hmks H)) (ct_edges st) (ct_ew st) I3 I4) as W.
  destruct (fold_left _ mks _) as [edges ew]. destruct W as (W1 & W2 & W3). eexists. split; [reflexivity|].
  constructor; cbn [ct_nodes ct_nw ct_edges ct_ew]; auto.
  - unfold nodes'. rewrite prefix_range_length by lia. exact G3.
  - intros c Hc. rewrite G6. destruct (in_dec Nat.eq_dec c (cs_order (sch s e))) as [Hi|Hi]; [reflexivity|]. apply I6. rewrite Hin in Hi. lia.
  - intros c Hc. apply W3; [lia|]. destruct (lt_dec c s) as [L|L]; [right; apply I7, L|]. left.
    apply (Permutation_in _ (Permutation_map (fun mk => fst (snd mk)) (Permutation_sym Hmks))). apply (Permutation_in _ (Permutation_sym Hall)), Hin. lia.
Qed.

Lemma chunks_ok M sch l : psum deg c_n <= M -> forall s st, cinv M s st -> tiles s l c_n ->
  (forall a b, In (a, b) l -> valid_sched T a b (sch a b)) ->
  exists st', fold_left (process_chunk K T hash g c_n mapping bi split sch) l (Some st) = Some st' /\ cinv M c_n st'.
Proof.
  intros HM. induction l as [|[a b] l IH]; intros s st I HT HV.
  - cbn in HT. subst s. exists st. auto.
  - cbn in HT. destruct HT as (-> & Hab & HT).
    assert (Hbc : b <= c_n). { clear - HT. revert b HT. induction l as [|[x y] l IH]; intros b HT; cbn in HT; [lia|]. destruct HT as (-> & H1 & H2). specialize (IH y H2). lia. }
    destruct (chunk_ok M sch st a b HM I Hab Hbc (HV a b (or_introl eq_refl))) as (st1 & E1 & I1). cbn [fold_left]. rewrite E1.
    apply (IH b st1 I1 HT). intros x y H. apply HV. right. exact H.
Qed.

Lemma sum_fdeg : psum fdeg c_n = list_sum (map (fun u => length (gadj g u)) (seq 0 (gn g))).
Proof.
  assert (P : Permutation (flat_map (fun c => bucket_of bi c) (seq 0 c_n)) (seq 0 (gn g))).
  { transitivity (flat_map (fun c => filter (fun u => f u =? c) (seq 0 (gn g))) (seq 0 c_n)).
    - assert (Gx : forall cs, (forall c, In c cs -> c < c_n) -> Permutation (flat_map (fun c => bucket_of bi c) cs) (flat_map (fun c => filter (fun u => f u =? c) (seq 0 (gn g))) cs)).
      { induction cs as [|c cs IH]; intros Hc; [constructor|]. cbn [flat_map]. apply Permutation_app; [apply Hb, Hc; left; reflexivity|apply IH; intros; apply Hc; right; assumption]. }
      apply Gx. intros c Hc. apply in_seq in Hc. lia.
    - apply (filter_partition_perm f). intros u Hu. apply in_seq in Hu. apply Hf. lia. }
  assert (Gs : forall l l', Permutation l l' -> list_sum l = list_sum l') by (intros l l' Q; induction Q; rewrite ?ls_cons; lia).
  rewrite <- (Gs _ _ (Permutation_map (fun u => length (gadj g u)) P)). unfold psum, fdeg, fine_degree.
  clear P Gs. induction (seq 0 c_n) as [|c cs IH]; [reflexivity|]. cbn [map flat_map]. rewrite map_app, list_sum_app, ls_cons, IH. reflexivity.
Qed.

Lemma contract_ok limit sch junk junkw M :
  length junk = M -> length junkw = M -> M = list_sum (map (fun u => length (gadj g u)) (seq 0 (gn g))) ->
  (forall a b, In (a, b) (make_chunks fdeg split limit c_n) -> valid_sched T a b (sch a b)) ->
  exists nodes edges nw ew,
    contract_buffered K T hash g c_n mapping bi split limit sch junk junkw = Some (nodes, edges, nw, ew) /\
    nodes = map (psum deg) (seq 0 (S c_n)) /\ length nw = c_n /\ (forall c, c < c_n -> nth c nw 0%Z = wt c) /\
    edges = flat_map (fun c => map fst (Ent c)) (seq 0 c_n) /\ ew = flat_map (fun c => map snd (Ent c)) (seq 0 c_n).
Proof.
  intros Hj Hjw HM HV.
  assert (HMle : psum deg c_n <= M).
  { rewrite HM, <- sum_fdeg. assert (G : forall c, psum deg c <= psum fdeg c); [|apply G].
    induction c as [|c IH]; [cbn; lia|]. rewrite !psum_S. pose proof (deg_le c). lia. }
  unfold contract_buffered. set (nodes0 := if split then _ else _).
  assert (I0 : cinv M 0 (mkCst nodes0 (repeat 0%Z c_n) junk junkw)).
  { constructor; cbn [ct_nodes ct_nw ct_edges ct_ew]; try lia.
    - unfold nodes0. destruct split; cbn [length]; rewrite ?map_length, ?seq_length, ?repeat_length; reflexivity.
    - apply repeat_length.
    - intros i Hi. unfold nodes0, init_node. destruct i as [|i].
      + destruct split; [reflexivity|]. rewrite nth_repeat. reflexivity.
      + cbn [Nat.leb]. destruct split; [|rewrite nth_repeat; reflexivity]. cbn [nth]. rewrite nth_map_seq by lia. cbn [Nat.add]. replace (S i - 1) with i by lia. reflexivity. }
  destruct (chunks_ok M sch _ HMle 0 _ I0 (make_chunks_tiles fdeg split limit c_n) HV) as (st & E & [C1 C2 C3 C4 C5 C6 C7]).
  fold fdeg. rewrite E.
  assert (En : ct_nodes st = map (psum deg) (seq 0 (S c_n))).
  { apply (list_ext 0); [rewrite map_length, seq_length; exact C1|]. intros i Hi. rewrite nth_map_seq by lia. rewrite C5 by lia. destruct (Nat.leb_spec i c_n); [reflexivity|lia]. }
  assert (Em : last (ct_nodes st) 0 = psum deg c_n).
  { rewrite En, seq_snoc, map_app. cbn [map Nat.add]. apply last_last. }
  cbv zeta. rewrite Em. do 4 eexists. split; [reflexivity|]. split; [exact En|]. split; [exact C2|]. split; [exact C6|].
  assert (Hfind : forall c p, p < psum deg c -> exists c' j, c' < c /\ j < deg c' /\ p = psum deg c' + j).
  { induction c as [|c IH]; intros p Hp; [cbn in Hp; lia|]. rewrite psum_S in Hp. destruct (lt_dec p (psum deg c)) as [L|L].
    - destruct (IH p L) as (c' & j & H1 & H2 & H3). exists c', j. split; [lia|auto].
    - exists c, (p - psum deg c). lia. }
  assert (Lf : forall (B : Type) (h : nat * Z -> B), length (flat_map (fun c => map h (Ent c)) (seq 0 c_n)) = psum deg c_n).
  { intros B h. rewrite length_flat_map_list_sum. unfold psum. f_equal. apply map_ext. intros c. apply map_length. }
  split.
  - apply (list_ext 0); [rewrite firstn_length, Lf, C3; lia|]. intros p Hp. rewrite firstn_length, C3 in Hp. rewrite nth_firstn_lt by lia.
    destruct (Hfind c_n p ltac:(lia)) as (c & j & H1 & H2 & ->). rewrite (flat_map_nth _ deg) by (auto; intros; apply map_length).
    rewrite (proj1 (C7 c H1 j H2)). symmetry. apply (map_nth fst (Ent c) (0, 0%Z)).
  - apply (list_ext 0%Z); [rewrite firstn_length, Lf, C4; lia|]. intros p Hp. rewrite firstn_length, C4 in Hp. rewrite nth_firstn_lt by lia.
    destruct (Hfind c_n p ltac:(lia)) as (c & j & H1 & H2 & ->). rewrite (flat_map_nth _ deg) by (auto; intros; apply map_length).
    rewrite (proj2 (C7 c H1 j H2)). symmetry. apply (map_nth snd (Ent c) (0, 0%Z)).
Qed.
End Buffered.

(** Reading a CSR graph assembled from the neighbourhoods [E c] (none is lost even if there are no edges). *)
Lemma assembled_adj c_n (E : nat -> list (nat * Z)) nw c : c < c_n ->
  gadj (user_graph (map (psum (fun c => length (E c))) (seq 0 (S c_n))) (flat_map (fun c => map fst (E c)) (seq 0 c_n)) nw
          (flat_map (fun c => map snd (E c)) (seq 0 c_n))) c = E c.
Proof.
  intros Hc. set (dg := fun c => length (E c)). rewrite user_graph_adj. rewrite !nth_map_seq by lia. cbn [Nat.add]. rewrite psum_S.
  replace (psum dg c + dg c - psum dg c) with (dg c) by lia.
  assert (Lw : length (flat_map (fun c => map snd (E c)) (seq 0 c_n)) = psum dg c_n).
  { rewrite length_flat_map_list_sum. unfold psum. f_equal. apply map_ext. intros x. apply map_length. }
  destruct (flat_map (fun c => map snd (E c)) (seq 0 c_n)) as [|w0 ws] eqn:Ew.
  - cbn [length] in Lw. assert (H := psum_le dg (S c) c_n Hc). rewrite psum_S in H. assert (Hd : dg c = 0) by lia. rewrite Hd. cbn [seq map].
    unfold dg in Hd. destruct (E c); [reflexivity|discriminate].
  - rewrite <- Ew. apply (list_ext (0, 0%Z)); [rewrite map_length, seq_length; reflexivity|]. intros j Hj. rewrite map_length, seq_length in Hj.
    rewrite nth_map_seq by exact Hj. rewrite !(flat_map_nth _ dg) by (auto; intros; apply map_length).
    rewrite (map_nth fst (E c) (0, 0%Z)), (map_nth snd (E c) (0, 0%Z)). symmetry. apply surjective_pairing.
Qed.

Lemma assembled_n c_n (E : nat -> list (nat * Z)) edges nw ew : gn (user_graph (map (psum (fun c => length (E c))) (seq 0 (S c_n))) edges nw ew) = c_n.
Proof. cbn [gn user_graph]. rewrite map_length, seq_length. lia. Qed.

Lemma buffered_quotient K T hash g clustering order0 order1 order2 garbage split limit sch junk junkw :
  0 < K -> valid_inputs g clustering order0 order1 order2 garbage junk junkw ->
  (forall a b, a <= b -> valid_sched T a b (sch a b)) ->
  exists mapping nodes edges nw ew,
    contract_clustering_buffered K T hash g clustering order0 order1 order2 garbage split limit sch junk junkw = Some (mapping, (nodes, edges, nw, ew)) /\
    mapping = snd (compute_mapping (gn g) clustering order0) /\
    is_quotient g (fun u => nth u mapping 0) (user_graph nodes edges nw ew) /\
    gn (user_graph nodes edges nw ew) = fst (compute_mapping (gn g) clustering order0).
Proof.
  intros HK (Hn & Cg & Pos & Hcl & P0 & P1 & P2 & Hg & Hj & Hjw) HV.
  pose proof (mapping_numbers (gn g) clustering order0 Hn P0 Hcl) as (M1 & M2 & M3).
  unfold contract_clustering_buffered. destruct (compute_mapping (gn g) clustering order0) as [c_n mapping]. cbn [fst snd] in *.
  set (bi := fill_cluster_buckets c_n mapping order1 order2 garbage).
  assert (Hb : forall c, c < c_n -> is_bucket g (fun u => nth u mapping 0) c (bucket_of bi c)).
  { intros c Hc. unfold is_bucket. apply buckets_perm; assumption. }
  assert (Hch : forall a b, In (a, b) (make_chunks (fdeg g bi) split limit c_n) -> valid_sched T a b (sch a b)).
  { intros a b H. apply HV. pose proof (make_chunks_tiles (fdeg g bi) split limit c_n) as HT. revert HT. generalize 0. 
    induction (make_chunks (fdeg g bi) split limit c_n) as [|[x y] l IH]; intros s HT; [destruct H|]. cbn in HT. destruct HT as (_ & H1 & H2).
    destruct H as [H|H]; [injection H as -> ->; exact H1|]. apply (IH H y H2). }
  destruct (contract_ok K T hash g c_n mapping bi split HK Cg Pos M1 Hb limit sch junk junkw _ eq_refl Hjw Hj Hch) as (nodes & edges & nw & ew & E & En & Lw & Hw & Ee & Eew).
  rewrite E. exists mapping, nodes, edges, nw, ew. split; [reflexivity|]. split; [reflexivity|].
  assert (Gn : gn (user_graph nodes edges nw ew) = c_n) by (rewrite En; apply (assembled_n c_n (Ent g mapping bi))).
  split; [|exact Gn].
  apply (build_quotient g (fun u => nth u mapping 0) (user_graph nodes edges nw ew) (fun c => c) (bucket_of bi) (Ent g mapping bi)); rewrite ?Gn; auto.
  - intros c Hc. exact Hc.
  - intros a b _ _ H. exact H.
  - intros c Hc. rewrite En, Ee, Eew. etransitivity; [exact (assembled_adj c_n (Ent g mapping bi) nw c Hc)|]. rewrite <- (map_id (Ent g mapping bi c)) at 1. apply map_ext. intros [a b]. reflexivity.
  - intros c Hc. cbn [gvw user_graph]. destruct nw as [|w0 nw0] eqn:Enw; [cbn in Lw; lia|]. apply Hw, Hc.
Qed.

(** ** Projection (C13) *)
Lemma cut_ext g p q : closed_graph g -> (forall u, u < gn g -> p u = q u) -> cut_weight g p = cut_weight g q.
Proof.
  intros _ H. unfold cut_weight. apply sumn_ext. intros u Hu. apply sumn_ext. intros v Hv. rewrite (H u Hu), (H v ltac:(lia)). reflexivity.
Qed.
Lemma bw_ext g p q b : (forall u, u < gn g -> p u = q u) -> block_weight g p b = block_weight g q b.
Proof. intros H. unfold block_weight. apply sumn_ext. intros u Hu. rewrite (H u Hu). reflexivity. Qed.

Lemma project_up_nth mapping coarse n u : u < n -> nth u (project_up mapping coarse n) 0 = nth (nth u mapping 0) coarse 0.
Proof. intros H. unfold project_up. rewrite nth_map_seq by exact H. reflexivity. Qed.

Lemma project_level g mapping h coarse : closed_graph g -> undirected g -> is_quotient g (fun u => nth u mapping 0) h ->
  let fine := project_up mapping coarse (gn g) in
  cut_weight g (fun u => nth u fine 0) = cut_weight h (fun c => nth c coarse 0) /\
  (forall b, block_weight g (fun u => nth u fine 0) b = block_weight h (fun c => nth c coarse 0) b).
Proof.
  intros Cg Ug Q fine. split.
  - rewrite (quotient_cut g h _ Q Cg (fun c => nth c coarse 0) Ug). apply cut_ext; [exact Cg|]. intros u Hu. apply project_up_nth, Hu.
  - intros b. rewrite (quotient_block_weight g h _ Q). apply bw_ext. intros u Hu. apply project_up_nth, Hu.
Qed.

Lemma uncoarsen_hierarchy levels : forall g coarse, closed_graph g -> undirected g -> hierarchy g levels ->
  let fine := uncoarsen_all g levels coarse in
  let top := coarsest g levels in
  cut_weight g (fun u => nth u fine 0) = cut_weight top (fun c => nth c coarse 0) /\
  (forall b, block_weight g (fun u => nth u fine 0) b = block_weight top (fun c => nth c coarse 0) b) /\
  total_weight g = total_weight top.
Proof.
  induction levels as [|[mapping h] levels IH]; intros g coarse Cg Ug H; cbn [uncoarsen_all coarsest hierarchy] in *; [auto|].
  destruct H as [Q H]. destruct (IH h coarse (quotient_closed g h _ Q Cg) (quotient_undirected g h _ Q Ug) H) as (I1 & I2 & I3).
  destruct (project_level g mapping h (uncoarsen_all h levels coarse) Cg Ug Q) as [J1 J2].
  rewrite J1, I1. split; [reflexivity|]. split; [intros b; rewrite J2; apply I2|]. rewrite <- I3. symmetry. apply (quotient_total g h _ Q).
Qed.

Lemma quotient_well_formed g f h : closed_graph g -> is_quotient g f h -> closed_graph h /\ (undirected g -> undirected h) /\ total_weight h = total_weight g.
Proof. intros Cg Q. split; [apply (quotient_closed g h f Q Cg)|]. split; [apply (quotient_undirected g h f Q)|apply (quotient_total g h f Q)]. Qed.
