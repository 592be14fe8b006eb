(* The sparse gain cache is exact after every concurrent history. *)
From Verif Require Import Lib.Prelude Spec.Graph Spec.Gain Spec.CountMap Spec.SparseGainSpec Model.MathModel Model.CompactHashModel Model.GainModel Model.SparseGainModel
  Proofs.MathProofs Proofs.AlignedProofs Proofs.GraphFacts Proofs.GainBase Proofs.GainSys Proofs.DenseGain
  Proofs.CompactHashProofs Proofs.CompactHashOps Proofs.CompactGain Proofs.SparseGainLayout.

(** Parts of an array. *)
Lemma win_put_same arr s t : s + length t <= length arr -> firstn (length t) (skipn s (sg_put arr s t)) = t.
Proof.
  intros H. unfold sg_put. rewrite skipn_app, skipn_all2 by (rewrite firstn_length; lia). rewrite firstn_length. replace (s - Nat.min s (length arr)) with 0 by lia.
  cbn [skipn app]. rewrite firstn_app, firstn_all, Nat.sub_diag. cbn [firstn]. apply app_nil_r.
Qed.
Lemma put_length arr s t : s + length t <= length arr -> length (sg_put arr s t) = length arr.
Proof. intros H. unfold sg_put. rewrite !app_length, firstn_length, skipn_length. lia. Qed.
Lemma put_nth arr s t i d : s + length t <= length arr -> nth i (sg_put arr s t) d = if (s <=? i) && (i <? s + length t) then nth (i - s) t d else nth i arr d.
Proof.
  intros H. unfold sg_put. destruct (Nat.leb_spec s i) as [A|A]; cbn [andb].
  - rewrite app_nth2 by (rewrite firstn_length; lia). rewrite firstn_length. replace (i - Nat.min s (length arr)) with (i - s) by lia.
    destruct (Nat.ltb_spec i (s + length t)) as [B|B]; [apply app_nth1; lia|]. rewrite app_nth2 by lia. rewrite <- (firstn_skipn (s + length t) arr) at 2.
    rewrite (app_nth2 (firstn _ _)) by (rewrite firstn_length; lia). rewrite firstn_length. f_equal. lia.
  - rewrite app_nth1 by (rewrite firstn_length; lia). rewrite <- (firstn_skipn s arr) at 2. rewrite app_nth1 by (rewrite firstn_length; lia). reflexivity.
Qed.
Lemma win_nth (arr : list Z) s l i d : s + l <= length arr -> i < l -> nth i (firstn l (skipn s arr)) d = nth (s + i) arr d.
Proof.
  intros H Hi. rewrite <- (firstn_skipn s arr) at 2. rewrite app_nth2 by (rewrite firstn_length; lia). rewrite firstn_length. replace (s + i - Nat.min s (length arr)) with i by lia.
  rewrite <- (firstn_skipn l (skipn s arr)) at 2. rewrite (app_nth1 (firstn l _)) by (rewrite firstn_length, skipn_length; lia). reflexivity.
Qed.
Lemma win_length (arr : list Z) s l : s + l <= length arr -> length (firstn l (skipn s arr)) = l.
Proof. intros H. rewrite firstn_length, skipn_length. lia. Qed.
Lemma upd_put arr s l i x : s + l <= length arr -> i < l -> upd (s + i) x arr = sg_put arr s (upd i x (firstn l (skipn s arr))).
Proof.
  intros H Hi. apply (list_ext 0%Z).
  - rewrite upd_length, put_length; [reflexivity|]. rewrite upd_length, win_length; lia.
  - intros j Hj. rewrite upd_length in Hj. rewrite put_nth by (rewrite upd_length, win_length; lia). rewrite upd_length, win_length by lia.
    destruct (Nat.eq_dec j (s + i)) as [->|Nj].
    + rewrite upd_nth_same by lia. destruct (Nat.leb_spec s (s + i)); [|lia]. destruct (Nat.ltb_spec (s + i) (s + l)); [|lia]. cbn [andb]. replace (s + i - s) with i by lia. rewrite upd_nth_same by (rewrite win_length; lia). reflexivity.
    + rewrite upd_nth_other by auto. destruct (Nat.leb_spec s j); cbn [andb]; [|reflexivity]. destruct (Nat.ltb_spec j (s + l)); [|reflexivity]. rewrite upd_nth_other by lia. rewrite win_nth by lia. f_equal. lia.
Qed.

Section C.
Variables (g : graph) (k : nat) (w : Z) (sorted : bool) (bk : nat -> nat) (nb thr : nat) (L : slayout).
Hypothesis (Hc : closed_graph g) (Hs : undirected g) (Hsim : simple_graph g) (Hpos : positive_edges g).
Hypothesis (HLay : layout_ok g k bk nb thr sorted L).
Hypothesis Hfit : sparse_fits g k w sorted nb thr.
Notation hash v := (negb (sg_in_sparse L v)).
Notation len := (len k bk nb L).
Notation pos := (pos k bk nb L).
Notation bucket := (bucket bk nb).
Notation deg u := (length (gadj g u)).
Notation zkb := (sg_kb k).
Notation KN := (Z.to_nat (2 ^ zkb)).
Notation size := (pos (gn g)).
Notation smem := (list Z).

Lemma w_pos : (0 < 2 ^ w)%Z.
Proof. destruct Hfit as (H & _). apply Z.pow_pos_nonneg; lia. Qed.
Lemma hash_facts u : u < gn g -> hash u = true ->
  (0 < zkb < w)%Z /\ len u = 2 ^ bucket u /\ deg u < 2 ^ bucket u /\ (weighted_degree g u < 2 ^ (vb w zkb))%Z /\ (Z.of_nat k <= 2 ^ zkb)%Z.
Proof.
  intros Hu Hh. unfold sg_in_sparse in Hh. destruct (Nat.leb_spec (sl_nt L) u) as [|Hlt]; [discriminate|]. destruct HLay as (_ & HD & _ & HF). destruct (HD u Hu Hlt) as (_ & D1 & D2).
  assert (El : len u = 2 ^ bucket u) by (unfold SparseGainLayout.len; destruct (Nat.leb_spec (sl_nt L) u); [lia|reflexivity]).
  destruct sorted; [|rewrite HF in Hlt by reflexivity; lia]. destruct Hfit as (_ & _ & _ & Hk). destruct (Hk eq_refl) as (Hk1 & kb & B1 & B2 & B3).
  assert (Ek : zkb = kb).
  { unfold sg_kb. destruct (ceil_log2_bounds 32 (N.of_nat k)) as (c & E & C1 & C2); [lia| |].
    - change (2 ^ 32)%N with (2 * 2 ^ 31)%N. assert (N.of_nat k < 2 ^ 31)%N; [|lia]. change (2 ^ 31)%N with (N.of_nat 2 ^ N.of_nat 31)%N. rewrite <- Nat2N.inj_pow. lia.
    - rewrite E. assert (P1 : (Z.of_nat k <= 2 ^ Z.of_N c)%Z) by (change 2%Z with (Z.of_N 2); rewrite <- N2Z.inj_pow; lia).
      assert (P2 : (Z.of_N c <= kb)%Z). { assert (c <= Z.to_N kb)%N; [|lia]. apply C2. apply N2Z.inj_le. rewrite N2Z.inj_pow, Z2N.id by lia. lia. }
      destruct (Z.eq_dec (Z.of_N c) kb) as [|Ne]; [assumption|]. assert (2 ^ Z.of_N c <= 2 ^ (kb - 1))%Z by (apply Z.pow_le_mono_r; lia). lia. }
  rewrite Ek. split; [exact B1|]. split; [exact El|]. split; [lia|]. split; [apply B3; assumption|lia].
Qed.
Lemma sparse_len u : hash u = false -> len u = k.
Proof. unfold sg_in_sparse, SparseGainLayout.len. destruct (sl_nt L <=? u); [reflexivity|discriminate]. Qed.

(** The part of a node. *)
Definition tab (arr : smem) (v : nat) : list Z := firstn (len v) (skipn (pos v) arr).
Lemma part_in v : v < gn g -> pos v + len v <= size.
Proof. apply pos_disjoint. Qed.
Lemma tab_length arr v : length arr = size -> v < gn g -> length (tab arr v) = len v.
Proof. intros HA Hv. apply win_length. rewrite HA. apply part_in. exact Hv. Qed.
Lemma tab_put arr v t x : length arr = size -> v < gn g -> x < gn g -> length t = len v -> tab (sg_put arr (pos v) t) x = if x =? v then t else tab arr x.
Proof.
  intros HA Hv Hx Ht. pose proof (part_in v Hv). pose proof (part_in x Hx). destruct (Nat.eqb_spec x v) as [->|Ne].
  - unfold tab. rewrite <- Ht. apply win_put_same. lia.
  - assert (HP : length (sg_put arr (pos v) t) = size) by (rewrite put_length; lia). apply (list_ext 0%Z).
    + rewrite !tab_length by assumption. reflexivity.
    + intros i Hi. rewrite tab_length in Hi by assumption. unfold tab. rewrite !win_nth by lia. rewrite put_nth by lia.
      destruct (Nat.leb_spec (pos v) (pos x + i)); cbn [andb]; [|reflexivity]. destruct (Nat.ltb_spec (pos x + i) (pos v + length t)); [|reflexivity]. exfalso.
      destruct (Nat.lt_ge_cases x v) as [C|C].
      * pose proof (pos_disjoint k bk nb L x v C). lia.
      * pose proof (pos_disjoint k bk nb L v x ltac:(lia)). lia.
Qed.

(** Updates of a part. *)
Definition full_add (b : nat) (x : Z) (t : list Z) : option (list Z) :=
  match nth_error t b with None => None | Some y => Some (upd b ((y + x) mod 2 ^ w)%Z t) end.
Definition full_update (dec inc : option nat) (x : Z) (t : list Z) : option (list Z) :=
  match (match dec with None => Some t | Some b => full_add b (- x) t end) with
  | None => None
  | Some t' => match inc with None => Some t' | Some b => full_add b x t' end
  end.
Definition part_update (v : nat) (dec inc : option nat) (x : Z) (t : list Z) : option (list Z) :=
  if hash v then sg_table_update k w (len v) dec inc x t else full_update dec inc x t.
Lemma cell_flat arr v b x : length arr = size -> v < gn g -> sl_nt L <= v -> b < k ->
  sg_cell_add k w L v b x arr = Some (sg_put arr (pos v) (upd b ((nth b (tab arr v) 0 + x) mod 2 ^ w)%Z (tab arr v))).
Proof.
  intros HA Hv Hge Hb. assert (El : len v = k) by (apply sparse_len; unfold sg_in_sparse; destruct (Nat.leb_spec (sl_nt L) v); [reflexivity|lia]).
  pose proof (part_in v Hv). unfold sg_cell_add. rewrite (proj1 HLay v Hv Hge). rewrite (nth_error_in arr (pos v + b) 0%Z) by lia.
  unfold tab. rewrite <- upd_put by lia. rewrite win_nth by lia. reflexivity.
Qed.
Lemma full_add_ok b x t : b < length t -> full_add b x t = Some (upd b ((nth b t 0 + x) mod 2 ^ w)%Z t).
Proof. intros H. unfold full_add. rewrite (nth_error_in t b 0%Z) by exact H. reflexivity. Qed.
Lemma put_put arr s t t' : s + length t <= length arr -> length t = length t' -> sg_put (sg_put arr s t) s t' = sg_put arr s t'.
Proof.
  intros H E. apply (list_ext 0%Z).
  - rewrite !put_length; rewrite ?put_length; lia.
  - intros i _. rewrite !put_nth by (rewrite ?put_length; lia). rewrite <- E. destruct (_ && _); reflexivity.
Qed.
Lemma put_tab arr v : length arr = size -> v < gn g -> sg_put arr (pos v) (tab arr v) = arr.
Proof.
  intros HA Hv. pose proof (part_in v Hv). pose proof (tab_length arr v HA Hv). apply (list_ext 0%Z).
  - rewrite put_length; lia.
  - intros i _. rewrite put_nth by lia. destruct (Nat.leb_spec (pos v) i), (Nat.ltb_spec i (pos v + length (tab arr v))); cbn [andb]; try reflexivity. unfold tab. rewrite win_nth by lia. f_equal. lia.
Qed.
Lemma update_flat arr v dec inc x t' : length arr = size -> v < gn g -> (forall b, dec = Some b -> b < k) -> (forall b, inc = Some b -> b < k) ->
  part_update v dec inc x (tab arr v) = Some t' -> length t' = len v -> sg_update g k w bk nb L v dec inc x arr = Some (sg_put arr (pos v) t').
Proof.
  intros HA Hv Hd Hi E Ht. pose proof (part_in v Hv) as Hin. pose proof (tab_length arr v HA Hv) as Htl. unfold part_update in E. unfold sg_update. destruct (sg_in_sparse L v) eqn:Eh; cbn [negb] in E.
  - assert (Hge : sl_nt L <= v) by (unfold sg_in_sparse in Eh; apply Nat.leb_le; exact Eh). assert (El : len v = k) by (apply sparse_len; rewrite Eh; reflexivity).
    unfold full_update in E. assert (exists t1, (match dec with None => Some (tab arr v) | Some b => full_add b (- x) (tab arr v) end) = Some t1 /\ length t1 = k /\
       (match dec with None => Some arr | Some b => sg_cell_add k w L v b (- x) arr end) = Some (sg_put arr (pos v) t1)) as (t1 & E1 & L1 & E2).
    { destruct dec as [b|].
      - specialize (Hd b eq_refl). rewrite full_add_ok by lia. rewrite cell_flat by assumption. eexists. split; [reflexivity|]. split; [rewrite upd_length; lia|reflexivity].
      - eexists. split; [reflexivity|]. split; [lia|]. rewrite put_tab by assumption. reflexivity. }
    rewrite E1 in E. rewrite E2. destruct inc as [b|].
    + specialize (Hi b eq_refl). rewrite full_add_ok in E by lia. injection E as <-. rewrite cell_flat by (try assumption; rewrite put_length; lia).
      rewrite tab_put by (try assumption; lia). rewrite Nat.eqb_refl. rewrite put_put by (rewrite ?upd_length; lia). reflexivity.
    + injection E as <-. reflexivity.
  - assert (Hlt : v < sl_nt L) by (unfold sg_in_sparse in Eh; apply Nat.leb_gt; exact Eh). destruct HLay as (_ & HD & _). destruct (HD v Hv Hlt) as (E1 & _). rewrite E1.
    unfold sg_win. rewrite HA. destruct (Nat.leb_spec (pos v + len v) size); [|lia]. fold (tab arr v). rewrite E. reflexivity.
Qed.

(** The contents of one table. *)
Definition table_ok (v : nat) (t : list Z) (f : nat -> Z) : Prop :=
  if hash v then rep w zkb (bucket v) t (fun x => f (Z.to_nat x))
  else length t = k /\ forall b, b < k -> nth_error t b = Some (f b mod 2 ^ w)%Z.
Definition mem_are (mem : smem) (f : nat -> nat -> Z) : Prop :=
  length mem = size /\ forall v, v < gn g -> table_ok v (tab mem v) (f v).
Lemma table_len v t f : v < gn g -> table_ok v t f -> length t = len v.
Proof.
  intros Hv H. unfold table_ok in H. destruct (hash v) eqn:Eh.
  - destruct (hash_facts v Hv Eh) as (_ & E & _). rewrite E. destruct H as ((r & HI) & _). exact (i_len _ _ _ _ _ HI).
  - rewrite sparse_len by exact Eh. apply H.
Qed.
Lemma table_ext v t f f' : (forall b, f b = f' b) -> table_ok v t f -> table_ok v t f'.
Proof.
  intros E H. unfold table_ok in *. destruct (hash v).
  - eapply rep_ext; [exact H|]. intros; apply E.
  - destruct H as [HL H]. split; auto. intros. rewrite <- E. auto.
Qed.
Definition in_range (p : nat -> nat) : Prop := forall x, x < gn g -> p x < k.

Lemma bc_lconn p v b : block_conn g p v b = lconn p (gadj g v) b.
Proof. apply block_conn_if. Qed.

Lemma hash_inc v t p l x c : v < gn g -> hash v = true ->
  (exists r, gadj g v = l ++ (x, c) :: r) -> p x < k ->
  rep w zkb (bucket v) t (fun i => lconn p l (Z.to_nat i)) ->
  exists t' r, ch_increase w zkb (len v) false t (Z.of_nat (p x)) c = Some (t', r) /\
    rep w zkb (bucket v) t' (fun i => lconn p (l ++ [(x, c)]) (Z.to_nat i)).
Proof.
  intros Hv Hh (r & El) Hx HR. destruct (hash_facts v Hv Hh) as (Hkb & E1 & E2 & E3 & Hkk).
  assert (Hp1 : forall a y, In (a, y) (l ++ [(x, c)]) -> (0 < y)%Z).
  { intros a y Hin. apply (Hpos v a y Hv). rewrite El. apply in_app_iff in Hin. apply in_app_iff.
    destruct Hin as [Hin|[Hin|[]]]; [left|right; left]; auto. }
  assert (Ew : forall i, lconn p (l ++ [(x, c)]) i = (lconn p l i + (if Nat.eqb (p x) i then c else 0))%Z).
  { intros i. rewrite lconn_app. unfold lconn at 2. cbn [map zsum fst snd]. lia. }
  assert (Eq : forall i, (0 <= i)%Z -> cm_step (fun i => lconn p l (Z.to_nat i)) (CInc (Z.of_nat (p x)) c) i
             = lconn p (l ++ [(x, c)]) (Z.to_nat i)).
  { intros i Hi. cbn [cm_step]. rewrite Ew. destruct (Z.eqb_spec i (Z.of_nat (p x))) as [->|Hne].
    - rewrite Nat2Z.id, Nat.eqb_refl. lia.
    - destruct (Nat.eqb_spec (p x) (Z.to_nat i)); lia. }
  destruct (increase_spec w zkb (bucket v) false Hkb t _ (Z.of_nat (p x)) c HR) as (t' & Ei & HR').
  - cbn [cm_valid_op]. split; [lia|]. split; [apply (Hp1 x); apply in_app_iff; right; left; auto|]. split.
    + rewrite Nat2Z.id. pose proof (Ew (p x)) as Ex. rewrite Nat.eqb_refl in Ex. rewrite <- Ex.
      eapply Z.le_lt_trans; [apply lconn_bounds; exact Hp1|]. eapply Z.le_lt_trans; [|exact E3].
      unfold weighted_degree. rewrite El. replace (l ++ (x, c) :: r) with ((l ++ [(x, c)]) ++ r) by (rewrite <- app_assoc; reflexivity).
      rewrite (map_app snd (l ++ [(x, c)]) r), zsum_app.
      assert (0 <= zsum (map snd r))%Z; [|lia]. apply zsum_nonneg. intros y Hy. apply in_map_iff in Hy. destruct Hy as ([a d] & <- & Hin).
      apply Z.lt_le_incl. apply (Hpos v a d Hv). rewrite El. apply in_app_iff. right. right. auto.
    + rewrite (cm_size_ext _ _ (fun i => lconn p (l ++ [(x, c)]) (Z.to_nat i))) by (intros; apply Eq; lia).
      etransitivity; [apply lconn_size; exact Hp1|]. rewrite El in E2. rewrite app_length in *. cbn [length] in *. lia.
  - rewrite E1. exists t'. eexists. split; [exact Ei|]. eapply rep_ext; [exact HR'|]. intros i Hi. apply Eq. lia.
Qed.

Lemma cell_add_ok t f b x : length t = k -> (forall b, b < k -> nth_error t b = Some (f b mod 2 ^ w)%Z) -> b < k ->
  exists t', full_add b x t = Some t' /\ length t' = k /\
    forall c, c < k -> nth_error t' c = Some ((f c + (if Nat.eqb b c then x else 0)) mod 2 ^ w)%Z.
Proof.
  intros HL H Hb. unfold full_add. rewrite (H b Hb). eexists. split; [reflexivity|]. split; [rewrite upd_length; auto|].
  intros c Hx. rewrite upd_nth_error, HL. destruct (Nat.ltb_spec b k); [|lia]. rewrite Bool.andb_true_r.
  destruct (Nat.eqb_spec b c) as [->|Hne].
  - f_equal. rewrite Zplus_mod_idemp_l. reflexivity.
  - rewrite H, Z.add_0_r by auto. reflexivity.
Qed.
Lemma update_mem mem f v dec inc x t' f' : mem_are mem f -> v < gn g -> (forall b, dec = Some b -> b < k) -> (forall b, inc = Some b -> b < k) ->
  part_update v dec inc x (tab mem v) = Some t' -> table_ok v t' f' ->
  exists mem', sg_update g k w bk nb L v dec inc x mem = Some mem' /\ mem_are mem' (fun u b => if Nat.eqb u v then f' b else f u b).
Proof.
  intros [HL HT] Hv Hd Hi E Ht. pose proof (table_len v t' f' Hv Ht) as El. rewrite (update_flat mem v dec inc x t') by assumption. eexists. split; [reflexivity|].
  pose proof (part_in v Hv). split; [rewrite put_length; lia|]. intros u Hu. rewrite tab_put by assumption. destruct (Nat.eqb_spec u v) as [->|]; [exact Ht|apply HT; exact Hu].
Qed.

(** * Initialization *)
Lemma init_node_ok lab u : labels_ok g k lab -> u < gn g -> forall r l mem f, gadj g u = l ++ r ->
  mem_are mem f -> (forall b, f u b = lconn (label_of lab) l b) ->
  exists mem', fold_left (fun c e => match c with
                        | None => None
                        | Some c => match nth_error lab (fst e) with
                                    | None => None
                                    | Some b => sg_update g k w bk nb L u None (Some b) (snd e) c
                                    end
                        end) r (Some mem) = Some mem' /\
    mem_are mem' (fun v b => if Nat.eqb v u then lconn (label_of lab) (l ++ r) b else f v b).
Proof.
  intros [HL1 HL2] Hu. induction r as [|[x c] r IH]; intros l mem f El HM Hf; cbn [fold_left].
  - exists mem. split; auto. rewrite app_nil_r. split; [apply HM|]. intros v Hv. eapply table_ext; [|apply HM; auto].
    intros b. cbn beta. destruct (Nat.eqb_spec v u) as [->|]; auto.
  - assert (Hx : x < gn g). { apply (Hc u x c Hu). rewrite El. apply in_app_iff. right; left; auto. }
    cbn [fst snd]. rewrite (nth_error_in lab x 0) by lia. fold (label_of lab x).
    assert (exists t', part_update u None (Some (label_of lab x)) c (tab mem u) = Some t' /\ table_ok u t' (lconn (label_of lab) (l ++ [(x, c)]))) as (t' & Et & Ht).
    { pose proof (proj2 HM u Hu) as HT. unfold table_ok, part_update in *. destruct (hash u) eqn:Eh.
      - assert (HR1 : rep w zkb (bucket u) (tab mem u) (fun i => lconn (label_of lab) l (Z.to_nat i)))
            by (eapply rep_ext; [exact HT|]; intros; apply Hf).
        destruct (hash_inc u (tab mem u) (label_of lab) l x c Hu Eh) as (t' & rr & Ei & HR'); auto; [exists r; auto|].
        unfold sg_table_update. rewrite Ei. cbn [option_map fst]. exists t'. split; auto.
      - destruct HT as [HTL HT].
        destruct (cell_add_ok (tab mem u) (f u) (label_of lab x) c HTL HT (HL2 x Hx)) as (t' & Ei & HL' & HT').
        unfold full_update. rewrite Ei. exists t'. split; auto. split; auto. intros y Hy. rewrite HT' by auto.
        rewrite Hf, lconn_app. unfold lconn at 3. cbn [map zsum fst snd]. do 2 f_equal. lia. }
    destruct (update_mem mem f u None (Some (label_of lab x)) c t' _ HM Hu ltac:(discriminate) ltac:(intros ? [= <-]; apply HL2; exact Hx) Et Ht) as (m1 & E1 & HM1).
    rewrite E1. destruct (IH (l ++ [(x, c)]) m1 _ ltac:(rewrite <- app_assoc; exact El) HM1) as (m2 & E2 & HM2).
    + intros b. cbn beta. rewrite Nat.eqb_refl. reflexivity.
    + exists m2. split; auto. destruct HM2 as [HL HM2]. split; auto. intros v Hv. eapply table_ext; [|apply HM2; auto].
      intros b. cbn beta. rewrite <- app_assoc. cbn [app]. destruct (v =? u); reflexivity.
Qed.
Lemma blank_ok : mem_are (repeat 0%Z size) (fun _ _ => 0%Z).
Proof.
  split; [apply repeat_length|]. intros v Hv. pose proof (part_in v Hv).
  assert (Et : tab (repeat 0%Z size) v = repeat 0%Z (len v)).
  { apply (list_ext 0%Z).
    - rewrite tab_length, repeat_length by (try apply repeat_length; assumption). reflexivity.
    - intros i Hi. rewrite tab_length in Hi by (try apply repeat_length; assumption). unfold tab. rewrite win_nth by (rewrite ?repeat_length; lia). rewrite !nth_repeat. reflexivity. }
  rewrite Et. unfold table_ok. destruct (hash v) eqn:Eh.
  - destruct (hash_facts v Hv Eh) as (Hkb & E1 & _). rewrite E1. apply (rep_init w zkb (bucket v) Hkb).
  - rewrite sparse_len by exact Eh. split; [apply repeat_length|]. intros b Hb. rewrite (nth_error_in _ _ 0%Z) by (rewrite repeat_length; auto).
    rewrite nth_repeat, Z.mod_0_l; [reflexivity|]. pose proof w_pos. lia.
Qed.
Lemma sg_init_ok lab : labels_ok g k lab ->
  exists mem, sg_init g k w bk nb L lab = Some mem /\ mem_are mem (block_conn g (label_of lab)).
Proof.
  intros HL. unfold sg_init. destruct HLay as (_ & _ & Esz & _). rewrite Esz.
  assert (G : forall j mem, j <= gn g -> mem_are mem (fun _ _ => 0%Z) -> exists mem', 
    fold_left (fun c u => sg_init_node g k w bk nb L lab u c) (seq 0 j) (Some mem) = Some mem' /\
    mem_are mem' (fun v b => if Nat.ltb v j then block_conn g (label_of lab) v b else 0)%Z).
  { induction j as [|j IH]; intros c Hj H.
    - exists c. split; auto.
    - rewrite seq_S, fold_left_app. cbn [fold_left plus].
      destruct (IH c ltac:(lia) H) as (c1 & E1 & C1). rewrite E1. unfold sg_init_node at 1.
      destruct (init_node_ok lab j HL ltac:(lia) (gadj g j) [] c1 _ eq_refl C1) as (c2 & E2 & C2).
      + intros b. cbn beta. destruct (Nat.ltb_spec j j); [lia|]. reflexivity.
      + exists c2. split; auto. destruct C2 as [HL2 C2]. split; auto. intros v Hv. eapply table_ext; [|apply C2; auto].
        intros b. cbn beta. cbn [app]. rewrite bc_lconn.
        destruct (Nat.ltb_spec v j), (Nat.ltb_spec v (S j)), (Nat.eqb_spec v j); subst; try lia; reflexivity. }
  destruct (G (gn g) _ (le_n _) blank_ok) as (c & E & C). exists c. split; auto. destruct C as [HL2 C]. split; auto.
  intros v Hv. eapply table_ext; [|apply C; auto]. intros b. cbn beta. destruct (Nat.ltb_spec v (gn g)); [reflexivity|lia].
Qed.

(** * Concurrent moves *)
Notation bag s := (concat (s_pend (Mem := smem) s)).
Definition pending_ok (s : gsys smem) : Prop :=
  (forall m, In m (bag s) -> hash (m_dst m) = true ->
     exists a, m_dec m = Some a /\ m_inc m = Some (label_of (s_lab s) (m_src m))) /\
  NoDup (map (fun m => (m_src m, m_dst m)) (filter (fun m => hash (m_dst m)) (bag s))).
Definition inv (s : gsys smem) : Prop := pending_ok s /\ mem_are (s_mem s) (expected g smem s).

(** The outstanding updates of a table are those of neighbours that have not yet moved, as far as the table is
    concerned. *)
Lemma override lab v Q : labels_ok g k lab -> v < gn g ->
  (forall m, In m Q -> micro_ok g k lab m /\ m_dst m = v /\
     exists a, m_dec m = Some a /\ m_inc m = Some (label_of lab (m_src m))) ->
  NoDup (map m_src Q) ->
  exists p, in_range p /\ (forall x, ~ In x (map m_src Q) -> p x = label_of lab x) /\
    (forall m a, In m Q -> m_dec m = Some a -> p (m_src m) = a) /\
    forall b, (block_conn g (label_of lab) v b - peff Q v b = block_conn g p v b)%Z.
Proof.
  intros [HL1 HL2] Hv. induction Q as [|m Q IH]; intros HA HN.
  - exists (label_of lab). split; [exact HL2|]. split; auto. split; [intros m a []|]. intros b. unfold peff. cbn. lia.
  - cbn [map] in HN. inversion HN as [|? ? Hni HN']; subst.
    destruct IH as (p & HP1 & HP2 & HP3 & HP4); [intros; apply HA; right; auto|auto|].
    destruct (HA m (or_introl eq_refl)) as ((Hm1 & Hm2 & Hm3 & Hm4 & Hm5) & Ed & a & Ea & Ei).
    exists (relabel p (m_src m) a). split; [|split; [|split]].
    + intros x Hx. unfold relabel. destruct (x =? m_src m); [apply Hm4; auto|apply HP1; auto].
    + intros x Hx. cbn [map] in Hx. unfold relabel. destruct (Nat.eqb_spec x (m_src m)) as [->|Hne].
      * exfalso. apply Hx. left; auto.
      * apply HP2. intros C. apply Hx. right; auto.
    + intros m' a' [<-|Hin] Ea'.
      * unfold relabel. rewrite Nat.eqb_refl. congruence.
      * unfold relabel. destruct (Nat.eqb_spec (m_src m') (m_src m)) as [E|E].
        -- exfalso. apply Hni. rewrite <- E. apply in_map; auto.
        -- apply HP3; auto.
    + intros b. rewrite block_conn_relabel by auto.
      change (peff (m :: Q) v b) with (effect m v b + peff Q v b)%Z. unfold effect. rewrite Ed, Nat.eqb_refl, Ea, Ei.
      rewrite (HP2 _ Hni). rewrite Ed in Hm3. rewrite (Hs v (m_src m) Hv Hm1), (simple_conn g _ _ _ Hsim Hm1 Hm3).
      specialize (HP4 b). lia.
Qed.
Lemma peff_filter Q v b : peff Q v b = peff (filter (fun m => m_dst m =? v) Q) v b.
Proof.
  unfold peff. rewrite zsum_filter. apply zsum_map_ext. intros m _. unfold effect. destruct (m_dst m =? v); reflexivity.
Qed.
Lemma nodup_src Q v : hash v = true ->
  NoDup (map (fun m => (m_src m, m_dst m)) (filter (fun m => hash (m_dst m)) Q)) ->
  NoDup (map m_src (filter (fun m => m_dst m =? v) Q)).
Proof.
  intros Hh. induction Q as [|m Q IH]; cbn [filter]; [constructor|].
  intros H. destruct (Nat.eqb_spec (m_dst m) v) as [E|E].
  - rewrite E, Hh in H. cbn [map] in *. inversion H as [|? ? Hni HN]; subst. constructor; [|apply IH; auto].
    intros C. apply Hni. apply in_map_iff in C. destruct C as (m' & E1 & E2). apply filter_In in E2. destruct E2 as [E2 E3].
    apply Nat.eqb_eq in E3. apply in_map_iff. exists m'. rewrite E1, E3. split; auto. apply filter_In. split; auto.
    rewrite E3. auto.
  - apply IH. destruct (hash (m_dst m)); auto. cbn [map] in H. inversion H; auto.
Qed.
Lemma override_bag (s : gsys smem) v Q : sys_ok g k smem s -> pending_ok s -> v < gn g -> hash v = true ->
  Permutation (bag s) Q ->
  exists p, in_range p /\ (forall m a, In m Q -> m_dst m = v -> m_dec m = Some a -> p (m_src m) = a) /\
    (forall b, expected g smem s v b = block_conn g p v b).
Proof.
  intros [HL HM] [HP HN] Hv Hh HPerm.
  destruct (override (s_lab s) v (filter (fun m => m_dst m =? v) (bag s)) HL Hv) as (p & H1 & _ & H3 & H4).
  - intros m Hm. apply filter_In in Hm. destruct Hm as [Hm Ed]. apply Nat.eqb_eq in Ed. split; [apply HM; auto|]. split; auto.
    apply HP; auto. rewrite Ed; auto.
  - apply nodup_src; auto.
  - exists p. split; auto. split.
    + intros m a Hm Ed Ea. apply H3; auto. apply filter_In. split; [|apply Nat.eqb_eq; auto].
      apply (Permutation_in m (Permutation_sym HPerm)). auto.
    + intros b. unfold expected. rewrite peff_filter. apply H4.
Qed.

Lemma bc_pos v : v < gn g -> forall a c, In (a, c) (gadj g v) -> (0 < c)%Z.
Proof. intros Hv a c Hin. eapply Hpos; eauto. Qed.

Lemma sg_expand_eff u v a b y x c :
  peff (sg_expand L u v a b y) x c = if v =? x then ((if Nat.eqb b c then y else 0) - (if Nat.eqb a c then y else 0))%Z else 0%Z.
Proof. unfold peff, sg_expand, effect. destruct (sg_in_sparse L v); cbn; destruct (v =? x); lia. Qed.
Lemma sg_expand_wf u v a b y m : In m (sg_expand L u v a b y) ->
  m_src m = u /\ m_dst m = v /\ m_w m = y /\ (m_dec m = None \/ m_dec m = Some a) /\ (m_inc m = None \/ m_inc m = Some b).
Proof.
  unfold sg_expand. destruct (sg_in_sparse L v); [intros [<-|[<-|[]]]|intros [<-|[]]]; cbn; repeat split; auto.
Qed.
Notation expand := (sg_expand L).

Lemma expand_pairs u a b l : filter (fun m => hash (m_dst m)) (flat_map (fun e => expand u (fst e) a b (snd e)) l)
  = map (fun e => mkMicro u (fst e) (Some a) (Some b) (snd e)) (filter (fun e => hash (fst e)) l).
Proof.
  induction l as [|[v y] l IH]; cbn [flat_map filter fst snd]; [reflexivity|].
  rewrite filter_app, IH. unfold sg_expand. destruct (sg_in_sparse L v) eqn:E; cbn [filter m_dst]; rewrite E; reflexivity.
Qed.

Lemma move_inv s u b t : sys_ok g k smem s -> inv s -> u < gn g -> b < k -> t < length (s_pend s) ->
  nth t (s_pend s) [] = [] -> (forall m, In m (bag s) -> m_src m <> u) ->
  inv {| s_lab := upd u b (s_lab s); s_mem := s_mem s;
         s_pend := upd t (flat_map (fun e => expand u (fst e) (nth u (s_lab s) 0) b (snd e)) (gadj g u)) (s_pend s) |}.
Proof.
  intros Hok [[HP HN] HM] Hu Hb Ht He Hi. assert (Hok' := Hok). destruct Hok' as [[HL1 HL2] _].
  pose proof (concat_upd_nil t (flat_map (fun e => expand u (fst e) (nth u (s_lab s) 0) b (snd e)) (gadj g u)) _ Ht He) as HPerm.
  split; [split|].
  - cbn [s_lab s_pend]. intros m Hm Hh. apply (Permutation_in m HPerm) in Hm. apply in_app_iff in Hm. destruct Hm as [Hm|Hm].
    + assert (Hm' : In m (filter (fun m => hash (m_dst m)) (flat_map (fun e => expand u (fst e) (nth u (s_lab s) 0) b (snd e)) (gadj g u))))
        by (apply filter_In; auto).
      rewrite expand_pairs in Hm'. apply in_map_iff in Hm'. destruct Hm' as (e & <- & _). cbn [m_dec m_inc m_src].
      eexists. split; [reflexivity|]. f_equal. rewrite lab_upd by lia. unfold relabel. rewrite Nat.eqb_refl. reflexivity.
    + destruct (HP m Hm Hh) as (a & E1 & E2). exists a. split; auto. rewrite E2. f_equal. rewrite lab_upd by lia. unfold relabel.
      specialize (Hi m Hm). destruct (Nat.eqb_spec (m_src m) u); [contradiction|reflexivity].
  - cbn [s_pend]. eapply Permutation_NoDup; [apply Permutation_map, perm_filter, Permutation_sym, HPerm|].
    rewrite filter_app, map_app, expand_pairs, map_map. cbn [m_src m_dst]. apply NoDup_app_intro.
    + assert (Hn := proj1 (Hsim u Hu)).
      assert (G : forall l, NoDup (map fst l) -> NoDup (map (fun e : nat * Z => (u, fst e)) (filter (fun e => hash (fst e)) l))).
      { induction l as [|[v y] l IH]; cbn [map filter fst]; intros H; [constructor|]. inversion H as [|? ? Hni HN']; subst.
        destruct (hash v); cbn [map fst]; auto. constructor; auto. intros C. apply Hni. apply in_map_iff in C.
        destruct C as ([v' w'] & E & Hin). cbn [fst] in E. injection E as ->. apply filter_In in Hin. apply in_map_iff. exists (v, w'). tauto. }
      apply G; auto.
    + auto.
    + intros [x y] H1 H2. apply in_map_iff in H1. destruct H1 as (e & E & _). injection E as <- _.
      apply in_map_iff in H2. destruct H2 as (m & E & Hm). injection E as E _. apply filter_In in Hm. apply (Hi m); tauto.
  - cbn [s_mem]. destruct HM as [HML HM]. split; auto. intros v Hv. eapply table_ext; [|apply HM; auto]. intros x. symmetry.
    exact (expected_move g k Hc Hs smem expand sg_expand_eff sg_expand_wf s u b t Hu Hb Ht He Hok v x Hv).
Qed.


Lemma conn_size v p : v < gn g -> hash v = true -> cm_size KN (fun i => block_conn g p v (Z.to_nat i)) < 2 ^ bucket v.
Proof.
  intros Hv Hh. destruct (hash_facts v Hv Hh) as (_ & _ & E2 & _). rewrite (cm_size_ext _ _ (fun i => lconn p (gadj g v) (Z.to_nat i))) by (intros; apply bc_lconn).
  eapply Nat.le_lt_trans; [apply lconn_size, bc_pos; exact Hv|exact E2].
Qed.

Lemma tick_inv s m rest t : sys_ok g k smem s -> inv s -> nth t (s_pend s) [] = m :: rest ->
  exists mem, sg_apply g k w bk nb L m (s_mem s) = Some mem /\
    inv {| s_lab := s_lab s; s_mem := mem; s_pend := upd t rest (s_pend s) |}.
Proof.
  intros Hok [[HP HN] HM] He. pose proof (concat_upd_cons t m rest _ He) as HPerm.
  assert (Hin : In m (bag s)) by (apply (Permutation_in m (Permutation_sym HPerm)); left; auto).
  assert (Hok1 := Hok). destruct Hok1 as [HLab HMic]. destruct (HMic m Hin) as (Hm1 & Hm2 & Hm3 & Hm4 & Hm5).
  set (v := m_dst m) in *. set (c0 := m_w m) in *.
  assert (HP' : forall mem, pending_ok {| s_lab := s_lab s; s_mem := mem; s_pend := upd t rest (s_pend s) |}).
  { intros mem. split; cbn [s_lab s_pend].
    - intros m' Hm' Hh. apply HP; auto. apply (Permutation_in m' (Permutation_sym HPerm)). right; auto.
    - pose proof (Permutation_map (fun m => (m_src m, m_dst m)) (perm_filter (fun m => hash (m_dst m)) _ _ HPerm)) as HPm.
      eapply Permutation_NoDup in HN; [|exact HPm]. cbn [filter] in HN. destruct (hash (m_dst m)); auto. cbn [map] in HN. inversion HN; auto. }
  assert (Hok2 : forall mem, sys_ok g k smem {| s_lab := s_lab s; s_mem := mem; s_pend := upd t rest (s_pend s) |}).
  { intros mem. split; auto. cbn [s_lab s_pend]. intros m' Hm'. apply HMic. apply (Permutation_in m' (Permutation_sym HPerm)). right; auto. }
  assert (exists t', part_update v (m_dec m) (m_inc m) c0 (tab (s_mem s) v) = Some t' /\
           table_ok v t' (fun b => expected g smem s v b + effect m v b)%Z) as (t' & Et & Ht).
  { pose proof (proj2 HM v Hm2) as HT. unfold table_ok, part_update in *. destruct (hash v) eqn:Eh.
    - destruct (HP m Hin Eh) as (a & Ea & Ei).
      destruct (hash_facts v Hm2 Eh) as (Hkb & E1 & E2 & E3 & Hkk).
      destruct (override_bag s v _ Hok (conj HP HN) Hm2 Eh HPerm) as (p & HR1 & HR2 & HR3).
      destruct (override_bag _ v _ (Hok2 (s_mem s)) (HP' (s_mem s)) Hm2 Eh (Permutation_refl _)) as (p' & HR1' & _ & HR3').
      assert (HE : forall x, block_conn g p' v x = (block_conn g p v x + effect m v x)%Z).
      { intros x. rewrite <- HR3', <- HR3. apply expected_tick; auto. }
      assert (Ha : a < k) by (apply Hm4; auto).
      assert (Hb : label_of (s_lab s) (m_src m) < k) by (apply HLab; auto).
      set (c := label_of (s_lab s) (m_src m)) in *.
      assert (Hwa : (0 < c0 <= block_conn g p v a)%Z).
      { split; [apply (Hpos _ _ _ Hm1 Hm3)|]. rewrite bc_lconn.
        assert (Hvs : In (m_src m, c0) (gadj g v)).
        { assert (Ec : conn g v (m_src m) = c0) by (rewrite (Hs v (m_src m)) by auto; apply simple_conn; auto).
          destruct (in_dec Nat.eq_dec (m_src m) (map fst (gadj g v))) as [Hi|Hi].
          - apply in_map_iff in Hi. destruct Hi as ([x y] & Ex & Hi). cbn [fst] in Ex. subst x.
            rewrite (simple_conn g v _ _ Hsim Hm2 Hi) in Ec. subst y. exact Hi.
          - pose proof (Hpos _ _ _ Hm1 Hm3). exfalso. unfold conn in Ec. 
            rewrite (filter_ext_in _ (fun _ => false)) in Ec.
            + assert (F : forall l' : list (nat * Z), filter (fun _ => false) l' = []) by (induction l'; auto). rewrite F in Ec. cbn in Ec. lia.
            + intros [x y] Hxy. cbn [fst]. apply Nat.eqb_neq. intros ->. apply Hi. apply in_map_iff. exists (m_src m, y). auto. }
        destruct (lconn_bounds p (gadj g v) a (bc_pos v Hm2)) as (_ & _ & H3). apply (H3 (m_src m)); auto.
        apply HR2; auto. left; auto. }
      assert (HRp : rep w zkb (bucket v) (tab (s_mem s) v) (fun x => block_conn g p v (Z.to_nat x)))
        by (eapply rep_ext; [exact HT|]; intros; apply HR3).
      destruct (decrease_spec w zkb (bucket v) false Hkb _ _ (Z.of_nat a) c0 HRp ltac:(intros _; apply conn_size; assumption)) as (t1 & Ed & HR4).
      { cbn [cm_valid_op]. rewrite Nat2Z.id. lia. }
      set (M1 := cm_step (fun x => block_conn g p v (Z.to_nat x)) (CDec (Z.of_nat a) c0)) in *.
      assert (Emid : forall i, (0 <= i)%Z -> cm_step M1 (CInc (Z.of_nat c) c0) i = block_conn g p' v (Z.to_nat i)).
      { intros i Hi. rewrite HE. unfold effect. fold v. rewrite Nat.eqb_refl, Ea, Ei. fold c0. unfold M1. cbn [cm_step].
        destruct (Z.eqb_spec i (Z.of_nat c)), (Z.eqb_spec i (Z.of_nat a)), (Nat.eqb_spec c (Z.to_nat i)), (Nat.eqb_spec a (Z.to_nat i)); lia. }
      destruct (increase_spec w zkb (bucket v) false Hkb t1 M1 (Z.of_nat c) c0 HR4) as (t2 & Ein & HR5).
      { cbn [cm_valid_op]. split; [lia|]. split; [lia|]. split.
        - specialize (Emid (Z.of_nat c) ltac:(lia)). cbn [cm_step] in Emid. rewrite Z.eqb_refl in Emid. rewrite Emid.
          eapply Z.le_lt_trans; [|exact E3]. apply (block_conn_bounds g p' v); auto.
        - rewrite (cm_size_ext _ _ (fun i => block_conn g p' v (Z.to_nat i))) by (intros; apply Emid; lia). apply Nat.lt_le_incl, conn_size; assumption. }
      unfold sg_table_update. rewrite Ea, Ei, E1. rewrite Ed. cbn [option_map fst]. rewrite Ein. cbn [option_map fst].
      exists t2. split; auto. eapply rep_ext; [exact HR5|]. intros i Hi. rewrite Emid by lia.
      rewrite HE, HR3. reflexivity.
    - destruct HT as [HTL HT]. unfold full_update.
      assert (exists t1, (match m_dec m with None => Some (tab (s_mem s) v) | Some b => full_add b (- c0) (tab (s_mem s) v) end) = Some t1 /\
        length t1 = k /\ forall c, c < k -> nth_error t1 c =
          Some ((expected g smem s v c - (match m_dec m with Some x => if Nat.eqb x c then m_w m else 0 | None => 0 end)) mod 2 ^ w)%Z) as (t1 & Et1 & HL1 & HT1).
      { destruct (m_dec m) as [a|].
        - destruct (cell_add_ok _ _ a (- c0) HTL HT (Hm4 _ eq_refl)) as (t1 & E & HL & H). exists t1. split; auto. split; auto.
          intros c Hc1. rewrite H by auto. do 2 f_equal. unfold c0. destruct (a =? c); lia.
        - eexists. split; [reflexivity|]. split; auto. intros c Hc1. rewrite HT by auto. do 2 f_equal. lia. }
      rewrite Et1. destruct (m_inc m) as [b|] eqn:Ei.
      + assert (Hb : b < k) by (rewrite (Hm5 b eq_refl); apply HLab; auto).
        destruct (cell_add_ok t1 _ b c0 HL1 HT1 Hb) as (t2 & E & HL & H). exists t2. split; auto. split; auto.
        intros c Hc1. rewrite H by auto. do 2 f_equal. unfold effect. fold v. rewrite Nat.eqb_refl, Ei. fold c0. lia.
      + exists t1. split; auto. split; auto.
        intros c Hc1. rewrite HT1 by auto. do 2 f_equal. unfold effect. fold v. rewrite Nat.eqb_refl, Ei. fold c0. lia. }
  destruct (update_mem (s_mem s) _ v (m_dec m) (m_inc m) c0 t' _ HM Hm2 ltac:(intros b Eb; apply Hm4; exact Eb) ltac:(intros b Eb; rewrite (Hm5 b Eb); apply HLab; exact Hm1) Et Ht) as (mem & Eu & HMu).
  exists mem. split; [exact Eu|]. split; [apply HP'|]. cbn [s_mem]. destruct HMu as [HLm HMu]. split; [exact HLm|].
  intros x Hx. eapply table_ext; [|apply HMu; exact Hx]. intros b. cbn beta.
  rewrite (expected_tick g smem s m rest t _ He). unfold effect. fold v. destruct (Nat.eqb_spec x v) as [->|Hne].
  - reflexivity.
  - destruct (Nat.eqb_spec v x); [congruence|]. lia.
Qed.

Theorem sparse_run_ok lab T es : labels_ok g k lab ->
  exists m0 s, sg_init g k w bk nb L lab = Some m0 /\ sg_run g k w bk nb L es (g_start _ lab m0 T) = Some s /\
    labels_ok g k (s_lab s) /\ length (s_mem s) = size /\
    forall u, u < gn g -> dst_idle u s = true ->
      table_ok u (tab (s_mem s) u) (block_conn g (label_of (s_lab s)) u).
Proof.
  intros HL. destruct (sg_init_ok lab HL) as (m0 & E0 & C0). exists m0.
  destruct (run_ok g k Hc smem expand (sg_apply g k w bk nb L) sg_expand_eff sg_expand_wf inv move_inv tick_inv es
              (g_start smem lab m0 T)) as (s & Er & [Hl _] & [_ Hm]).
  - apply start_ok; auto.
  - split.
    + split; rewrite (start_bag smem); [intros m []|constructor].
    + destruct C0 as [CL C0]. split; auto. intros v Hv. eapply table_ext; [|apply C0; auto]. intros b. unfold expected.
      rewrite (start_bag smem). cbn. lia.
  - exists s. split; auto. split; auto. split; auto. destruct Hm as [HL2 Hm]. split; auto. intros u Hu Hi.
    eapply table_ext; [|apply Hm; auto]. intros b. apply expected_idle; auto.
Qed.

(** Reading. *)
Lemma conn_range u p b : u < gn g -> (0 <= block_conn g p u b < 2 ^ (w - 1))%Z.
Proof. intros Hu. pose proof (block_conn_bounds g p u b Hpos Hu). destruct Hfit as (_ & _ & Hw & _). specialize (Hw u Hu). lia. Qed.
Lemma signed_small x : (0 <= x < 2 ^ (w - 1))%Z -> sg_signed w x = x.
Proof. intros H. unfold sg_signed. destruct (Z.ltb_spec x (2 ^ (w - 1))); lia. Qed.
Lemma half : (2 ^ w = 2 * 2 ^ (w - 1))%Z.
Proof. destruct Hfit as (H & _). rewrite <- Z.pow_succ_r by lia. f_equal. lia. Qed.
Lemma sg_conn_ok mem u p b : length mem = size -> u < gn g -> b < k ->
  table_ok u (tab mem u) (block_conn g p u) -> sg_conn g k w bk nb L mem u b = Some (block_conn g p u b).
Proof.
  intros HL Hu Hb HT. unfold sg_conn. pose proof (conn_range u p b Hu) as Hr. pose proof (part_in u Hu) as Hin. unfold table_ok in HT. destruct (sg_in_sparse L u) eqn:Eh; cbn [negb] in HT.
  - destruct HT as [_ HT]. assert (Hge : sl_nt L <= u) by (unfold sg_in_sparse in Eh; apply Nat.leb_le; exact Eh). rewrite (proj1 HLay u Hu Hge).
    assert (El : len u = k) by (apply sparse_len; rewrite Eh; reflexivity). rewrite (nth_error_in mem _ 0%Z) by lia. cbn [option_map]. rewrite <- (win_nth mem (pos u) (len u) b) by lia. fold (tab mem u).
    specialize (HT b Hb). apply (nth_error_nth _ _ 0%Z) in HT. rewrite HT. rewrite Z.mod_small by (pose proof half; lia). rewrite signed_small by exact Hr. reflexivity.
  - assert (Hh : hash u = true) by (rewrite Eh; reflexivity). destruct (hash_facts u Hu Hh) as (Hkb & E1 & _ & _ & Hkk).
    assert (Hlt : u < sl_nt L) by (unfold sg_in_sparse in Eh; apply Nat.leb_gt; exact Eh). destruct HLay as (_ & HD & _). destruct (HD u Hu Hlt) as (Ed & _). rewrite Ed.
    unfold sg_win. rewrite HL. destruct (Nat.leb_spec (pos u + len u) size); [|lia]. fold (tab mem u). rewrite E1.
    rewrite (get_spec w zkb (bucket u) false Hkb _ _ (Z.of_nat b) HT) by ((intros _; apply conn_size; assumption) || lia). cbn [option_map]. rewrite Nat2Z.id, signed_small by exact Hr. reflexivity.
Qed.
Lemma entries_ok mem u p : length mem = size -> u < gn g -> in_range p -> hash u = true -> table_ok u (tab mem u) (block_conn g p u) ->
  exists es, sg_entries g k w bk nb L mem u = Some es /\ Permutation es
    (map (fun b => (Z.of_nat b, block_conn g p u b)) (filter (fun b => (0 <? block_conn g p u b)%Z) (seq 0 k))).
Proof.
  intros HL Hu HP Eh HT. unfold sg_entries. pose proof (part_in u Hu) as Hin. unfold table_ok in HT. rewrite Eh in HT. destruct (hash_facts u Hu Eh) as (Hkb & E1 & _ & _ & Hkk).
  assert (Hlt : u < sl_nt L) by (unfold sg_in_sparse in Eh; destruct (Nat.leb_spec (sl_nt L) u); [discriminate|assumption]). destruct HLay as (_ & HD & _). destruct (HD u Hu Hlt) as (Ed & _). rewrite Ed.
  unfold sg_win. rewrite HL. destruct (Nat.leb_spec (pos u + len u) size); [|lia]. fold (tab mem u). rewrite E1. eexists. split; [reflexivity|].
  etransitivity; [apply Permutation_map; exact (for_each_spec w zkb (bucket u) Hkb _ _ HT)|]. rewrite map_map. cbn [fst snd].
  unfold cm_keys. 
  replace (seq 0 KN) with (seq 0 k ++ seq k (KN - k)) by (rewrite <- seq_app; f_equal; lia).
  rewrite map_app, filter_app.
  rewrite (filter_ext_in _ (fun _ => false) (map Z.of_nat (seq k (KN - k)))).
  - assert (F : forall l' : list Z, filter (fun _ => false) l' = []) by (induction l'; auto). rewrite F, app_nil_r.
    assert (G : forall l, map (fun x => (x, sg_signed w (block_conn g p u (Z.to_nat x)))) (filter (fun x => negb (block_conn g p u (Z.to_nat x) =? 0)%Z) (map Z.of_nat l))
      = map (fun b => (Z.of_nat b, block_conn g p u b)) (filter (fun b => (0 <? block_conn g p u b)%Z) l)).
    { induction l as [|b l IH]; cbn [map filter]; [reflexivity|]. rewrite Nat2Z.id.
      pose proof (conn_range u p b Hu).
      destruct (Z.eqb_spec (block_conn g p u b) 0), (Z.ltb_spec 0 (block_conn g p u b)); try lia; cbn [negb map]; rewrite ?Nat2Z.id, ?signed_small, IH by assumption; reflexivity. }
    rewrite G. apply Permutation_refl.
  - intros x Hx. apply in_map_iff in Hx. destruct Hx as (i & <- & Hi). apply in_seq in Hi.
    apply Bool.negb_false_iff, Z.eqb_eq. rewrite Nat2Z.id, bc_lconn.
    destruct (lconn_bounds p (gadj g u) i (bc_pos u Hu)) as (_ & H2 & _).
    destruct (Z.eq_dec (lconn p (gadj g u) i) 0) as [|Hn]; auto. destruct (H2 Hn) as (v & x & Hi2 & Ei).
    assert (p v < k) by (apply HP; eapply Hc; eauto). lia.
Qed.
Lemma degrees_ok u : u < gn g -> nth_error (sg_degrees g w) u = Some (weighted_degree g u).
Proof.
  intros Hu. unfold sg_degrees. rewrite (nth_error_in _ _ 0%Z) by (rewrite map_length, seq_length; exact Hu). rewrite nth_map_seq by exact Hu. cbn [Nat.add]. f_equal.
  destruct Hfit as (_ & _ & H & _). specialize (H u Hu). unfold weighted_degree in *. pose proof half as Hhf.
  assert (G : forall (l : list (nat * Z)) s, (forall v c, In (v, c) l -> 0 < c)%Z -> (0 <= s)%Z -> (s + zsum (map snd l) < 2 ^ (w - 1))%Z ->
    fold_left (fun s e => (s + snd e) mod 2 ^ w)%Z l s = (s + zsum (map snd l))%Z).
  { induction l as [|[v c] l IH]; intros s Hl Hs0 Hb; cbn [fold_left map zsum snd] in *; [lia|].
    assert (0 < c)%Z by (apply (Hl v); left; reflexivity). assert (0 <= zsum (map snd l))%Z by (apply zsum_nonneg; intros y Hy; apply in_map_iff in Hy; destruct Hy as ([a d] & <- & Hi); apply Z.lt_le_incl, (Hl a); right; exact Hi).
    rewrite Z.mod_small by lia. rewrite IH; [lia| |lia|lia]. intros; eapply Hl; right; eassumption. }
  rewrite G; [lia| |lia|lia]. intros v c Hin. eapply Hpos; eassumption.
Qed.
End C.
