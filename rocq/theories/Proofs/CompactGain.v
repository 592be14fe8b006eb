(* The compact hashing gain cache is exact after every concurrent history. *)
From Verif Require Import Lib.Prelude Spec.Graph Spec.Gain Spec.CountMap Model.MathModel Model.CompactHashModel Model.GainModel
  Proofs.MathProofs Proofs.AlignedProofs Proofs.GraphFacts Proofs.GainBase Proofs.GainSys Proofs.DenseGain
  Proofs.CompactHashProofs Proofs.CompactHashOps Proofs.CompactGainBase.

Lemma perm_filter {A} (f : A -> bool) l l' : Permutation l l' -> Permutation (filter f l) (filter f l').
Proof.
  induction 1; cbn [filter]; auto.
  - destruct (f x); auto.
  - destruct (f x), (f y); auto. apply perm_swap.
  - etransitivity; eauto.
Qed.

(** Sums over a list of edges. *)
Definition lconn (p : nat -> nat) (l : list (nat * Z)) (b : nat) : Z :=
  zsum (map (fun e => if Nat.eqb (p (fst e)) b then snd e else 0%Z) l).
Lemma lconn_app p l1 l2 b : lconn p (l1 ++ l2) b = (lconn p l1 b + lconn p l2 b)%Z.
Proof. unfold lconn. rewrite map_app, zsum_app. reflexivity. Qed.
Lemma lconn_bounds p l b : (forall v w, In (v, w) l -> 0 < w)%Z ->
  (0 <= lconn p l b <= zsum (map snd l))%Z /\
  (lconn p l b <> 0%Z -> exists v w, In (v, w) l /\ p v = b) /\
  (forall v w, In (v, w) l -> p v = b -> (w <= lconn p l b)%Z).
Proof.
  unfold lconn. induction l as [|[v w] l IH]; intros H; cbn [map zsum fst snd].
  - split; [lia|]. split; [lia|]. intros v w [].
  - pose proof (H v w (or_introl eq_refl)). destruct IH as (H1 & H2 & H3); [intros; eapply H; right; eauto|].
    split; [destruct (p v =? b); lia|]. split.
    + intros Hn. destruct (Nat.eqb_spec (p v) b) as [E|E].
      * exists v, w. split; [left|]; auto.
      * destruct H2 as (x & y & Hx & Hy); [lia|]. exists x, y. split; [right|]; auto.
    + intros x y [Hin|Hin] Hx.
      * injection Hin as -> ->. destruct (Nat.eqb_spec (p x) b); [lia|contradiction].
      * specialize (H3 x y Hin Hx). destruct (p v =? b); lia.
Qed.
Lemma lconn_size p l K : (forall v w, In (v, w) l -> 0 < w)%Z ->
  cm_size K (fun x => lconn p l (Z.to_nat x)) <= length l.
Proof.
  intros H. unfold cm_size. rewrite <- (map_length (fun e => Z.of_nat (p (fst e))) l). apply NoDup_incl_length.
  - unfold cm_keys. apply NoDup_filter. apply FinFun.Injective_map_NoDup; [|apply seq_NoDup]. intros x y E. lia.
  - intros x Hx. unfold cm_keys in Hx. apply filter_In in Hx. destruct Hx as [Hx Hn].
    apply in_map_iff in Hx. destruct Hx as (i & <- & _). apply Bool.negb_true_iff, Z.eqb_neq in Hn.
    rewrite Nat2Z.id in Hn. destruct (lconn_bounds p l i H) as (_ & Hin & _). destruct (Hin Hn) as (v & w & Hv & E).
    apply in_map_iff. exists (v, w). cbn [fst]. rewrite E. auto.
Qed.
Lemma cm_size_ext K M M' : (forall i, (0 <= i < Z.of_nat K)%Z -> M i = M' i) -> cm_size K M = cm_size K M'.
Proof.
  intros H. unfold cm_size, cm_keys. f_equal. apply filter_ext_in. intros x Hx. apply in_map_iff in Hx.
  destruct Hx as (i & <- & Hi). apply in_seq in Hi. rewrite H by lia. reflexivity.
Qed.

Lemma lab_upd lab u b x : u < length lab -> label_of (upd u b lab) x = relabel (label_of lab) u b x.
Proof.
  intros H. unfold label_of, relabel. destruct (Nat.eqb_spec x u) as [->|Hn]; [apply upd_nth_same; auto|apply upd_nth_other; auto].
Qed.
Lemma NoDup_app_intro {A} (l1 l2 : list A) : NoDup l1 -> NoDup l2 -> (forall x, In x l1 -> ~ In x l2) -> NoDup (l1 ++ l2).
Proof.
  induction l1 as [|a l IH]; intros H1 H2 H; auto. inversion H1; subst. cbn. constructor.
  - rewrite in_app_iff. intros [C|C]; [auto|]. eapply H; [left; eauto|auto].
  - apply IH; auto. intros x Hx. apply H. right; auto.
Qed.
Lemma simple_conn g u v w : simple_graph g -> u < gn g -> In (v, w) (gadj g u) -> conn g u v = w.
Proof.
  intros Hs Hu. destruct (Hs u Hu) as [Hn _]. unfold conn. induction (gadj g u) as [|[x y] l IH]; intros Hin; [destruct Hin|].
  cbn [map fst] in Hn. inversion Hn as [|? ? Hni Hn']; subst. cbn [filter fst].
  destruct Hin as [Hin|Hin].
  - injection Hin as -> ->. rewrite Nat.eqb_refl. cbn [map zsum snd].
    rewrite (filter_ext_in _ (fun _ => false)).
    + assert (F : forall l' : list (nat * Z), filter (fun _ => false) l' = []) by (induction l'; auto). rewrite F. cbn. lia.
    + intros [a b] Ha. cbn [fst]. apply Nat.eqb_neq. intros ->. apply Hni. apply in_map_iff. exists (v, b). auto.
  - destruct (Nat.eqb_spec x v) as [->|Hne]; [|apply IH; auto].
    exfalso. apply Hni. apply in_map_iff. exists (v, w). auto.
Qed.

Section C.
Variables (g : graph) (k np : nat) (junk : N).
Hypothesis (Hc : closed_graph g) (Hs : undirected g) (Hsim : simple_graph g) (Hpos : positive_edges g)
  (Hfit : cg_fits g k) (Hnp : 0 < np).
Notation kb := (cg_kb k junk).
Notation hash := (cg_hash g k junk).
Notation width := (cg_width g k junk).
Notation deg u := (length (gadj g u)).
Notation size := (cg_size g k np junk).
Notation bits := (cg_bits g k junk).
Notation zkb := (Z.of_N kb).
Notation KN := (Z.to_nat (2 ^ zkb)).

Lemma deg_n u : u < gn g -> 0 < deg u -> 2 <= gn g.
Proof.
  intros Hu Hd. destruct (gadj g u) as [|[v w] l] eqn:E; [cbn in Hd; lia|].
  assert (v < gn g) by (apply (Hc u v w); auto; rewrite E; left; auto).
  assert (v <> u). { intros ->. apply (proj2 (Hsim u Hu)). rewrite E. left; auto. }
  lia.
Qed.
Lemma width_deg u : u < gn g -> width u = 0 -> deg u = 0.
Proof.
  intros Hu H. destruct (Nat.eq_dec (deg u) 0); auto.
  destruct (width_spec g k np junk Hpos Hfit Hnp u Hu ltac:(lia)) as (H1 & _). lia.
Qed.
Lemma hash_facts u : u < gn g -> width u <> 0 -> hash u = true ->
  (0 < zkb < bits u)%Z /\ exists b, size u = 2 ^ b /\ deg u <= 2 ^ b /\ (weighted_degree g u < 2 ^ (vb (bits u) zkb))%Z.
Proof.
  intros Hu Hw Hh. assert (Hd : 0 < deg u).
  { destruct (Nat.eq_dec (deg u) 0) as [E|E]; [|lia]. exfalso. apply Hw. apply (width_0 g k np junk Hnp); auto. }
  destruct (width_spec g k np junk Hpos Hfit Hnp u Hu Hd) as (_ & _ & Hb). rewrite Hh in Hb.
  destruct (size_spec g k np junk Hpos Hfit Hnp u (deg_n u Hu Hd) Hu Hd Hh) as (b & E1 & E2 & _).
  pose proof (wd_fits g k np junk Hpos Hfit Hnp u Hu Hd) as Hf. rewrite Hh in Hf.
  destruct (slots_spec g k np junk Hpos Hfit Hnp u Hu Hd) as (s & Es & Hs2).
  assert (2 <= k). { unfold cg_hash in Hh. apply N.ltb_lt in Hh. pose proof (Nat.pow_nonzero 2 s ltac:(lia)). lia. }
  pose proof (kb_pos g k np junk Hfit Hnp ltac:(auto)). split; [lia|]. exists b. split; auto.
Qed.
Lemma k_le_keys : (Z.of_nat k <= 2 ^ zkb)%Z.
Proof.
  destruct (kb_spec g k np junk Hfit Hnp) as (_ & H & _). change 2%Z with (Z.of_N 2). rewrite <- N2Z.inj_pow. lia.
Qed.

(** The contents of one table. *)
Definition table_ok (v : nat) (t : list Z) (f : nat -> Z) : Prop :=
  width v <> 0 ->
  if hash v then exists b, size v = 2 ^ b /\ rep (bits v) zkb b t (fun x => f (Z.to_nat x))
  else length t = k /\ forall b, b < k -> nth_error t b = Some (f b mod 2 ^ bits v)%Z.
Definition mem_are (mem : cmem) (f : nat -> nat -> Z) : Prop :=
  length mem = gn g /\ forall v, v < gn g -> table_ok v (nth v mem []) (f v).

Lemma table_ext v t f f' : (forall b, f b = f' b) -> table_ok v t f -> table_ok v t f'.
Proof.
  intros E H Hw. specialize (H Hw). destruct (hash v).
  - destruct H as (b & Hb & HR). exists b. split; auto. eapply rep_ext; [exact HR|]. intros; apply E.
  - destruct H as [HL H]. split; auto. intros. rewrite <- E. auto.
Qed.
(** Labels in range: blocks outside are not connected. *)
Definition in_range (p : nat -> nat) : Prop := forall x, x < gn g -> p x < k.

Lemma bc_lconn p v b : block_conn g p v b = lconn p (gadj g v) b.
Proof. apply block_conn_if. Qed.

(** Increasing one key of a hash table: the connection to a prefix of the edge list grows by one edge. *)
Lemma hash_inc v t p l x w b : v < gn g -> width v <> 0 -> hash v = true -> size v = 2 ^ b ->
  (exists r, gadj g v = l ++ (x, w) :: r) -> p x < k ->
  rep (bits v) zkb b t (fun i => lconn p l (Z.to_nat i)) ->
  exists t' r, ch_increase (bits v) zkb (size v) true t (Z.of_nat (p x)) w = Some (t', r) /\
    rep (bits v) zkb b t' (fun i => lconn p (l ++ [(x, w)]) (Z.to_nat i)).
Proof.
  intros Hv Hw Hh Hsz (r & El) Hx HR. destruct (hash_facts v Hv Hw Hh) as (Hkb & b' & E1 & E2 & E3).
  assert (b' = b) by (apply (Nat.pow_inj_r 2); lia). subst b'.
  assert (Hp1 : forall a c, In (a, c) (l ++ [(x, w)]) -> (0 < c)%Z).
  { intros a c Hin. apply (Hpos v a c Hv). rewrite El. apply in_app_iff in Hin. apply in_app_iff.
    destruct Hin as [Hin|[Hin|[]]]; [left|right; left]; auto. }
  assert (Ew : forall i, lconn p (l ++ [(x, w)]) i = (lconn p l i + (if Nat.eqb (p x) i then w else 0))%Z).
  { intros i. rewrite lconn_app. unfold lconn at 2. cbn [map zsum fst snd]. lia. }
  assert (Eq : forall i, (0 <= i)%Z -> cm_step (fun i => lconn p l (Z.to_nat i)) (CInc (Z.of_nat (p x)) w) i
             = lconn p (l ++ [(x, w)]) (Z.to_nat i)).
  { intros i Hi. cbn [cm_step]. rewrite Ew. destruct (Z.eqb_spec i (Z.of_nat (p x))) as [->|Hne].
    - rewrite Nat2Z.id, Nat.eqb_refl. lia.
    - destruct (Nat.eqb_spec (p x) (Z.to_nat i)); lia. }
  destruct (increase_spec (bits v) zkb b true Hkb t _ (Z.of_nat (p x)) w HR) as (t' & Ei & HR').
  - cbn [cm_valid_op]. pose proof k_le_keys. split; [lia|]. split; [apply (Hp1 x); apply in_app_iff; right; left; auto|]. split.
    + rewrite Nat2Z.id. pose proof (Ew (p x)) as Ex. rewrite Nat.eqb_refl in Ex. rewrite <- Ex.
      eapply Z.le_lt_trans; [apply lconn_bounds; exact Hp1|]. eapply Z.le_lt_trans; [|exact E3].
      unfold weighted_degree. rewrite El. replace (l ++ (x, w) :: r) with ((l ++ [(x, w)]) ++ r) by (rewrite <- app_assoc; reflexivity).
      rewrite (map_app snd (l ++ [(x, w)]) r), zsum_app.
      assert (0 <= zsum (map snd r))%Z; [|lia]. apply zsum_nonneg. intros y Hy. apply in_map_iff in Hy. destruct Hy as ([a c] & <- & Hin).
      apply Z.lt_le_incl. apply (Hpos v a c Hv). rewrite El. apply in_app_iff. right. right. auto.
    + rewrite (cm_size_ext _ _ (fun i => lconn p (l ++ [(x, w)]) (Z.to_nat i))) by (intros; apply Eq; lia).
      etransitivity; [apply lconn_size; exact Hp1|]. rewrite <- E1 in *. rewrite El in E2. rewrite app_length in *. cbn [length] in *. lia.
  - rewrite Hsz. exists t'. eexists. split; [exact Ei|]. eapply rep_ext; [exact HR'|]. intros i Hi. apply Eq. lia.
Qed.

Lemma cell_add_ok v t f b w : length t = k -> (forall b, b < k -> nth_error t b = Some (f b mod 2 ^ bits v)%Z) -> b < k ->
  exists t', cg_cell_add g k junk v b w t = Some t' /\ length t' = k /\
    forall c, c < k -> nth_error t' c = Some ((f c + (if Nat.eqb b c then w else 0)) mod 2 ^ bits v)%Z.
Proof.
  intros HL H Hb. unfold cg_cell_add. rewrite (H b Hb). eexists. split; [reflexivity|]. split; [rewrite upd_length; auto|].
  intros c Hx. rewrite upd_nth_error, HL. destruct (Nat.ltb_spec b k); [|lia]. rewrite Bool.andb_true_r.
  destruct (Nat.eqb_spec b c) as [->|Hne].
  - f_equal. rewrite Zplus_mod_idemp_l. reflexivity.
  - rewrite H, Z.add_0_r by auto. reflexivity.
Qed.

(** * Initialization *)
Lemma init_node_ok lab u : labels_ok g k lab -> u < gn g -> forall r l mem f, gadj g u = l ++ r ->
  mem_are mem f -> (forall b, f u b = lconn (label_of lab) l b) ->
  exists mem', fold_left (fun c e => match c with
                        | None => None
                        | Some c => match nth_error lab (fst e) with
                                    | None => None
                                    | Some b => cg_update g k np junk u None (Some b) (snd e) c
                                    end
                        end) r (Some mem) = Some mem' /\
    mem_are mem' (fun v b => if Nat.eqb v u then lconn (label_of lab) (l ++ r) b else f v b).
Proof.
  intros [HL1 HL2] Hu. induction r as [|[x w] r IH]; intros l mem f El HM Hf; cbn [fold_left].
  - exists mem. split; auto. rewrite app_nil_r. split; [apply HM|]. intros v Hv. eapply table_ext; [|apply HM; auto].
    intros b. cbn beta. destruct (Nat.eqb_spec v u) as [->|]; auto.
  - assert (Hx : x < gn g). { apply (Hc u x w Hu). rewrite El. apply in_app_iff. right; left; auto. }
    cbn [fst snd]. rewrite (nth_error_in lab x 0) by lia. fold (label_of lab x). destruct HM as [HML HMT].
    assert (exists mem1, cg_update g k np junk u None (Some (label_of lab x)) w mem = Some mem1 /\
      mem_are mem1 (fun v b => if Nat.eqb v u then lconn (label_of lab) (l ++ [(x, w)]) b else f v b)) as (m1 & E1 & HM1).
    { unfold cg_update. rewrite (nth_error_in mem u []) by lia.
      assert (Hw : width u <> 0). { intros C. apply width_deg in C; auto. rewrite El, app_length in C. cbn in C. lia. }
      destruct (Nat.eqb_spec (width u) 0) as [|_]; [contradiction|].
      assert (exists t', (if hash u then cg_hash_update g k np junk u None (Some (label_of lab x)) w (nth u mem [])
                          else cg_full_update g k junk u None (Some (label_of lab x)) w (nth u mem [])) = Some t' /\
               table_ok u t' (lconn (label_of lab) (l ++ [(x, w)]))) as (t' & Et & Ht).
      { pose proof (HMT u Hu Hw) as HT. unfold table_ok. destruct (hash u) eqn:Eh.
        - destruct HT as (b & Hsz & HR).
          assert (HR1 : rep (bits u) zkb b (nth u mem []) (fun i => lconn (label_of lab) l (Z.to_nat i)))
            by (eapply rep_ext; [exact HR|]; intros; apply Hf).
          destruct (hash_inc u (nth u mem []) (label_of lab) l x w b Hu Hw Eh Hsz) as (t' & rr & Ei & HR'); auto; [exists r; auto|].
          unfold cg_hash_update. rewrite Ei. cbn [option_map fst]. exists t'. split; auto. intros _. exists b. auto.
        - destruct HT as [HTL HT].
          destruct (cell_add_ok u (nth u mem []) (f u) (label_of lab x) w HTL HT (HL2 x Hx)) as (t' & Ei & HL' & HT').
          unfold cg_full_update. rewrite Ei. exists t'. split; auto. intros _. split; auto. intros c Hc1. rewrite HT' by auto.
          rewrite Hf, lconn_app. unfold lconn at 3. cbn [map zsum fst snd]. do 2 f_equal. lia. }
      rewrite Et. eexists. split; [reflexivity|]. split; [rewrite upd_length; auto|].
      intros v Hv. destruct (Nat.eqb_spec v u) as [->|Hne].
      - rewrite upd_nth_same by lia. exact Ht.
      - rewrite upd_nth_other by auto. apply HMT; auto. }
    rewrite E1. destruct (IH (l ++ [(x, w)]) m1 _ ltac:(rewrite <- app_assoc; exact El) HM1) as (m2 & E2 & HM2).
    + intros b. cbn beta. rewrite Nat.eqb_refl. reflexivity.
    + exists m2. split; auto. destruct HM2 as [HL HM2]. split; auto. intros v Hv. eapply table_ext; [|apply HM2; auto].
      intros b. cbn beta. rewrite <- app_assoc. cbn [app]. destruct (v =? u); reflexivity.
Qed.
Lemma blank_ok : mem_are (cg_blank g k np junk) (fun _ _ => 0%Z).
Proof.
  unfold cg_blank. split; [rewrite map_length, seq_length; auto|]. intros v Hv Hw.
  rewrite nth_map_seq by auto. cbn [plus]. destruct (hash v) eqn:Eh.
  - destruct (hash_facts v Hv Hw Eh) as (Hkb & b & E1 & _). exists b. split; auto. rewrite E1.
    apply (rep_init (bits v) zkb b Hkb).
  - split; [apply repeat_length|]. intros b Hb. rewrite (nth_error_in _ _ 0%Z) by (rewrite repeat_length; auto).
    rewrite nth_repeat, Z.mod_0_l; [reflexivity|]. unfold cg_bits. pose proof (Z.pow_pos_nonneg 2 (8 * Z.of_nat (width v))). lia.
Qed.
Lemma cg_init_ok lab : labels_ok g k lab ->
  exists mem, cg_init g k np junk lab = Some mem /\ mem_are mem (block_conn g (label_of lab)).
Proof.
  intros HL. unfold cg_init.
  assert (G : forall j mem, j <= gn g -> mem_are mem (fun _ _ => 0%Z) -> exists mem', 
    fold_left (fun c u => cg_init_node g k np junk lab u c) (seq 0 j) (Some mem) = Some mem' /\
    mem_are mem' (fun v b => if Nat.ltb v j then block_conn g (label_of lab) v b else 0)%Z).
  { induction j as [|j IH]; intros c Hj H.
    - exists c. split; auto.
    - rewrite seq_S, fold_left_app. cbn [fold_left plus].
      destruct (IH c ltac:(lia) H) as (c1 & E1 & C1). rewrite E1. unfold cg_init_node at 1.
      destruct (init_node_ok lab j HL ltac:(lia) (gadj g j) [] c1 _ eq_refl C1) as (c2 & E2 & C2).
      + intros b. cbn beta. destruct (Nat.ltb_spec j j); [lia|]. reflexivity.
      + exists c2. split; auto. destruct C2 as [HL2 C2]. split; auto. intros v Hv. eapply table_ext; [|apply C2; auto].
        intros b. cbn beta. cbn [app]. rewrite bc_lconn.
        destruct (Nat.ltb_spec v j), (Nat.ltb_spec v (S j)), (Nat.eqb_spec v j); subst; try lia; reflexivity. }
  destruct (G (gn g) _ (le_n _) blank_ok) as (c & E & C). exists c. split; auto. destruct C as [HL2 C]. split; auto.
  intros v Hv. eapply table_ext; [|apply C; auto]. intros b. cbn beta. destruct (Nat.ltb_spec v (gn g)); [reflexivity|lia].
Qed.

(** * Concurrent moves *)
Notation bag s := (concat (s_pend (Mem := cmem) s)).
Definition pending_ok (s : gsys cmem) : Prop :=
  (forall m, In m (bag s) -> hash (m_dst m) = true ->
     exists a, m_dec m = Some a /\ m_inc m = Some (label_of (s_lab s) (m_src m))) /\
  NoDup (map (fun m => (m_src m, m_dst m)) (filter (fun m => hash (m_dst m)) (bag s))).
Definition inv (s : gsys cmem) : Prop := pending_ok s /\ mem_are (s_mem s) (expected g cmem s).

(** The outstanding updates of a table are those of neighbours that have not yet moved, as far as the table is
    concerned. *)
Lemma override lab v L : labels_ok g k lab -> v < gn g ->
  (forall m, In m L -> micro_ok g k lab m /\ m_dst m = v /\
     exists a, m_dec m = Some a /\ m_inc m = Some (label_of lab (m_src m))) ->
  NoDup (map m_src L) ->
  exists p, in_range p /\ (forall x, ~ In x (map m_src L) -> p x = label_of lab x) /\
    (forall m a, In m L -> m_dec m = Some a -> p (m_src m) = a) /\
    forall b, (block_conn g (label_of lab) v b - peff L v b = block_conn g p v b)%Z.
Proof.
  intros [HL1 HL2] Hv. induction L as [|m L IH]; intros HA HN.
  - exists (label_of lab). split; [exact HL2|]. split; auto. split; [intros m a []|]. intros b. unfold peff. cbn. lia.
  - cbn [map] in HN. inversion HN as [|? ? Hni HN']; subst.
    destruct IH as (p & HP1 & HP2 & HP3 & HP4); [intros; apply HA; right; auto|auto|].
    destruct (HA m (or_introl eq_refl)) as ((Hm1 & Hm2 & Hm3 & Hm4 & Hm5) & Ed & a & Ea & Ei).
    exists (relabel p (m_src m) a). split; [|split; [|split]].
    + intros x Hx. unfold relabel. destruct (x =? m_src m); [apply Hm4; auto|apply HP1; auto].
    + intros x Hx. cbn [map] in Hx. unfold relabel. destruct (Nat.eqb_spec x (m_src m)) as [->|Hne].
      * exfalso. apply Hx. left; auto.
      * apply HP2. intros C. apply Hx. right; auto.
    + intros m' a' [<-|Hin] Ea'.
      * unfold relabel. rewrite Nat.eqb_refl. congruence.
      * unfold relabel. destruct (Nat.eqb_spec (m_src m') (m_src m)) as [E|E].
        -- exfalso. apply Hni. rewrite <- E. apply in_map; auto.
        -- apply HP3; auto.
    + intros b. rewrite block_conn_relabel by auto.
      change (peff (m :: L) v b) with (effect m v b + peff L v b)%Z. unfold effect. rewrite Ed, Nat.eqb_refl, Ea, Ei.
      rewrite (HP2 _ Hni). rewrite Ed in Hm3. rewrite (Hs v (m_src m) Hv Hm1), (simple_conn g _ _ _ Hsim Hm1 Hm3).
      specialize (HP4 b). lia.
Qed.
Lemma peff_filter L v b : peff L v b = peff (filter (fun m => m_dst m =? v) L) v b.
Proof.
  unfold peff. rewrite zsum_filter. apply zsum_map_ext. intros m _. unfold effect. destruct (m_dst m =? v); reflexivity.
Qed.
Lemma nodup_src L v : hash v = true ->
  NoDup (map (fun m => (m_src m, m_dst m)) (filter (fun m => hash (m_dst m)) L)) ->
  NoDup (map m_src (filter (fun m => m_dst m =? v) L)).
Proof.
  intros Hh. induction L as [|m L IH]; cbn [filter]; [constructor|].
  intros H. destruct (Nat.eqb_spec (m_dst m) v) as [E|E].
  - rewrite E, Hh in H. cbn [map] in *. inversion H as [|? ? Hni HN]; subst. constructor; [|apply IH; auto].
    intros C. apply Hni. apply in_map_iff in C. destruct C as (m' & E1 & E2). apply filter_In in E2. destruct E2 as [E2 E3].
    apply Nat.eqb_eq in E3. apply in_map_iff. exists m'. rewrite E1, E3. split; auto. apply filter_In. split; auto.
    rewrite E3. auto.
  - apply IH. destruct (hash (m_dst m)); auto. cbn [map] in H. inversion H; auto.
Qed.
Lemma override_bag (s : gsys cmem) v L : sys_ok g k cmem s -> pending_ok s -> v < gn g -> hash v = true ->
  Permutation (bag s) L ->
  exists p, in_range p /\ (forall m a, In m L -> m_dst m = v -> m_dec m = Some a -> p (m_src m) = a) /\
    (forall b, expected g cmem s v b = block_conn g p v b).
Proof.
  intros [HL HM] [HP HN] Hv Hh HPerm.
  destruct (override (s_lab s) v (filter (fun m => m_dst m =? v) (bag s)) HL Hv) as (p & H1 & _ & H3 & H4).
  - intros m Hm. apply filter_In in Hm. destruct Hm as [Hm Ed]. apply Nat.eqb_eq in Ed. split; [apply HM; auto|]. split; auto.
    apply HP; auto. rewrite Ed; auto.
  - apply nodup_src; auto.
  - exists p. split; auto. split.
    + intros m a Hm Ed Ea. apply H3; auto. apply filter_In. split; [|apply Nat.eqb_eq; auto].
      apply (Permutation_in m (Permutation_sym HPerm)). auto.
    + intros b. unfold expected. rewrite peff_filter. apply H4.
Qed.

Lemma bc_pos v : v < gn g -> forall a c, In (a, c) (gadj g v) -> (0 < c)%Z.
Proof. intros Hv a c Hin. eapply Hpos; eauto. Qed.

Lemma cg_expand_eff u v a b w x c :
  peff (cg_expand g k junk u v a b w) x c = if v =? x then ((if Nat.eqb b c then w else 0) - (if Nat.eqb a c then w else 0))%Z else 0%Z.
Proof. unfold peff, cg_expand, effect. destruct (hash v); cbn; destruct (v =? x); lia. Qed.
Lemma cg_expand_wf u v a b w m : In m (cg_expand g k junk u v a b w) ->
  m_src m = u /\ m_dst m = v /\ m_w m = w /\ (m_dec m = None \/ m_dec m = Some a) /\ (m_inc m = None \/ m_inc m = Some b).
Proof.
  unfold cg_expand. destruct (hash v); [intros [<-|[]]|intros [<-|[<-|[]]]]; cbn; repeat split; auto.
Qed.
Notation expand := (cg_expand g k junk).

Lemma expand_pairs u a b l : filter (fun m => hash (m_dst m)) (flat_map (fun e => expand u (fst e) a b (snd e)) l)
  = map (fun e => mkMicro u (fst e) (Some a) (Some b) (snd e)) (filter (fun e => hash (fst e)) l).
Proof.
  induction l as [|[v w] l IH]; cbn [flat_map filter fst snd]; [reflexivity|].
  rewrite filter_app, IH. unfold cg_expand. destruct (hash v) eqn:E; cbn [filter m_dst]; rewrite E; reflexivity.
Qed.

Lemma move_inv s u b t : sys_ok g k cmem s -> inv s -> u < gn g -> b < k -> t < length (s_pend s) ->
  nth t (s_pend s) [] = [] -> (forall m, In m (bag s) -> m_src m <> u) ->
  inv {| s_lab := upd u b (s_lab s); s_mem := s_mem s;
         s_pend := upd t (flat_map (fun e => expand u (fst e) (nth u (s_lab s) 0) b (snd e)) (gadj g u)) (s_pend s) |}.
Proof.
  intros Hok [[HP HN] HM] Hu Hb Ht He Hi. assert (Hok' := Hok). destruct Hok' as [[HL1 HL2] _].
  pose proof (concat_upd_nil t (flat_map (fun e => expand u (fst e) (nth u (s_lab s) 0) b (snd e)) (gadj g u)) _ Ht He) as HPerm.
  split; [split|].
  - cbn [s_lab s_pend]. intros m Hm Hh. apply (Permutation_in m HPerm) in Hm. apply in_app_iff in Hm. destruct Hm as [Hm|Hm].
    + assert (Hm' : In m (filter (fun m => hash (m_dst m)) (flat_map (fun e => expand u (fst e) (nth u (s_lab s) 0) b (snd e)) (gadj g u))))
        by (apply filter_In; auto).
      rewrite expand_pairs in Hm'. apply in_map_iff in Hm'. destruct Hm' as (e & <- & _). cbn [m_dec m_inc m_src].
      eexists. split; [reflexivity|]. f_equal. rewrite lab_upd by lia. unfold relabel. rewrite Nat.eqb_refl. reflexivity.
    + destruct (HP m Hm Hh) as (a & E1 & E2). exists a. split; auto. rewrite E2. f_equal. rewrite lab_upd by lia. unfold relabel.
      specialize (Hi m Hm). destruct (Nat.eqb_spec (m_src m) u); [contradiction|reflexivity].
  - cbn [s_pend]. eapply Permutation_NoDup; [apply Permutation_map, perm_filter, Permutation_sym, HPerm|].
    rewrite filter_app, map_app, expand_pairs, map_map. cbn [m_src m_dst]. apply NoDup_app_intro.
    + assert (Hn := proj1 (Hsim u Hu)).
      assert (G : forall l, NoDup (map fst l) -> NoDup (map (fun e : nat * Z => (u, fst e)) (filter (fun e => hash (fst e)) l))).
      { induction l as [|[v w] l IH]; cbn [map filter fst]; intros H; [constructor|]. inversion H as [|? ? Hni HN']; subst.
        destruct (hash v); cbn [map fst]; auto. constructor; auto. intros C. apply Hni. apply in_map_iff in C.
        destruct C as ([v' w'] & E & Hin). cbn [fst] in E. injection E as ->. apply filter_In in Hin. apply in_map_iff. exists (v, w'). tauto. }
      apply G; auto.
    + auto.
    + intros [x y] H1 H2. apply in_map_iff in H1. destruct H1 as (e & E & _). injection E as <- _.
      apply in_map_iff in H2. destruct H2 as (m & E & Hm). injection E as E _. apply filter_In in Hm. apply (Hi m); tauto.
  - cbn [s_mem]. destruct HM as [HML HM]. split; auto. intros v Hv. eapply table_ext; [|apply HM; auto]. intros x. symmetry.
    exact (expected_move g k Hc Hs cmem expand cg_expand_eff cg_expand_wf s u b t Hu Hb Ht He Hok v x Hv).
Qed.

Lemma tick_inv s m rest t : sys_ok g k cmem s -> inv s -> nth t (s_pend s) [] = m :: rest ->
  exists mem, cg_apply g k np junk m (s_mem s) = Some mem /\
    inv {| s_lab := s_lab s; s_mem := mem; s_pend := upd t rest (s_pend s) |}.
Proof.
  intros Hok [[HP HN] HM] He. pose proof (concat_upd_cons t m rest _ He) as HPerm.
  assert (Hin : In m (bag s)) by (apply (Permutation_in m (Permutation_sym HPerm)); left; auto).
  assert (Hok1 := Hok). destruct Hok1 as [HLab HMic]. destruct (HMic m Hin) as (Hm1 & Hm2 & Hm3 & Hm4 & Hm5).
  set (v := m_dst m) in *. set (w := m_w m) in *.
  assert (HP' : forall mem, pending_ok {| s_lab := s_lab s; s_mem := mem; s_pend := upd t rest (s_pend s) |}).
  { intros mem. split; cbn [s_lab s_pend].
    - intros m' Hm' Hh. apply HP; auto. apply (Permutation_in m' (Permutation_sym HPerm)). right; auto.
    - pose proof (Permutation_map (fun m => (m_src m, m_dst m)) (perm_filter (fun m => hash (m_dst m)) _ _ HPerm)) as HPm.
      eapply Permutation_NoDup in HN; [|exact HPm]. cbn [filter] in HN. destruct (hash (m_dst m)); auto. cbn [map] in HN. inversion HN; auto. }
  assert (Hok2 : forall mem, sys_ok g k cmem {| s_lab := s_lab s; s_mem := mem; s_pend := upd t rest (s_pend s) |}).
  { intros mem. split; auto. cbn [s_lab s_pend]. intros m' Hm'. apply HMic. apply (Permutation_in m' (Permutation_sym HPerm)). right; auto. }
  destruct HM as [HML HMT].
  unfold cg_apply, cg_update. fold v. rewrite (nth_error_in (s_mem s) v []) by lia.
  assert (Hw : width v <> 0).
  { intros C. apply width_deg in C; auto.
    assert (conn g v (m_src m) = w) by (rewrite (Hs v (m_src m)) by auto; apply simple_conn; auto).
    pose proof (Hpos _ _ _ Hm1 Hm3) as Hwp. unfold conn in H. destruct (gadj g v); [cbn in H|cbn in C]; lia. }
  destruct (Nat.eqb_spec (width v) 0) as [|_]; [contradiction|].
  assert (exists t', (if hash v then cg_hash_update g k np junk v (m_dec m) (m_inc m) (m_w m) (nth v (s_mem s) [])
                      else cg_full_update g k junk v (m_dec m) (m_inc m) (m_w m) (nth v (s_mem s) [])) = Some t' /\
           table_ok v t' (fun b => expected g cmem s v b + effect m v b)%Z) as (t' & Et & Ht).
  { pose proof (HMT v Hm2 Hw) as HT. unfold table_ok. destruct (hash v) eqn:Eh.
    - destruct (HP m Hin Eh) as (a & Ea & Ei). destruct HT as (b & Hsz & HR).
      destruct (hash_facts v Hm2 Hw Eh) as (Hkb & b' & E1 & E2 & E3).
      assert (b' = b) by (apply (Nat.pow_inj_r 2); lia). subst b'. rewrite Hsz in E1.
      destruct (override_bag s v _ Hok (conj HP HN) Hm2 Eh HPerm) as (p & HR1 & HR2 & HR3).
      destruct (override_bag _ v _ (Hok2 (s_mem s)) (HP' (s_mem s)) Hm2 Eh (Permutation_refl _)) as (p' & HR1' & _ & HR3').
      assert (HE : forall x, block_conn g p' v x = (block_conn g p v x + effect m v x)%Z).
      { intros x. rewrite <- HR3', <- HR3. apply expected_tick; auto. }
      assert (Ha : a < k) by (apply Hm4; auto).
      assert (Hb : label_of (s_lab s) (m_src m) < k) by (apply HLab; auto).
      set (c := label_of (s_lab s) (m_src m)) in *. pose proof k_le_keys as Hkk.
      assert (Hwa : (0 < w <= block_conn g p v a)%Z).
      { split; [apply (Hpos _ _ _ Hm1 Hm3)|]. rewrite bc_lconn.
        assert (Hvs : In (m_src m, w) (gadj g v)).
        { assert (Ec : conn g v (m_src m) = w) by (rewrite (Hs v (m_src m)) by auto; apply simple_conn; auto).
          destruct (in_dec Nat.eq_dec (m_src m) (map fst (gadj g v))) as [Hi|Hi].
          - apply in_map_iff in Hi. destruct Hi as ([x y] & Ex & Hi). cbn [fst] in Ex. subst x.
            rewrite (simple_conn g v _ _ Hsim Hm2 Hi) in Ec. subst y. exact Hi.
          - pose proof (Hpos _ _ _ Hm1 Hm3). exfalso. unfold conn in Ec. 
            rewrite (filter_ext_in _ (fun _ => false)) in Ec.
            + assert (F : forall l' : list (nat * Z), filter (fun _ => false) l' = []) by (induction l'; auto). rewrite F in Ec. cbn in Ec. lia.
            + intros [x y] Hxy. cbn [fst]. apply Nat.eqb_neq. intros ->. apply Hi. apply in_map_iff. exists (m_src m, y). auto. }
        destruct (lconn_bounds p (gadj g v) a (bc_pos v Hm2)) as (_ & _ & H3). apply (H3 (m_src m)); auto.
        apply HR2; auto. left; auto. }
      assert (HRp : rep (bits v) zkb b (nth v (s_mem s) []) (fun x => block_conn g p v (Z.to_nat x)))
        by (eapply rep_ext; [exact HR|]; intros; apply HR3).
      destruct (decrease_spec (bits v) zkb b true Hkb _ _ (Z.of_nat a) w HRp ltac:(discriminate)) as (t1 & Ed & HR4).
      { cbn [cm_valid_op]. rewrite Nat2Z.id. lia. }
      set (M1 := cm_step (fun x => block_conn g p v (Z.to_nat x)) (CDec (Z.of_nat a) w)) in *.
      assert (Emid : forall i, (0 <= i)%Z -> cm_step M1 (CInc (Z.of_nat c) w) i = block_conn g p' v (Z.to_nat i)).
      { intros i Hi. rewrite HE. unfold effect. fold v. rewrite Nat.eqb_refl, Ea, Ei. fold w. unfold M1. cbn [cm_step].
        destruct (Z.eqb_spec i (Z.of_nat c)), (Z.eqb_spec i (Z.of_nat a)), (Nat.eqb_spec c (Z.to_nat i)), (Nat.eqb_spec a (Z.to_nat i)); lia. }
      destruct (increase_spec (bits v) zkb b true Hkb t1 M1 (Z.of_nat c) w HR4) as (t2 & Ein & HR5).
      { cbn [cm_valid_op]. split; [lia|]. split; [lia|]. split.
        - specialize (Emid (Z.of_nat c) ltac:(lia)). cbn [cm_step] in Emid. rewrite Z.eqb_refl in Emid. rewrite Emid.
          eapply Z.le_lt_trans; [|exact E3]. apply (block_conn_bounds g p' v); auto.
        - rewrite (cm_size_ext _ _ (fun i => lconn p' (gadj g v) (Z.to_nat i))).
          + etransitivity; [apply lconn_size, bc_pos; auto|]. lia.
          + intros i Hi. rewrite Emid by lia. apply bc_lconn. }
      unfold cg_hash_update. rewrite Ea, Ei, Hsz. fold w. rewrite Ed. cbn [option_map fst]. rewrite Ein. cbn [option_map fst].
      exists t2. split; auto. intros _. exists b. split; auto. eapply rep_ext; [exact HR5|]. intros i Hi. rewrite Emid by lia.
      rewrite HE, HR3. reflexivity.
    - destruct HT as [HTL HT]. unfold cg_full_update.
      assert (exists t1, (match m_dec m with None => Some (nth v (s_mem s) []) | Some b => cg_cell_add g k junk v b (- m_w m) (nth v (s_mem s) []) end) = Some t1 /\
        length t1 = k /\ forall c, c < k -> nth_error t1 c =
          Some ((expected g cmem s v c - (match m_dec m with Some x => if Nat.eqb x c then m_w m else 0 | None => 0 end)) mod 2 ^ bits v)%Z) as (t1 & Et1 & HL1 & HT1).
      { destruct (m_dec m) as [a|].
        - destruct (cell_add_ok v _ _ a (- m_w m) HTL HT (Hm4 _ eq_refl)) as (t1 & E & HL & H). exists t1. split; auto. split; auto.
          intros c Hc1. rewrite H by auto. do 2 f_equal. destruct (a =? c); lia.
        - eexists. split; [reflexivity|]. split; auto. intros c Hc1. rewrite HT by auto. do 2 f_equal. lia. }
      rewrite Et1. destruct (m_inc m) as [b|] eqn:Ei.
      + assert (Hb : b < k) by (rewrite (Hm5 b eq_refl); apply HLab; auto).
        destruct (cell_add_ok v t1 _ b (m_w m) HL1 HT1 Hb) as (t2 & E & HL & H). exists t2. split; auto. intros _. split; auto.
        intros c Hc1. rewrite H by auto. do 2 f_equal. unfold effect. fold v. rewrite Nat.eqb_refl, Ei. lia.
      + exists t1. split; auto. intros _. split; auto.
        intros c Hc1. rewrite HT1 by auto. do 2 f_equal. unfold effect. fold v. rewrite Nat.eqb_refl, Ei. lia. }
  rewrite Et. eexists. split; [reflexivity|]. split; [apply HP'|]. cbn [s_mem]. split; [rewrite upd_length; auto|].
  intros x Hx. destruct (Nat.eq_dec x v) as [->|Hne].
  - rewrite upd_nth_same by lia. eapply table_ext; [|exact Ht]. intros b. symmetry. cbn beta. apply expected_tick; auto.
  - rewrite upd_nth_other by auto. eapply table_ext; [|apply HMT; auto]. intros b. cbn beta.
    rewrite (expected_tick g cmem s m rest t _ He). unfold effect. fold v. destruct (Nat.eqb_spec v x); [congruence|]. lia.
Qed.

Theorem compact_run_ok lab T es : labels_ok g k lab ->
  exists m0 s, cg_init g k np junk lab = Some m0 /\ cg_run g k np junk es (g_start _ lab m0 T) = Some s /\
    labels_ok g k (s_lab s) /\ length (s_mem s) = gn g /\
    forall u, u < gn g -> dst_idle u s = true ->
      table_ok u (nth u (s_mem s) []) (block_conn g (label_of (s_lab s)) u).
Proof.
  intros HL. destruct (cg_init_ok lab HL) as (m0 & E0 & C0). exists m0.
  destruct (run_ok g k Hc cmem expand (cg_apply g k np junk) cg_expand_eff cg_expand_wf inv move_inv tick_inv es
              (g_start cmem lab m0 T)) as (s & Er & [Hl _] & [_ Hm]).
  - apply start_ok; auto.
  - split.
    + split; rewrite (start_bag cmem); [intros m []|constructor].
    + destruct C0 as [CL C0]. split; auto. intros v Hv. eapply table_ext; [|apply C0; auto]. intros b. unfold expected.
      rewrite (start_bag cmem). cbn. lia.
  - exists s. split; auto. split; auto. split; auto. destruct Hm as [HL2 Hm]. split; auto. intros u Hu Hi.
    eapply table_ext; [|apply Hm; auto]. intros b. apply expected_idle; auto.
Qed.

(** Reading. *)
Lemma conn_zero u p b : u < gn g -> width u = 0 -> block_conn g p u b = 0%Z.
Proof. intros Hu Hw. apply width_deg in Hw; auto. unfold block_conn. destruct (gadj g u); [reflexivity|cbn in Hw; lia]. Qed.
Lemma cg_conn_ok mem u p b : length mem = gn g -> u < gn g -> b < k ->
  table_ok u (nth u mem []) (block_conn g p u) -> cg_conn g k np junk mem u b = Some (block_conn g p u b).
Proof.
  intros HL Hu Hb HT. unfold cg_conn. rewrite (nth_error_in mem u []) by lia.
  destruct (Nat.eqb_spec (width u) 0) as [E|E]; [rewrite conn_zero by auto; reflexivity|].
  specialize (HT E). destruct (hash u) eqn:Eh.
  - destruct HT as (bb & Hsz & HR). destruct (hash_facts u Hu E Eh) as (Hkb & _).
    rewrite Hsz, (get_spec (bits u) zkb bb true Hkb _ _ (Z.of_nat b) HR).
    + rewrite Nat2Z.id. reflexivity.
    + discriminate.
    + pose proof k_le_keys. lia.
  - destruct HT as [_ HT]. rewrite HT by auto. f_equal. apply Z.mod_small.
    assert (Hd : 0 < deg u). { destruct (Nat.eq_dec (deg u) 0) as [C|C]; [|lia]. exfalso. apply E. apply (width_0 g k np junk Hnp); auto. }
    pose proof (wd_fits g k np junk Hpos Hfit Hnp u Hu Hd) as Hf. rewrite Eh in Hf. rewrite Z.sub_0_r in Hf.
    pose proof (block_conn_bounds g p u b Hpos Hu). lia.
Qed.
Lemma entries_ok mem u p : u < gn g -> in_range p -> hash u = true -> table_ok u (nth u mem []) (block_conn g p u) ->
  Permutation (cg_entries g k np junk mem u)
    (map (fun b => (Z.of_nat b, block_conn g p u b)) (filter (fun b => (0 <? block_conn g p u b)%Z) (seq 0 k))).
Proof.
  intros Hu HP Eh HT. unfold cg_entries. destruct (Nat.eqb_spec (width u) 0) as [E|E].
  - rewrite (filter_ext_in _ (fun _ => false)).
    + assert (F : forall l' : list nat, filter (fun _ => false) l' = []) by (induction l'; auto). rewrite F. constructor.
    + intros b _. rewrite conn_zero by auto. reflexivity.
  - specialize (HT E). rewrite Eh in HT. destruct HT as (bb & Hsz & HR). destruct (hash_facts u Hu E Eh) as (Hkb & _).
    rewrite Hsz. etransitivity; [exact (for_each_spec (bits u) zkb bb Hkb _ _ HR)|].
    unfold cm_keys. pose proof k_le_keys as Hkk.
    replace (seq 0 KN) with (seq 0 k ++ seq k (KN - k)) by (rewrite <- seq_app; f_equal; lia).
    rewrite map_app, filter_app.
    rewrite (filter_ext_in _ (fun _ => false) (map Z.of_nat (seq k (KN - k)))).
    + assert (F : forall l' : list Z, filter (fun _ => false) l' = []) by (induction l'; auto). rewrite F, app_nil_r.
      assert (G : forall l, map (fun x => (x, block_conn g p u (Z.to_nat x))) (filter (fun x => negb (block_conn g p u (Z.to_nat x) =? 0)%Z) (map Z.of_nat l))
        = map (fun b => (Z.of_nat b, block_conn g p u b)) (filter (fun b => (0 <? block_conn g p u b)%Z) l)).
      { induction l as [|b l IH]; cbn [map filter]; [reflexivity|]. rewrite Nat2Z.id.
        pose proof (block_conn_bounds g p u b Hpos Hu).
        destruct (Z.eqb_spec (block_conn g p u b) 0), (Z.ltb_spec 0 (block_conn g p u b)); try lia; cbn [negb map]; rewrite ?Nat2Z.id, IH; reflexivity. }
      rewrite G. apply Permutation_refl.
    + intros x Hx. apply in_map_iff in Hx. destruct Hx as (i & <- & Hi). apply in_seq in Hi.
      apply Bool.negb_false_iff, Z.eqb_eq. rewrite Nat2Z.id, bc_lconn.
      destruct (lconn_bounds p (gadj g u) i (bc_pos u Hu)) as (_ & H2 & _).
      destruct (Z.eq_dec (lconn p (gadj g u) i) 0) as [|Hn]; auto. destruct (H2 Hn) as (v & w & Hin & Ei).
      assert (p v < k) by (apply HP; eapply Hc; eauto). lia.
Qed.
End C.
