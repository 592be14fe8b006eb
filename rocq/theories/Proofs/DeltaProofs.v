(* The thread-local view equals the shared state with the local moves applied. *)
From Verif Require Import Lib.Prelude Spec.Graph Spec.Gain Spec.KeyedList Spec.LocalView Model.DynMapModel Model.DeltaModel
  Proofs.GraphFacts Proofs.GainBase Proofs.GainSys Proofs.DenseGain Proofs.CompactGain Proofs.DynMapProofs.

Lemma block_weight_relabel g p u c b : u < gn g ->
  block_weight g (relabel p u c) b =
  (block_weight g p b + (if Nat.eqb c b then gvw g u else 0) - (if Nat.eqb (p u) b then gvw g u else 0))%Z.
Proof.
  intros Hu. unfold block_weight.
  rewrite (sumn_change (gn g) u (fun x => if Nat.eqb (relabel p u c x) b then gvw g x else 0%Z) (fun x => if Nat.eqb (p x) b then gvw g x else 0%Z)); auto.
  - unfold relabel at 1. rewrite Nat.eqb_refl. lia.
  - intros i _ Hn. unfold relabel. destruct (Nat.eqb_spec i u); [contradiction|reflexivity].
Qed.
Lemma block_weight_ext g p q b : (forall u, u < gn g -> p u = q u) -> block_weight g p b = block_weight g q b.
Proof. intros H. unfold block_weight. apply sumn_ext. intros i Hi. rewrite H by auto. reflexivity. Qed.
Lemma view_modify p u b D x : view p (kl_modify 0%nat u (fun _ => b) D) x = relabel (view p D) u b x.
Proof. unfold view, relabel. rewrite kl_get_modify, (Nat.eqb_sym u x). destruct (Nat.eqb x u); reflexivity. Qed.

Section P.
Variables (g : graph) (k : nat) (hash : nat -> nat).
Hypothesis (Hc : closed_graph g) (Hs : undirected g).
Notation n := (gn g).
Notation idx := (dc_index k).

Definition cget (C : list (nat * Z)) (i : nat) : Z := match kl_get i C with Some x => x | None => 0%Z end.
Definition has (T : N) (d : delta) (c : nat -> nat -> Z) : Prop :=
  (dm_ts (dl_conn d) <= T)%N /\
  exists C, linv false hash 0%Z (dl_conn d) C /\ NoDup (map fst C) /\ forall v b, v < n -> b < k -> cget C (idx v b) = c v b.
Lemma has_ext T d c c' : (forall v b, v < n -> b < k -> c v b = c' v b) -> has T d c -> has T d c'.
Proof. intros E (HT & C & H1 & H2 & H3). split; auto. exists C. split; auto. split; auto. intros. rewrite <- E; auto. Qed.
Lemma has_same T d d' c : dl_conn d' = dl_conn d -> has T d c -> has T d' c.
Proof. intros E H. unfold has in *. rewrite E. exact H. Qed.
Lemma has_delta T d c v b : has T d c -> v < n -> b < k -> dc_delta k hash d v b = Some (c v b).
Proof.
  intros (_ & C & H1 & H2 & H3) Hv Hb. unfold dc_delta. rewrite (get_ok false hash 0%Z _ _ _ H2 H1), <- (H3 v b Hv Hb). unfold cget.
  destruct (kl_get (idx v b) C); reflexivity.
Qed.
Lemma bump_ok T d c v b w : has T d c -> v < n -> b < k ->
  exists d', dc_bump k hash d v b w = Some d' /\
    has T d' (fun x y => c x y + (if (Nat.eqb x v) && (Nat.eqb y b) then w else 0))%Z /\
    dl_part d' = dl_part d /\ dl_w d' = dl_w d /\ dl_adj d' = dl_adj d.
Proof.
  intros (HT & C & H1 & H2 & H3) Hv Hb. unfold dc_bump.
  destruct (modify_ok false hash 0%Z _ _ (idx v b) (fun x => (x + w)%Z) H2 H1) as (m & E & HL & Hts).
  rewrite E. eexists. split; [reflexivity|]. repeat split; cbn [dl_conn]; [lia|].
  exists (kl_modify 0%Z (idx v b) (fun x => (x + w)%Z) C). split; auto. split; [apply kl_modify_nodup; auto|].
  intros x y Hx Hy. rewrite <- (H3 x y Hx Hy). unfold cget. rewrite kl_get_modify.
  destruct (Nat.eqb_spec (idx v b) (idx x y)) as [Ei|Ei].
  - apply index_inj in Ei; auto. destruct Ei as [-> ->]. rewrite !Nat.eqb_refl. cbn [andb]. destruct (kl_get (idx x y) C); lia.
  - destruct (Nat.eqb_spec x v) as [->|]; cbn [andb]; [|lia]. destruct (Nat.eqb_spec y b) as [->|]; [contradiction|lia].
Qed.

(** The blocks remembered for a node are those without a shared connection that got a local one. *)
Definition AF (bc : nat -> nat -> Z) (v : nat) (c : nat -> nat -> Z) (ex : list nat) : Prop :=
  NoDup ex /\ (forall b, In b ex -> b < k /\ bc v b = 0%Z) /\
  (forall b, b < k -> ~ In b ex -> bc v b = 0%Z -> c v b = 0%Z).
Lemma AF_ext bc v c c' ex : (forall b, b < k -> c v b = c' v b) -> AF bc v c ex -> AF bc v c' ex.
Proof. intros E (H1 & H2 & H3). repeat split; auto; try apply H2; auto. intros. rewrite <- E; auto. Qed.

Lemma move_edge_ok T lk c0 (bc : nat -> nat -> Z) d c v w from to : has T d c -> v < n -> from < k -> to < k ->
  (lk = true -> forall v b, v < n -> b < k -> bc_conn c0 v b = Some (bc v b)) ->
  exists d', dc_move_edge k hash lk c0 from to (Some d) (v, w) = Some d' /\
    has T d' (fun x y => c x y + (if Nat.eqb x v then (if Nat.eqb y to then w else 0) - (if Nat.eqb y from then w else 0) else 0))%Z /\
    dl_part d' = dl_part d /\ dl_w d' = dl_w d /\
    (forall x, x <> v -> dl_extra d' x = dl_extra d x) /\
    (lk = true -> AF bc v c (dl_extra d v) -> (0 < w)%Z -> (0 < bc v from + c v from)%Z ->
       AF bc v (fun x y => c x y + (if Nat.eqb x v then (if Nat.eqb y to then w else 0) - (if Nat.eqb y from then w else 0) else 0))%Z (dl_extra d' v)).
Proof.
  intros HH Hv Hf Ht Hbc. unfold dc_move_edge. cbn [fst snd].
  destruct (bump_ok T d c v from (- w) HH Hv Hf) as (d1 & E1 & HH1 & P1 & W1 & A1). rewrite E1.
  assert (exists d2, (if lk then lk_remember k hash c0 d1 v to else Some d1) = Some d2 /\ dl_conn d2 = dl_conn d1 /\ dl_part d2 = dl_part d1 /\
    dl_w d2 = dl_w d1 /\ (forall x, x <> v -> dl_extra d2 x = dl_extra d1 x) /\
    (lk = true -> dl_extra d2 v = if ((bc v to =? 0) && (c v to + (if Nat.eqb to from then - w else 0) =? 0))%Z
                                  then (if existsb (Nat.eqb to) (dl_extra d1 v) then dl_extra d1 v else dl_extra d1 v ++ [to]) else dl_extra d1 v))
    as (d2 & E2 & C2 & P2 & W2 & A2 & A3).
  { destruct lk; [|exists d1; repeat split; auto; discriminate]. unfold lk_remember. rewrite (Hbc eq_refl v to Hv Ht), (has_delta T d1 _ v to HH1 Hv Ht).
    rewrite Nat.eqb_refl. cbn [andb]. destruct ((bc v to =? 0)%Z && _) eqn:Eb.
    - eexists. split; [reflexivity|]. cbn [dl_conn dl_part dl_w]. repeat split; auto.
      + intros x Hx. unfold dl_extra. cbn [dl_adj]. rewrite kl_get_modify. destruct (Nat.eqb_spec v x); [congruence|reflexivity].
      + intros _. unfold dl_extra at 1. cbn [dl_adj]. rewrite kl_get_modify, Nat.eqb_refl. unfold dl_extra. reflexivity.
    - exists d1. repeat split; auto. }
  rewrite E2. assert (HH2 := has_same T d1 d2 _ C2 HH1).
  destruct (bump_ok T d2 _ v to w HH2 Hv Ht) as (d3 & E3 & HH3 & P3 & W3 & A4). rewrite E3. exists d3. split; auto.
  assert (EX : forall x, dl_extra d3 x = dl_extra d2 x) by (intros; unfold dl_extra; rewrite A4; reflexivity).
  assert (EX1 : forall x, dl_extra d1 x = dl_extra d x) by (intros; unfold dl_extra; rewrite A1; reflexivity).
  split; [eapply has_ext; [|exact HH3]; intros x y _ _; cbn beta; destruct (Nat.eqb x v), (Nat.eqb y from), (Nat.eqb y to); cbn [andb]; lia|].
  split; [congruence|]. split; [congruence|]. split.
  - intros x Hx. rewrite EX, A2, EX1 by auto. reflexivity.
  - intros Hlk (HN & HB & HZ) Hw Hp. rewrite EX, (A3 Hlk), EX1. set (ex := dl_extra d v) in *. clear A3 A2.
    assert (Hfr : bc v from = 0%Z -> In from ex).
    { intros Eb. destruct (in_dec Nat.eq_dec from ex) as [|Hni]; auto. rewrite (HZ from Hf Hni Eb) in Hp. lia. }
    assert (Hsub : forall b, In b ex -> In b (if ((bc v to =? 0) && (c v to + (if Nat.eqb to from then - w else 0) =? 0))%Z
                                  then (if existsb (Nat.eqb to) ex then ex else ex ++ [to]) else ex)).
    { intros b Hb. destruct (_ && _); auto. destruct (existsb _ ex); auto. apply in_app_iff; auto. }
    split; [|split].
    + destruct (_ && _); auto. destruct (existsb (Nat.eqb to) ex) eqn:Ee; auto.
      apply NoDup_app_intro; [auto|repeat constructor; auto|]. intros x Hx [<-|[]].
      apply Bool.not_true_iff_false in Ee. apply Ee. apply existsb_exists. exists to. rewrite Nat.eqb_refl. auto.
    + intros b Hb. destruct ((bc v to =? 0)%Z && _) eqn:Eb; [|apply HB; auto]. destruct (existsb _ ex); [apply HB; auto|].
      apply in_app_iff in Hb. destruct Hb as [Hb|[<-|[]]]; [apply HB; auto|]. apply Bool.andb_true_iff in Eb. destruct Eb as [Eb _].
      apply Z.eqb_eq in Eb. auto.
    + intros b Hb Hni E0. rewrite Nat.eqb_refl.
      destruct (Nat.eqb_spec b from) as [->|Hnf].
      * exfalso. apply Hni, Hsub, Hfr; auto.
      * assert (Hnex : ~ In b ex) by (intros C; apply Hni, Hsub; auto).
        destruct (Nat.eqb_spec b to) as [->|Hnt]; [|rewrite (HZ b Hb Hnex E0); lia].
        exfalso. apply Hni. rewrite E0, (HZ to Hb Hnex E0). destruct (Nat.eqb_spec to from); [congruence|]. cbn [Z.eqb Z.add andb].
        destruct (existsb (Nat.eqb to) ex) eqn:Ee; [|apply in_app_iff; right; left; auto].
        apply existsb_exists in Ee. destruct Ee as (x & Hx & Ex). apply Nat.eqb_eq in Ex. subst x. auto.
Qed.

Definition ladj (l : list (nat * Z)) (v : nat) : Z := zsum (map (fun e => if Nat.eqb (fst e) v then snd e else 0%Z) l).
Lemma ladj_conn u v : ladj (gadj g u) v = conn g u v.
Proof. unfold ladj, conn. rewrite zsum_filter. reflexivity. Qed.

Lemma move_fold T lk c0 (bc : nat -> nat -> Z) from to : from < k -> to < k ->
  (lk = true -> forall v b, v < n -> b < k -> bc_conn c0 v b = Some (bc v b)) ->
  forall l d c, (forall v w, In (v, w) l -> v < n) -> has T d c ->
  exists d', fold_left (dc_move_edge k hash lk c0 from to) l (Some d) = Some d' /\
    has T d' (fun x y => c x y + (if Nat.eqb y to then ladj l x else 0) - (if Nat.eqb y from then ladj l x else 0))%Z /\
    dl_part d' = dl_part d /\ dl_w d' = dl_w d /\
    (lk = true -> NoDup (map fst l) -> forall v, AF bc v c (dl_extra d v) ->
       (forall w, In (v, w) l -> 0 < w /\ 0 < bc v from + c v from)%Z ->
       AF bc v (fun x y => c x y + (if Nat.eqb y to then ladj l x else 0) - (if Nat.eqb y from then ladj l x else 0))%Z (dl_extra d' v)).
Proof.
  intros Hf Ht Hbc. induction l as [|[x w] l IH]; intros d c Hl HH; cbn [fold_left].
  - exists d. split; auto. split; [eapply has_ext; [|exact HH]; intros; cbn; destruct (Nat.eqb b to), (Nat.eqb b from); lia|].
    split; auto. split; auto. intros _ _ v HA _. eapply AF_ext; [|exact HA]. intros; cbn; destruct (Nat.eqb b to), (Nat.eqb b from); lia.
  - destruct (move_edge_ok T lk c0 bc d c x w from to HH (Hl x w (or_introl eq_refl)) Hf Ht Hbc) as (d1 & E1 & HH1 & P1 & W1 & X1 & A1).
    rewrite E1. destruct (IH d1 _ ltac:(intros; eapply Hl; right; eauto) HH1) as (d2 & E2 & HH2 & P2 & W2 & A2).
    assert (Eq : forall v b, (c v b + (if Nat.eqb v x then (if Nat.eqb b to then w else 0) - (if Nat.eqb b from then w else 0) else 0) + (if Nat.eqb b to then ladj l v else 0) - (if Nat.eqb b from then ladj l v else 0)
       = c v b + (if Nat.eqb b to then ladj ((x, w) :: l) v else 0) - (if Nat.eqb b from then ladj ((x, w) :: l) v else 0))%Z).
    { intros v b. unfold ladj. cbn [map zsum fst snd]. rewrite (Nat.eqb_sym x v). destruct (Nat.eqb v x), (Nat.eqb b to), (Nat.eqb b from); lia. }
    exists d2. split; auto. split; [eapply has_ext; [|exact HH2]; intros; cbn beta; apply Eq|]. split; [congruence|]. split; [congruence|].
    intros Hlk HN v HA Hw. cbn [map fst] in HN. inversion HN as [|? ? Hni HN']; subst.
    refine (AF_ext bc v (fun v b => (c v b + (if Nat.eqb v x then (if Nat.eqb b to then w else 0) - (if Nat.eqb b from then w else 0) else 0) + (if Nat.eqb b to then ladj l v else 0) - (if Nat.eqb b from then ladj l v else 0))%Z) _ _ (fun b _ => Eq v b) _).
    destruct (Nat.eq_dec v x) as [->|Hne].
    + apply (A2 eq_refl HN').
      * destruct (Hw w (or_introl eq_refl)). apply A1; auto.
      * intros w' Hin. exfalso. apply Hni. apply in_map_iff. exists (x, w'). auto.
    + apply (A2 eq_refl HN').
      * rewrite X1 by auto. eapply AF_ext; [|exact HA]. intros b _. cbn beta. destruct (Nat.eqb_spec v x); [contradiction|lia].
      * intros w' Hin. destruct (Nat.eqb_spec v x); [contradiction|]. destruct (Hw w' (or_intror Hin)). split; auto. lia.
Qed.

(** * Histories *)
Variable cache : list nat -> bcache.
Hypothesis Hcache : forall lab, labels_ok g k lab -> forall u b, u < n -> b < k ->
  bc_conn (cache lab) u b = Some (block_conn g (label_of lab) u b).

Definition vw (s : lsys) (D : list (nat * nat)) : nat -> nat := view (label_of (x_lab s)) D.
Definition ok (T : N) (s : lsys) (D : list (nat * nat)) : Prop :=
  let p := label_of (x_lab s) in
  labels_ok g k (x_lab s) /\ (length (x_bw s) = k /\ forall b, b < k -> nth_error (x_bw s) b = Some (block_weight g p b)) /\
  ((dm_ts (dl_part (x_d s)) <= T)%N /\ linv false hash 0 (dl_part (x_d s)) D /\ NoDup (map fst D) /\ forall u b, In (u, b) D -> u < n /\ b < k) /\
  (length (dl_w (x_d s)) = k /\ forall b, b < k -> nth_error (dl_w (x_d s)) b = Some (block_weight g (vw s D) b - block_weight g p b)%Z) /\
  has T (x_d s) (fun v b => block_conn g (vw s D) v b - block_conn g p v b)%Z.

Lemma ok_T T T' s D : (T <= T')%N -> ok T s D -> ok T' s D.
Proof.
  intros HT (H1 & H2 & (H3 & H3') & H4 & H5 & H6). repeat (split; auto); try lia; try apply H1; try apply H2; try apply H3'; try apply H4.
Qed.
Lemma vw_lt T s D u : ok T s D -> u < n -> vw s D u < k.
Proof.
  intros ((_ & H1) & _ & (_ & _ & HN & H2) & _) Hu. unfold vw, view. destruct (kl_get u D) as [b|] eqn:E; [|apply H1; auto].
  apply kl_get_in in E; auto. apply (H2 u b); auto.
Qed.
Lemma block_ok T s D u : ok T s D -> u < n -> dg_block hash (x_lab s) (x_d s) u = Some (vw s D u).
Proof.
  intros ((HL & _) & _ & (_ & H3 & HN & _) & _) Hu. unfold dg_block. rewrite (get_ok false hash 0 _ _ u HN H3). unfold vw, view.
  destruct (kl_get u D); auto. rewrite (nth_error_in _ _ 0) by lia. reflexivity.
Qed.
Lemma set_weights (l : list Z) f old new w : length l = k -> (forall b, b < k -> nth_error l b = Some (f b)) -> old < k -> new < k ->
  nth_error l old = Some (f old) /\
  nth_error (upd old (f old - w)%Z l) new = Some (f new - (if Nat.eqb old new then w else 0))%Z /\
  length (upd new (f new - (if Nat.eqb old new then w else 0) + w)%Z (upd old (f old - w)%Z l)) = k /\
  forall b, b < k -> nth_error (upd new (f new - (if Nat.eqb old new then w else 0) + w)%Z (upd old (f old - w)%Z l)) b
     = Some (f b + (if Nat.eqb new b then w else 0) - (if Nat.eqb old b then w else 0))%Z.
Proof.
  intros HL H Ho Hn. split; auto. split; [|split; [rewrite !upd_length; auto|]].
  - rewrite upd_nth_error, HL. destruct (Nat.ltb_spec old k); [|lia]. rewrite Bool.andb_true_r. destruct (Nat.eqb_spec old new) as [->|]; auto.
    rewrite H by auto. f_equal. lia.
  - intros b Hb. rewrite !upd_nth_error, upd_length, HL. destruct (Nat.ltb_spec old k); [|lia]. destruct (Nat.ltb_spec new k); [|lia].
    rewrite !Bool.andb_true_r. destruct (Nat.eqb_spec new b) as [->|Hnb].
    + f_equal. destruct (Nat.eqb old b); lia.
    + destruct (Nat.eqb_spec old b) as [->|Hob]; [f_equal; lia|]. rewrite H by auto. f_equal. lia.
Qed.

Lemma lmove_ok T lk s D u b : ok T s D -> u < n -> b < k ->
  exists s', l_step g k hash cache lk (LMove u b) s = Some s' /\ x_lab s' = x_lab s /\ ok T s' (kl_modify 0%nat u (fun _ => b) D) /\
    (lk = true -> simple_graph g -> positive_edges g -> forall v, v < n ->
       AF (block_conn g (label_of (x_lab s))) v (fun v c => block_conn g (vw s D) v c - block_conn g (label_of (x_lab s)) v c)%Z (dl_extra (x_d s) v) ->
       AF (block_conn g (label_of (x_lab s))) v
          (fun v c => block_conn g (vw s' (kl_modify 0%nat u (fun _ => b) D)) v c - block_conn g (label_of (x_lab s)) v c)%Z (dl_extra (x_d s') v)).
Proof.
  intros HO Hu Hb. pose proof (vw_lt T s D u HO Hu) as Hfr. pose proof (block_ok T s D u HO Hu) as Eb.
  destruct HO as (HL & HW & (Hts & HD & HN & HR) & (HWL & HWd) & HC).
  cbn [l_step]. destruct (Nat.ltb_spec u n); [|lia]. destruct (Nat.ltb_spec b k); [|lia]. cbn [andb]. rewrite Eb.
  unfold dg_set_block. rewrite Eb.
  destruct (set_weights (dl_w (x_d s)) _ (vw s D u) b (gvw g u) HWL HWd Hfr Hb) as (W1 & W2 & W3 & W4).
  rewrite W1. cbv zeta. rewrite W2.
  destruct (modify_ok false hash 0 _ _ u (fun _ => b) HN HD) as (part & Ep & HD' & Hts').
  rewrite Ep. match goal with |- context [dc_move g k hash lk _ ?x u _ b] => set (d1 := x) end.
  assert (HH1 : has T d1 (fun v b => block_conn g (vw s D) v b - block_conn g (label_of (x_lab s)) v b)%Z) by (eapply has_same; [|exact HC]; reflexivity).
  unfold dc_move.
  destruct (move_fold T lk (cache (x_lab s)) (block_conn g (label_of (x_lab s))) (vw s D u) b Hfr Hb ltac:(intros _; intros; apply Hcache; auto)
              (gadj g u) d1 _ ltac:(intros v w Hin; eapply Hc; eauto) HH1) as (d2 & E2 & HH2 & P2 & W2' & A2).
  rewrite E2. eexists. split; [reflexivity|]. split; [reflexivity|].
  assert (EV : forall x, vw {| x_lab := x_lab s; x_bw := x_bw s; x_d := d2 |} (kl_modify 0%nat u (fun _ => b) D) x = relabel (vw s D) u b x)
    by (intros; apply view_modify).
  assert (EC : forall v c, v < n -> (block_conn g (vw s D) v c - block_conn g (label_of (x_lab s)) v c + (if Nat.eqb c b then ladj (gadj g u) v else 0) - (if Nat.eqb c (vw s D u) then ladj (gadj g u) v else 0)
     = block_conn g (vw {| x_lab := x_lab s; x_bw := x_bw s; x_d := d2 |} (kl_modify 0%nat u (fun _ => b) D)) v c - block_conn g (label_of (x_lab s)) v c)%Z).
  { intros v c Hv. rewrite (block_conn_ext g (vw {| x_lab := x_lab s; x_bw := x_bw s; x_d := d2 |} (kl_modify 0%nat u (fun _ => b) D)) (relabel (vw s D) u b)) by (auto; intros; apply EV). rewrite block_conn_relabel by auto.
    rewrite ladj_conn, (Hs u v Hu Hv), (Nat.eqb_sym c b), (Nat.eqb_sym c (vw s D u)). lia. }
  split.
  - split; [exact HL|]. split; [exact HW|]. split; [|split].
    + cbn [x_d]. rewrite P2. cbn [d1 dl_part]. split; [lia|]. split; auto. split; [apply kl_modify_nodup; auto|].
      intros x y Hin. apply kl_get_in in Hin; [|apply kl_modify_nodup; auto]. rewrite kl_get_modify in Hin.
      destruct (Nat.eqb_spec u x) as [->|]; [injection Hin as <-; auto|]. apply HR. apply kl_get_in; auto.
    + cbn [x_d]. rewrite W2'. cbn [d1 dl_w]. split; auto. intros c Hc'. rewrite W4 by auto. f_equal.
      rewrite (block_weight_ext g (vw {| x_lab := x_lab s; x_bw := x_bw s; x_d := d2 |} (kl_modify 0%nat u (fun _ => b) D)) (relabel (vw s D) u b)) by (intros; apply EV). rewrite block_weight_relabel by auto. cbn [x_lab]. lia.
    + cbn [x_d x_lab]. eapply has_ext; [|exact HH2]. intros v c Hv Hc'. cbn beta. apply EC; auto.
  - intros Hlk Hsim Hpos v Hv HA. cbn [x_d].
    refine (AF_ext _ v (fun v c => (block_conn g (vw s D) v c - block_conn g (label_of (x_lab s)) v c + (if Nat.eqb c b then ladj (gadj g u) v else 0) - (if Nat.eqb c (vw s D u) then ladj (gadj g u) v else 0))%Z) _ _ (fun c _ => EC v c Hv) _).
    apply A2; auto.
    + apply Hsim; auto.
    + intros w Hin. pose proof (Hpos u v w Hu Hin) as Hw0. split; [exact Hw0|].
      enough (HP : (0 < block_conn g (vw s D) v (vw s D u))%Z) by (revert HP; generalize (block_conn g (label_of (x_lab s)) v (vw s D u)); intros; lia).
      rewrite bc_lconn. destruct (lconn_bounds (vw s D) (gadj g v) (vw s D u)) as (_ & _ & H3); [intros x y Hxy; exact (Hpos v x y Hv Hxy)|].
      assert (Hin' : In (u, w) (gadj g v)).
      { assert (Ec : conn g v u = w) by (rewrite (Hs v u Hv Hu); apply (simple_conn g u v w); auto).
        destruct (in_dec Nat.eq_dec u (map fst (gadj g v))) as [Hi|Hi].
        - apply in_map_iff in Hi. destruct Hi as ([x y] & Ex & Hi). cbn [fst] in Ex. subst x.
          rewrite (simple_conn g v _ _ Hsim Hv Hi) in Ec. subst y. exact Hi.
        - exfalso. unfold conn in Ec. rewrite (filter_ext_in _ (fun _ => false)) in Ec.
          + assert (F : forall l' : list (nat * Z), filter (fun _ => false) l' = []) by (induction l'; auto). rewrite F in Ec. cbn in Ec. lia.
          + intros [x y] Hxy. cbn [fst]. apply Nat.eqb_neq. intros ->. apply Hi. apply in_map_iff. exists (u, y). auto. }
      specialize (H3 u w Hin' eq_refl). lia.
Qed.

Lemma clear_dm {V} (dflt : V) m l T : linv false hash dflt m l -> (dm_ts m <= T)%N -> (T + 1 < 2 ^ 64)%N ->
  linv false hash dflt (dm_clear false 64 m) [] /\ (dm_ts (dm_clear false 64 m) <= T + 1)%N.
Proof. intros HL HT Hlt. destruct (clear_ok false 64 hash dflt m l ltac:(lia) HL) as [H1 H2]. split; auto. rewrite H2. lia. Qed.
Lemma lclear_ok T lk s D : ok T s D -> (T + 1 < 2 ^ 64)%N ->
  exists s', l_step g k hash cache lk LClear s = Some s' /\ x_lab s' = x_lab s /\ ok (T + 1)%N s' [] /\ (forall v, dl_extra (x_d s') v = []).
Proof.
  intros (HL & HW & (Hts & HD & HN & HR) & (HWL & HWd) & (HCt & C & HC1 & HC2 & HC3)) HT. eexists. split; [reflexivity|]. split; [reflexivity|].
  split; [|reflexivity]. cbn [x_lab x_bw x_d]. destruct (clear_dm 0 _ _ T HD Hts HT) as [D1 D2]. destruct (clear_dm 0%Z _ _ T HC1 HCt HT) as [C1 C2].
  split; [exact HL|]. split; [exact HW|]. cbn [x_d dl_clear dl_part dl_w x_lab]. split; [|split].
  - split; auto. split; auto. split; [constructor|]. intros u b [].
  - rewrite repeat_length. split; auto. intros b Hb. rewrite (nth_error_in _ _ 0%Z) by (rewrite repeat_length; lia). rewrite nth_repeat.
    f_equal. unfold vw, view. cbn [kl_get x_lab]. unfold label_of. lia.
  - split; auto. exists []. split; auto. split; [constructor|]. intros v b Hv Hb. unfold vw, view. cbn [kl_get x_lab cget]. unfold label_of. lia.
Qed.
Lemma xmove_ok T lk s D v c : ok T s D -> v < n -> c < k -> kl_get v D = None ->
  exists s', l_step g k hash cache lk (XMove v c) s = Some s' /\ x_lab s' = upd v c (x_lab s) /\ ok T s' D.
Proof.
  intros (HL & (HBL & HB) & (Hts & HD & HN & HR) & (HWL & HWd) & HC) Hv Hck HNo. cbn [l_step].
  rewrite (get_ok false hash 0 _ _ v HN HD), HNo. destruct (Nat.ltb_spec v n); [|lia]. destruct (Nat.ltb_spec c k); [|lia]. cbn [andb].
  assert (HL' := HL). destruct HL' as [HL1 HL2]. rewrite (nth_error_in _ _ 0) by lia. fold (label_of (x_lab s) v).
  destruct (set_weights (x_bw s) _ (label_of (x_lab s) v) c (gvw g v) HBL HB (HL2 v Hv) Hck) as (W1 & W2 & W3 & W4).
  rewrite W1. cbv zeta. rewrite W2. eexists. split; [reflexivity|]. split; [reflexivity|].
  assert (EP : forall x, label_of (upd v c (x_lab s)) x = relabel (label_of (x_lab s)) v c x) by (intros; apply lab_upd; lia).
  match goal with |- ok T ?x D => set (s' := x) end.
  assert (EV : forall x, vw s' D x = relabel (vw s D) v c x).
  { intros x. unfold vw, view. cbn [s' x_lab]. unfold relabel. destruct (Nat.eqb_spec x v) as [->|Hn].
    - rewrite HNo, EP. unfold relabel. rewrite Nat.eqb_refl. reflexivity.
    - destruct (kl_get x D); auto. rewrite EP. unfold relabel. destruct (Nat.eqb_spec x v); [contradiction|reflexivity]. }
  assert (Ev : vw s D v = label_of (x_lab s) v) by (unfold vw, view; rewrite HNo; reflexivity).
  split; [|split; [|split; [|split]]].
  - split; cbn [s' x_lab]; [rewrite upd_length; auto|]. intros x Hx. rewrite EP. unfold relabel. destruct (Nat.eqb x v); auto.
  - split; cbn [s' x_bw x_lab]; auto. intros b Hb. rewrite W4 by auto. f_equal.
    rewrite (block_weight_ext g (label_of (upd v c (x_lab s))) (relabel (label_of (x_lab s)) v c)) by (intros; apply EP). rewrite block_weight_relabel by auto. lia.
  - auto.
  - split; auto. intros b Hb. cbn [s' x_d]. rewrite HWd by auto. f_equal.
    rewrite (block_weight_ext g (vw s' D) (relabel (vw s D) v c)) by (intros; apply EV).
    rewrite (block_weight_ext g (label_of (x_lab s')) (relabel (label_of (x_lab s)) v c)) by (intros; apply EP).
    rewrite !block_weight_relabel, Ev by auto. lia.
  - eapply has_ext; [|exact HC]. intros x b Hx Hb. cbn beta.
    rewrite (block_conn_ext g (vw s' D) (relabel (vw s D) v c)) by (auto; intros; apply EV).
    rewrite (block_conn_ext g (label_of (x_lab s')) (relabel (label_of (x_lab s)) v c)) by (auto; intros; apply EP).
    rewrite !block_conn_relabel, Ev by auto. lia.
Qed.
Lemma get_none_ok T s D v : ok T s D -> dm_get hash 0 (dl_part (x_d s)) v = Some (kl_get v D).
Proof. intros (_ & _ & (_ & HD & HN & _) & _). apply (get_ok false hash 0); auto. Qed.

Definition afs (s : lsys) (D : list (nat * nat)) : Prop := forall v, v < n ->
  AF (block_conn g (label_of (x_lab s))) v (fun v c => block_conn g (vw s D) v c - block_conn g (label_of (x_lab s)) v c)%Z (dl_extra (x_d s) v).

Lemma run_ok_delta lk es : forall T s D, ok T s D -> (T + N.of_nat (length (filter is_lclear es)) < 2 ^ 64)%N ->
  exists s' T', l_run g k hash cache lk es s = Some s' /\
    let r := fold_left (fun s e => lv_step n k e s) es (x_lab s, D) in
    x_lab s' = fst r /\ ok T' s' (snd r) /\
    (lk = true -> simple_graph g -> positive_edges g -> forallb (fun e => negb (is_xmove e)) es = true -> afs s D -> afs s' (snd r)).
Proof.
  induction es as [|e es IH]; intros T s D HO HT; cbn [l_run fold_left].
  - exists s, T. cbn. auto.
  - assert (Hskip : (T + N.of_nat (length (filter is_lclear es)) < 2 ^ 64)%N) by (cbn [filter] in HT; destruct (is_lclear e); cbn [length] in HT; lia).
    destruct e as [u b| |v c].
    + cbn [lv_step]. destruct ((u <? n) && (b <? k)) eqn:Eg.
      * apply Bool.andb_true_iff in Eg. destruct Eg as [E1 E2]. apply Nat.ltb_lt in E1, E2.
        destruct (lmove_ok T lk s D u b HO E1 E2) as (s1 & Es & El & HO1 & HA1). rewrite Es.
        destruct (IH T s1 _ HO1 Hskip) as (s2 & T2 & Er & Rl & Ro & Ra). rewrite El in *. exists s2, T2. split; auto. split; auto. split; auto.
        intros Hlk Hsim Hpos Hx HA. cbn [forallb is_xmove negb andb] in Hx. apply Ra; auto. intros v Hv. rewrite El. apply HA1; auto.
      * cbn [l_step]. rewrite Eg. destruct (IH T s D HO Hskip) as (s2 & T2 & Er & Rl & Ro & Ra). exists s2, T2. auto.
    + cbn [lv_step filter is_lclear length] in *. destruct (lclear_ok T lk s D HO ltac:(lia)) as (s1 & Es & El & HO1 & HA1). rewrite Es.
      destruct (IH (T + 1)%N s1 [] HO1 ltac:(lia)) as (s2 & T2 & Er & Rl & Ro & Ra). rewrite El in *. exists s2, T2. split; auto. split; auto. split; auto.
      intros Hlk Hsim Hpos Hx _. cbn [forallb is_xmove negb andb] in Hx. apply Ra; auto. intros v Hv. rewrite HA1. split; [constructor|]. split; [intros b []|].
      intros b Hb _ _. unfold vw, view. cbn [kl_get]. unfold label_of. lia.
    + cbn [lv_step]. destruct ((v <? n) && (c <? k) && _) eqn:Eg.
      * apply Bool.andb_true_iff in Eg. destruct Eg as [E1 E3]. apply Bool.andb_true_iff in E1. destruct E1 as [E1 E2]. apply Nat.ltb_lt in E1, E2.
        destruct (kl_get v D) eqn:Ek; [discriminate|].
        destruct (xmove_ok T lk s D v c HO E1 E2 Ek) as (s1 & Es & El & HO1). rewrite Es.
        destruct (IH T s1 _ HO1 Hskip) as (s2 & T2 & Er & Rl & Ro & Ra). rewrite El in *. exists s2, T2. split; auto. split; auto. split; auto.
        intros _ _ _ Hx. discriminate.
      * cbn [l_step]. rewrite (get_none_ok T s D v HO), Eg. destruct (IH T s D HO Hskip) as (s2 & T2 & Er & Rl & Ro & Ra). exists s2, T2.
        split; auto. split; auto. split; auto. intros _ _ _ Hx. discriminate.
Qed.
End P.
