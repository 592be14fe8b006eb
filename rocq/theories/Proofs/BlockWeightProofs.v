(* Proofs about Model/BlockWeightModel.v. *)
From Verif Require Import Lib.Prelude Spec.Graph Model.BlockWeightModel.
Local Open Scope Z_scope.

Definition lweight (vw : nat -> Z) (l : list nat) (b : nat) : Z :=
  sumn (length l) (fun u => if (nth u l 0 =? b)%nat then vw u else 0).

Definition ind (a b : nat) (d : Z) : Z := if (a =? b)%nat then d else 0.

Lemma lweight_upd vw l u to b : (u < length l)%nat ->
  lweight vw (upd u to l) b = lweight vw l b + ind to b (vw u) - ind (nth u l 0%nat) b (vw u).
Proof.
  intros Hu. unfold lweight. rewrite upd_length.
  rewrite (sumn_change (length l) u _ (fun u0 => if (nth u0 l 0 =? b)%nat then vw u0 else 0) Hu).
  - rewrite upd_nth_same by exact Hu. unfold ind. destruct (to =? b)%nat, (nth u l 0 =? b)%nat; lia.
  - intros i Hi Hne. rewrite upd_nth_other by lia. reflexivity.
Qed.

(** Weight that is in flight: what the stored weight of [b] has in excess of the nodes labelled [b]. *)
Definition pend (vw : nat -> Z) (b : nat) (t : pc) : Z :=
  match t with
  | WSub u from to => ind to b (vw u)
  | WStore u from to => ind to b (vw u) - ind from b (vw u)
  | BAdd u from to => - ind from b (vw u)
  | _ => 0
  end.

Definition pc_ok (m : mem) (t : pc) : Prop :=
  match t with
  | Idle => True
  | MLoad u f g _ | MTest u f g _ _ | MCas u f g _ _ | WSub u f g | WStore u f g
  | BSub u f g | BAdd u f g | LTest u f g _ | LAdd u f g =>
      (u < length (m_label m))%nat /\ nth u (m_label m) 0%nat = f /\
      (f < length (m_weight m))%nat /\ (g < length (m_weight m))%nat
  end.

Record sinv (vw : nat -> Z) (s : sys) : Prop := mkSinv {
  si_label : forall u, (u < length (m_label (s_mem s)))%nat ->
     (nth u (m_label (s_mem s)) 0%nat < length (m_weight (s_mem s)))%nat;
  si_pc : forall t, In t (s_threads s) -> pc_ok (s_mem s) t;
  si_own : forall i j u, (i < length (s_threads s))%nat -> (j < length (s_threads s))%nat ->
     pc_node (nth i (s_threads s) Idle) = Some u -> pc_node (nth j (s_threads s) Idle) = Some u -> i = j;
  si_weight : forall b, (b < length (m_weight (s_mem s)))%nat ->
     nth b (m_weight (s_mem s)) 0 = lweight vw (m_label (s_mem s)) b + zsum (map (pend vw b) (s_threads s)) }.

Lemma in_upd {A} i (x y : A) l : In y (upd i x l) -> y = x \/ In y l.
Proof. revert i; induction l as [|h l IH]; intros [|i]; simpl; intros H; auto; destruct H as [H|H]; auto.
       destruct (IH i H); auto. Qed.

Lemma map_upd {A B} (f : A -> B) i x l : map f (upd i x l) = upd i (f x) (map f l).
Proof. revert i; induction l as [|h l IH]; intros [|i]; simpl; auto. rewrite IH. reflexivity. Qed.

Lemma zsum_map_upd {A} (f : A -> Z) i x l d : (i < length l)%nat ->
  zsum (map f (upd i x l)) = zsum (map f l) - f (nth i l d) + f x.
Proof.
  intros H. rewrite map_upd, zsum_upd by (rewrite map_length; exact H).
  rewrite (nth_indep _ 0 (f d)) by (rewrite map_length; exact H). rewrite map_nth. lia.
Qed.

(** Labels and weight arrays keep their lengths; the label of a node changes only when its owner stores. *)
Lemma thread_step_mem vw t m t' m' : thread_step vw t m = Some (t', m') -> pc_ok m t ->
  length (m_label m') = length (m_label m) /\ length (m_weight m') = length (m_weight m) /\
  pc_ok m' t' /\ (t' = Idle \/ pc_node t' = pc_node t) /\
  (forall v, (forall u, pc_node t = Some u -> v <> u) -> nth v (m_label m') 0%nat = nth v (m_label m) 0%nat) /\
  (forall v, (v < length (m_label m))%nat -> (nth v (m_label m) 0 < length (m_weight m))%nat ->
     (nth v (m_label m') 0 < length (m_weight m))%nat) /\
  (forall b, (b < length (m_weight m))%nat ->
     nth b (m_weight m') 0 - lweight vw (m_label m') b - pend vw b t' =
     nth b (m_weight m) 0 - lweight vw (m_label m) b - pend vw b t).
Proof.
  intros Hs Hp. destruct t; cbn [thread_step pc_ok pc_node pend] in *; try discriminate.
  - injection Hs as <- <-. cbn [m_label m_weight pend pc_ok pc_node]. repeat (split; auto); intros; lia.
  - destruct (_ <=? _); injection Hs as <- <-; cbn [m_label m_weight pend pc_ok pc_node]; repeat (split; auto); intros; lia.
  - destruct (Z.eqb_spec (nth to (m_weight m) 0) nw) as [E|E]; injection Hs as <- <-; cbn [m_label m_weight pend pc_ok pc_node]; rewrite ?upd_length.
    + destruct Hp as (P1 & P2 & P3 & P4). repeat (split; auto).
      intros b Hb. rewrite upd_nth. unfold ind. destruct (Nat.eqb_spec to b) as [<-|]; cbn [andb]; [|lia].
      rewrite (proj2 (Nat.ltb_lt _ _)) by lia. lia.
    + repeat (split; auto); intros; lia.
  - injection Hs as <- <-. unfold add_weight. cbn [m_label m_weight pend pc_ok pc_node]. rewrite upd_length. destruct Hp as (P1 & P2 & P3 & P4).
    repeat (split; auto).
    intros b Hb. rewrite upd_nth. unfold ind. destruct (Nat.eqb_spec from b) as [<-|]; cbn [andb]; [|destruct (to =? b)%nat; lia].
    rewrite (proj2 (Nat.ltb_lt _ _)) by lia. destruct (to =? from)%nat; lia.
  - injection Hs as <- <-. cbn [m_label m_weight pend pc_ok pc_node]. rewrite upd_length. destruct Hp as (P1 & P2 & P3 & P4).
    split; [reflexivity|]. split; [reflexivity|]. split; [exact I|]. split; [left; reflexivity|]. split; [|split].
    + intros v Hv. apply upd_nth_other. intros ->. apply (Hv v eq_refl). reflexivity.
    + intros v Hv Hb. rewrite upd_nth. destruct (_ && _)%bool; lia.
    + intros b Hb. rewrite lweight_upd by exact P1. rewrite P2. lia.
  - injection Hs as <- <-. unfold add_weight. cbn [m_label m_weight pend pc_ok pc_node]. rewrite upd_length. destruct Hp as (P1 & P2 & P3 & P4).
    repeat (split; auto).
    intros b Hb. rewrite upd_nth. unfold ind. destruct (Nat.eqb_spec from b) as [<-|]; cbn [andb]; [|lia].
    rewrite (proj2 (Nat.ltb_lt _ _)) by lia. lia.
  - injection Hs as <- <-. unfold add_weight. cbn [m_label m_weight pend pc_ok pc_node]. rewrite upd_length. destruct Hp as (P1 & P2 & P3 & P4).
    repeat (split; auto).
    intros b Hb. rewrite upd_nth. unfold ind. destruct (Nat.eqb_spec to b) as [<-|]; cbn [andb]; [|destruct (from =? b)%nat; lia].
    rewrite (proj2 (Nat.ltb_lt _ _)) by lia. destruct (from =? to)%nat; lia.
  - destruct (_ <=? _); injection Hs as <- <-; cbn [m_label m_weight pend pc_ok pc_node]; repeat (split; auto); intros; lia.
  - injection Hs as <- <-. unfold add_weight. cbn [m_label m_weight pend pc_ok pc_node]. rewrite upd_length. destruct Hp as (P1 & P2 & P3 & P4).
    repeat (split; auto).
    intros b Hb. rewrite upd_nth. unfold ind. destruct (Nat.eqb_spec to b) as [<-|]; cbn [andb]; [|lia].
    rewrite (proj2 (Nat.ltb_lt _ _)) by lia. lia.
Qed.

Lemma pc_ok_other m m' t : length (m_label m') = length (m_label m) -> length (m_weight m') = length (m_weight m) ->
  (forall u, pc_node t = Some u -> nth u (m_label m') 0%nat = nth u (m_label m) 0%nat) -> pc_ok m t -> pc_ok m' t.
Proof.
  intros L1 L2 Hl. destruct t; cbn [pc_ok pc_node] in *; auto; intros (P1 & P2 & P3 & P4); rewrite L1, L2, Hl by reflexivity; auto.
Qed.

Lemma step_inv vw lim ops s s' : sys_step vw lim ops s s' -> sinv vw s ->
  sinv vw s' /\ length (m_label (s_mem s')) = length (m_label (s_mem s)) /\
  length (m_weight (s_mem s')) = length (m_weight (s_mem s)) /\ length (s_threads s') = length (s_threads s).
Proof.
  intros Hstep HI. destruct Hstep as [i o u to m ths Ho Hi Hid Hu Hto Hne Hfree|i m ths t' m' Hi Hs]; cbn [s_mem s_threads] in *.
  - pose proof HI as [I1 I2 I3 I4]. cbn [s_mem s_threads] in *.
    split; [|rewrite ?upd_length; auto]. constructor; cbn [s_mem s_threads].
    + exact I1.
    + intros t Ht. destruct (in_upd _ _ _ _ Ht) as [->|Ht']; [|apply I2; exact Ht'].
      destruct o; cbn; auto.
    + intros a b v. rewrite upd_length. intros Ha Hb. rewrite !upd_nth, (proj2 (Nat.ltb_lt i (length ths))) by exact Hi.
      rewrite !Bool.andb_true_r. destruct (Nat.eqb_spec i a) as [<-|Ea], (Nat.eqb_spec i b) as [<-|Eb]; auto.
      * intros E1 E2. exfalso. apply (Hfree (nth b ths Idle)); [apply nth_In; lia|].
        rewrite E2. destruct o; cbn in E1; exact (eq_sym E1).
      * intros E1 E2. exfalso. apply (Hfree (nth a ths Idle)); [apply nth_In; lia|].
        rewrite E1. destruct o; cbn in E2; exact (eq_sym E2).
      * intros E1 E2. apply (I3 a b v); assumption.
    + intros b Hb. rewrite I4 by exact Hb. rewrite (zsum_map_upd (pend vw b) i _ ths Idle Hi), Hid.
      destruct o; cbn; lia.
  - pose proof HI as [I1 I2 I3 I4]. cbn [s_mem s_threads] in *.
    assert (Hp : pc_ok m (nth i ths Idle)) by (apply I2, nth_In; exact Hi).
    destruct (thread_step_mem vw _ m t' m' Hs Hp) as (L1 & L2 & P & N & F & R & W).
    split; [|rewrite ?upd_length; auto]. constructor; cbn [s_mem s_threads].
    + intros v. rewrite L1, L2. intros Hv. apply R; auto.
    + intros t Ht. apply (In_nth _ _ Idle) in Ht. destruct Ht as (j & Hj & <-). rewrite upd_length in Hj.
      rewrite upd_nth. rewrite (proj2 (Nat.ltb_lt i (length ths))) by exact Hi. rewrite Bool.andb_true_r.
      destruct (Nat.eqb_spec i j) as [<-|Hij]; [exact P|].
      apply (pc_ok_other m); auto.
      * intros v Ev. apply F. intros u' Eu ->. apply Hij. apply (I3 i j u'); auto.
      * apply I2, nth_In. exact Hj.
    + intros a b v. rewrite upd_length. intros Ha Hb. rewrite !upd_nth, (proj2 (Nat.ltb_lt i (length ths))) by exact Hi.
      rewrite !Bool.andb_true_r. destruct (Nat.eqb_spec i a) as [<-|Ea], (Nat.eqb_spec i b) as [<-|Eb]; auto;
      intros E1 E2; apply (I3 _ _ v); auto; destruct N as [->|<-]; try discriminate; assumption.
    + intros b. rewrite L2. intros Hb. rewrite (zsum_map_upd (pend vw b) i _ ths Idle Hi).
      specialize (W b Hb). rewrite I4 in W by exact Hb. lia.
Qed.

Lemma steps_inv vw lim ops s s' : sys_steps vw lim ops s s' -> sinv vw s ->
  sinv vw s' /\ length (m_label (s_mem s')) = length (m_label (s_mem s)) /\
  length (m_weight (s_mem s')) = length (m_weight (s_mem s)) /\ length (s_threads s') = length (s_threads s).
Proof.
  induction 1 as [s|s s1 s2 H IH H2]; intros HI; [auto|].
  destruct (IH HI) as (I1 & A & B & C). destruct (step_inv _ _ _ _ _ H2 I1) as (I2 & A' & B' & C').
  split; [exact I2|]. rewrite A', B', C'. auto.
Qed.

Lemma pend_idle vw b ths : (forall t, In t ths -> t = Idle) -> zsum (map (pend vw b) ths) = 0.
Proof. intros H. rewrite (zsum_map_ext _ (fun _ => 0)); [apply zsum_map_0|]. intros t Ht. rewrite (H t Ht). reflexivity. Qed.

Definition weights_exact (vw : nat -> Z) (m : mem) : Prop :=
  (forall u, (u < length (m_label m))%nat -> (nth u (m_label m) 0 < length (m_weight m))%nat) /\
  forall b, (b < length (m_weight m))%nat -> nth b (m_weight m) 0 = lweight vw (m_label m) b.

Lemma init_inv vw s : quiescent s -> weights_exact vw (s_mem s) -> sinv vw s.
Proof.
  intros Hq [H1 H2]. constructor; auto.
  - intros t Ht. rewrite (Hq t Ht). exact I.
  - intros i j u Hi Hj E. rewrite (Hq _ (nth_In _ Idle Hi)) in E. discriminate.
  - intros b Hb. rewrite H2, pend_idle by assumption. lia.
Qed.

Lemma exact_at_quiescence vw lim ops s s' : sys_steps vw lim ops s s' -> quiescent s ->
  weights_exact vw (s_mem s) -> quiescent s' -> weights_exact vw (s_mem s').
Proof.
  intros Hs Hq He Hq'. destruct (steps_inv _ _ _ _ _ Hs (init_inv vw s Hq He)) as (HI & _). destruct HI as [I1 I2 I3 I4].
  split; [exact I1|]. intros b Hb. rewrite I4, pend_idle by assumption. lia.
Qed.

(** Limits. *)
Definition slack (vw : nat -> Z) (b : nat) (t : pc) : Z :=
  match t with LAdd u _ to => ind to b (vw u) | _ => 0 end.

Definition limits_ok (vw lim : nat -> Z) (ops : opkind -> Prop) (t : pc) : Prop :=
  match t with
  | MLoad _ _ to mx | MTest _ _ to mx _ => mx = lim to
  | MCas u _ to mx nw => mx = lim to /\ nw + vw u <= lim to
  | LTest _ _ to mx => mx = lim to /\ ops OpCluster
  | LAdd _ _ _ => ops OpCluster
  | BSub _ _ _ | BAdd _ _ _ => False
  | _ => True
  end.

Lemma others_bound {A} (f : A -> Z) M l d : 0 <= M -> (forall x, In x l -> 0 <= f x <= M) -> forall i, (i < length l)%nat ->
  zsum (map f l) <= (Z.of_nat (length l) - 1) * M + f (nth i l d).
Proof.
  intros HM.
  assert (Hall : forall l', (forall x, In x l' -> 0 <= f x <= M) -> zsum (map f l') <= Z.of_nat (length l') * M).
  { induction l' as [|x l' IH]; intros Hf; cbn [map zsum length]; [lia|]. destruct (Hf x (or_introl eq_refl)).
    specialize (IH (fun y Hy => Hf y (or_intror Hy))). lia. }
  induction l as [|x l IH]; intros Hf i Hi; [cbn in Hi; lia|]. cbn [map zsum length] in *.
  replace (Z.of_nat (S (length l)) - 1) with (Z.of_nat (length l)) by lia.
  destruct i as [|i]; cbn [nth].
  - specialize (Hall l (fun y Hy => Hf y (or_intror Hy))). lia.
  - specialize (IH (fun y Hy => Hf y (or_intror Hy)) i ltac:(lia)). destruct (Hf x (or_introl eq_refl)). rewrite Z.mul_sub_distr_r in IH. lia.
Qed.

Section Limit.
Context (vw lim : nat -> Z) (ops : opkind -> Prop) (M E : Z) (T n : nat).
Context (HM : 0 <= M) (Hvw : forall u, (u < n)%nat -> 0 <= vw u <= M) (Hset : ~ ops OpSetBlock).
Context (HE : (ops OpCluster -> E = (Z.of_nat T - 1) * M) /\ 0 <= E).

Definition thread_ok (t : pc) : Prop := limits_ok vw lim ops t /\ forall u, pc_node t = Some u -> (u < n)%nat.

Lemma slack_range b t : thread_ok t -> 0 <= slack vw b t <= M.
Proof.
  intros [_ H]. destruct t; cbn [slack]; try lia. unfold ind. destruct (Hvw u (H u eq_refl)), (to =? b)%nat; lia.
Qed.

(** What the other threads can still add. *)
Lemma slack_others b ths i : length ths = T -> (i < T)%nat -> (forall t, In t ths -> thread_ok t) ->
  zsum (map (slack vw b) ths) <= E + slack vw b (nth i ths Idle).
Proof.
  intros HL Hi Hok. destruct HE as [HE1 HE2].
  assert (D : ops OpCluster \/ zsum (map (slack vw b) ths) = 0).
  { clear Hi HL. induction ths as [|t ths IH]; [right; reflexivity|].
    destruct IH as [IH|IH]; [intros t' Ht'; apply Hok; right; exact Ht'|left; exact IH|].
    destruct (Hok t (or_introl eq_refl)) as [Ht _]. destruct t; cbn [limits_ok] in Ht; try (right; cbn [map zsum slack]; lia).
    left; exact Ht. }
  destruct D as [D|D].
  - rewrite (HE1 D), <- HL. apply others_bound; [exact HM|intros x Hx; apply slack_range, Hok, Hx|lia].
  - rewrite D. assert (Hi2 : (i < length ths)%nat) by lia. pose proof (slack_range b (nth i ths Idle) (Hok _ (nth_In ths Idle Hi2))). lia.
Qed.

Definition linv (w0 : nat -> Z) (s : sys) : Prop :=
  length (s_threads s) = T /\ length (m_label (s_mem s)) = n /\ (forall t, In t (s_threads s) -> thread_ok t) /\
  forall b, nth b (m_weight (s_mem s)) 0 + zsum (map (slack vw b) (s_threads s)) <= Z.max (w0 b) (lim b + E).

Lemma step_linv w0 s s' : sys_step vw lim ops s s' -> linv w0 s -> linv w0 s'.
Proof.
  intros Hstep (HL & HN & Hok & Hw). destruct Hstep as [i o u to m ths Ho Hi Hid Hu Hto Hne Hfree|i m ths t' m' Hi Hs]; cbn [s_mem s_threads] in *.
  - split; [cbn; rewrite upd_length; exact HL|]. split; [exact HN|]. split.
    + intros t Ht. destruct (in_upd _ _ _ _ Ht) as [->|Ht']; [|apply Hok; exact Ht'].
      split; [destruct o; cbn; auto|]. intros v. destruct o; cbn; intros [= <-]; lia.
    + intros b. cbn [s_mem s_threads]. rewrite (zsum_map_upd (slack vw b) i _ ths Idle Hi), Hid. specialize (Hw b).
      destruct o; cbn [start_pc slack]; lia.
  - destruct (Hok _ (nth_In ths Idle Hi)) as [Hp Hpn].
    assert (Ho : forall b, zsum (map (slack vw b) ths) <= E + slack vw b (nth i ths Idle)).
    { intros b. apply slack_others; auto. lia. }
    assert (K : (limits_ok vw lim ops t' /\ (forall u, pc_node t' = Some u -> (u < n)%nat) /\ length (m_label m') = length (m_label m)) /\
      forall b, nth b (m_weight m') 0 + slack vw b t' - slack vw b (nth i ths Idle) + zsum (map (slack vw b) ths) <= Z.max (w0 b) (lim b + E)).
    { destruct (nth i ths Idle) as [|u f g mx|u f g mx nw|u f g mx nw|u f g|u f g|u f g|u f g|u f g mx|u f g];
        cbn [thread_step limits_ok pc_node] in *; try discriminate; try contradiction; pose proof (Hvw u (Hpn u eq_refl)) as Hvu.
      - injection Hs as <- <-. split; [auto|]. intros b. specialize (Hw b). cbn. lia.
      - destruct (Z.leb_spec (nw + vw u) mx); injection Hs as <- <-; (split; [cbn; subst; auto; repeat (split; auto); discriminate|]); intros b; specialize (Hw b); cbn [slack]; lia.
      - destruct (Z.eqb_spec (nth g (m_weight m) 0) nw) as [E1|E1]; injection Hs as <- <-; cbn [limits_ok m_weight m_label slack pc_node].
        + split; [auto|]. intros b. rewrite upd_nth. specialize (Hw b). specialize (Ho b). cbn [slack] in Ho.
          destruct (Nat.eqb_spec g b) as [<-|]; cbn [andb]; [|lia]. destruct (_ <? _)%nat; lia.
        + split; [tauto|]. intros b. specialize (Hw b). lia.
      - injection Hs as <- <-. split; [cbn; auto|]. intros b. cbn [add_weight m_weight slack]. rewrite upd_nth.
        specialize (Hw b). destruct (Nat.eqb_spec f b) as [<-|]; cbn [andb]; [|lia]. destruct (_ <? _)%nat; lia.
      - injection Hs as <- <-. split; [cbn [limits_ok pc_node m_label]; rewrite upd_length; repeat (split; auto); discriminate|]. intros b. cbn [m_weight slack]. specialize (Hw b). lia.
      - destruct (Z.leb_spec (nth g (m_weight m) 0 + vw u) mx) as [Hle|Hle]; injection Hs as <- <-; cbn [limits_ok slack pc_node].
        + split; [tauto|]. intros b. specialize (Hw b). specialize (Ho b). cbn [slack] in Ho. unfold ind.
          destruct (Nat.eqb_spec g b) as [<-|]; destruct Hp as [-> _]; lia.
        + split; [repeat (split; auto); discriminate|]. intros b. specialize (Hw b). lia.
      - injection Hs as <- <-. split; [cbn; auto|]. intros b. cbn [add_weight m_weight slack]. rewrite upd_nth. unfold ind.
        specialize (Hw b). destruct (Nat.eqb_spec g b) as [<-|]; cbn [andb]; [|lia]. destruct (_ <? _)%nat; lia. }
    destruct K as [(K1 & K1n & K1l) K2]. split; [cbn; rewrite upd_length; exact HL|]. split; [cbn [s_mem]; congruence|]. split; cbn [s_mem s_threads].
    + intros t Ht. destruct (in_upd _ _ _ _ Ht) as [->|Ht']; [split|]; auto.
    + intros b. rewrite (zsum_map_upd (slack vw b) i _ ths Idle Hi). specialize (K2 b). lia.
Qed.

Lemma steps_linv w0 s s' : sys_steps vw lim ops s s' -> linv w0 s -> linv w0 s'.
Proof. induction 1; auto. intros. eapply step_linv; eauto. Qed.

Lemma limit_bound s s' b : sys_steps vw lim ops s s' -> quiescent s -> length (s_threads s) = T -> length (m_label (s_mem s)) = n ->
  nth b (m_weight (s_mem s')) 0 <= Z.max (nth b (m_weight (s_mem s)) 0) (lim b + E).
Proof.
  intros Hs Hq HL HN.
  assert (HI : linv (fun b => nth b (m_weight (s_mem s)) 0) s).
  { split; [exact HL|]. split; [exact HN|]. split; [intros t Ht; rewrite (Hq t Ht); split; [exact I|discriminate]|].
    intros b'. rewrite (zsum_map_ext _ (fun _ => 0)), zsum_map_0; [lia|]. intros t Ht. rewrite (Hq t Ht). reflexivity. }
  destruct (steps_linv _ _ _ Hs HI) as (_ & _ & Hok & H). specialize (H b).
  assert (0 <= zsum (map (slack vw b) (s_threads s'))).
  { apply zsum_nonneg. intros x Hx. apply in_map_iff in Hx. destruct Hx as (t & <- & Ht). apply slack_range, Hok, Ht. }
  lia.
Qed.
End Limit.

Lemma exact_iff g m : length (m_label m) = gn g ->
  (weights_exact (gvw g) m <-> exact_block_weights g (m_label m) (m_weight m)).
Proof.
  intros HL. unfold weights_exact, exact_block_weights, lweight, block_weight. rewrite HL. tauto.
Qed.

Lemma conc_exact g lim ops s s' : sys_steps (gvw g) lim ops s s' -> quiescent s -> quiescent s' ->
  exact_block_weights g (m_label (s_mem s)) (m_weight (s_mem s)) ->
  exact_block_weights g (m_label (s_mem s')) (m_weight (s_mem s')) /\ length (m_weight (s_mem s')) = length (m_weight (s_mem s)).
Proof.
  intros Hs Hq Hq' He. pose proof (proj1 He) as HL. apply exact_iff in He; [|exact HL].
  destruct (steps_inv _ _ _ _ _ Hs (init_inv _ s Hq He)) as (_ & L1 & L2 & _).
  split; [|exact L2]. apply exact_iff; [congruence|]. exact (exact_at_quiescence _ _ _ _ _ Hs Hq He Hq').
Qed.

Lemma bounded_weights (f : nat -> Z) n : exists M, 0 <= M /\ forall u, (u < n)%nat -> f u <= M.
Proof.
  induction n as [|n (M & HM & H)]; [exists 0; split; [lia|lia]|].
  exists (Z.max M (f n)). split; [lia|]. intros u Hu. destruct (Nat.eq_dec u n) as [->|]; [lia|]. specialize (H u ltac:(lia)). lia.
Qed.

Lemma conc_move_limit g lim s s' : sys_steps (gvw g) lim (fun o => o = OpMove) s s' -> quiescent s ->
  length (m_label (s_mem s)) = gn g -> (forall u, (u < gn g)%nat -> 0 <= gvw g u) ->
  forall b, nth b (m_weight (s_mem s')) 0 <= Z.max (nth b (m_weight (s_mem s)) 0) (lim b).
Proof.
  intros Hs Hq HN Hv b. rewrite <- (Z.add_0_r (lim b)). destruct (bounded_weights (gvw g) (gn g)) as (M & HM & Hb).
  apply (limit_bound (gvw g) lim (fun o => o = OpMove) M 0 (length (s_threads s)) (gn g)); auto; try discriminate.
  split; [discriminate|lia].
Qed.

Lemma conc_cluster_limit g lim M s s' : sys_steps (gvw g) lim (fun o => o = OpCluster) s s' -> quiescent s ->
  length (m_label (s_mem s)) = gn g -> 0 <= M -> (forall u, (u < gn g)%nat -> 0 <= gvw g u <= M) -> (1 <= length (s_threads s))%nat ->
  forall b, nth b (m_weight (s_mem s')) 0 <=
    Z.max (nth b (m_weight (s_mem s)) 0) (lim b + (Z.of_nat (length (s_threads s)) - 1) * M).
Proof.
  intros Hs Hq HN HM Hv HT b.
  apply (limit_bound (gvw g) lim (fun o => o = OpCluster) M _ (length (s_threads s)) (gn g)); auto; try discriminate.
  split; [auto|]. apply Z.mul_nonneg_nonneg; lia.
Qed.

(** Initialisation. *)
Lemma local_weights_spec vw label k nodes : (forall u, In u nodes -> (nth u label 0 < k)%nat) ->
  forall ws, length ws = k -> forall b, (b < k)%nat ->
  nth b (fold_left (fun ws u => upd (nth u label 0%nat) (nth (nth u label 0%nat) ws 0 + vw u) ws) nodes ws) 0 =
  nth b ws 0 + zsum (map (fun u => if (nth u label 0 =? b)%nat then vw u else 0) nodes).
Proof.
  induction nodes as [|u nodes IH]; intros Hn ws HL b Hb; [cbn; lia|]. cbn [fold_left map zsum].
  rewrite IH; [|intros v Hv; apply Hn; right; exact Hv|rewrite upd_length; exact HL|exact Hb].
  rewrite upd_nth. specialize (Hn u (or_introl eq_refl)).
  destruct (Nat.eqb_spec (nth u label 0%nat) b) as [E|E]; cbn [andb]; [|lia].
  rewrite (proj2 (Nat.ltb_lt _ _)) by lia. rewrite E. lia.
Qed.

Lemma local_weights_nth vw label k nodes b : (forall u, In u nodes -> (nth u label 0 < k)%nat) -> (b < k)%nat ->
  nth b (local_weights vw label k nodes) 0 = zsum (map (fun u => if (nth u label 0 =? b)%nat then vw u else 0) nodes).
Proof.
  intros Hn Hb. unfold local_weights. rewrite (local_weights_spec vw label k nodes Hn) by (rewrite ?repeat_length; auto).
  rewrite nth_repeat. lia.
Qed.

Lemma init_seq_exact g label k order : length label = gn g -> (forall u, (u < gn g)%nat -> (nth u label 0 < k)%nat) ->
  Permutation order (seq 0 (gn g)) -> exact_block_weights g label (init_weights_seq (gvw g) label k order).
Proof.
  intros HL Hk HP.
  assert (Hn : forall u, In u order -> (nth u label 0 < k)%nat).
  { intros u Hu. apply Hk. apply (Permutation_in _ HP) in Hu. apply in_seq in Hu. lia. }
  assert (Hlen : length (init_weights_seq (gvw g) label k order) = k).
  { unfold init_weights_seq, local_weights. assert (G : forall o ws, length (fold_left (fun ws u => upd (nth u label 0%nat) (nth (nth u label 0%nat) ws 0 + gvw g u) ws) o ws) = length ws).
    { induction o as [|u o IH]; intros ws; [reflexivity|]. cbn [fold_left]. rewrite IH. apply upd_length. }
    rewrite G. apply repeat_length. }
  split; [exact HL|]. rewrite Hlen. split; [exact Hk|].
  intros b Hb. unfold init_weights_seq. rewrite local_weights_nth by assumption.
  unfold block_weight, sumn. apply zsum_perm, Permutation_map, HP.
Qed.

Lemma init_par_exact g label k chunks : length label = gn g -> (forall u, (u < gn g)%nat -> (nth u label 0 < k)%nat) ->
  Permutation (concat chunks) (seq 0 (gn g)) -> exact_block_weights g label (init_weights_par (gvw g) label k chunks).
Proof.
  intros HL Hk HP. unfold exact_block_weights, init_weights_par. rewrite map_length, seq_length.
  split; [exact HL|]. split; [exact Hk|]. intros b Hb.
  rewrite (nth_indep _ 0 (zsum (map (fun nodes => nth 0 (local_weights (gvw g) label k nodes) 0) chunks))) by (rewrite map_length, seq_length; exact Hb).
  rewrite (map_nth (fun b => zsum (map (fun nodes => nth b (local_weights (gvw g) label k nodes) 0) chunks))).
  rewrite seq_nth by exact Hb. cbn [Nat.add].
  rewrite (zsum_map_ext _ (fun nodes => zsum (map (fun u => if (nth u label 0 =? b)%nat then gvw g u else 0) nodes))).
  - rewrite <- (map_map (map (fun u => if (nth u label 0 =? b)%nat then gvw g u else 0)) zsum), <- zsum_concat, <- concat_map.
    unfold block_weight, sumn. apply zsum_perm, Permutation_map, HP.
  - intros nodes Hin. apply local_weights_nth; [|exact Hb]. intros u Hu. apply Hk.
    assert (Hi : In u (concat chunks)) by (apply in_concat; eauto). apply (Permutation_in _ HP) in Hi. apply in_seq in Hi. lia.
Qed.

(** Running a given schedule: [inl (i, ...)] starts an operation, [inr i] lets thread [i] step. *)
Definition sched := list ((nat * opkind * nat * nat) + nat).
Fixpoint run_sched (vw lim : nat -> Z) (sc : sched) (s : sys) : option sys :=
  match sc with
  | [] => Some s
  | inl (i, o, u, to) :: sc' =>
      if ((i <? length (s_threads s)) && (u <? length (m_label (s_mem s))) && (to <? length (m_weight (s_mem s))) &&
          negb (nth u (m_label (s_mem s)) 0 =? to) &&
          match nth i (s_threads s) Idle with Idle => true | _ => false end &&
          forallb (fun t => match pc_node t with Some v => negb (v =? u) | None => true end) (s_threads s))%nat%bool
      then run_sched vw lim sc' (mkSys (s_mem s) (upd i (start_pc o u (nth u (m_label (s_mem s)) 0%nat) to (lim to)) (s_threads s)))
      else None
  | inr i :: sc' =>
      if (i <? length (s_threads s))%nat then
        match thread_step vw (nth i (s_threads s) Idle) (s_mem s) with
        | Some (t', m') => run_sched vw lim sc' (mkSys m' (upd i t' (s_threads s)))
        | None => None
        end
      else None
  end.

Lemma sys_steps_front vw lim ops s s1 s2 : sys_step vw lim ops s s1 -> sys_steps vw lim ops s1 s2 -> sys_steps vw lim ops s s2.
Proof. intros H H2. induction H2; [eapply ss_trans; [apply ss_refl|exact H]|]. eapply ss_trans; eauto. Qed.

Lemma run_sched_steps vw lim (ops : opkind -> Prop) sc : (forall i o u to, In (inl (i, o, u, to)) sc -> ops o) -> forall s s',
  run_sched vw lim sc s = Some s' -> sys_steps vw lim ops s s'.
Proof.
  induction sc as [|[[[[i o] u] to]|i] sc IH]; intros Hops s s' H; cbn [run_sched] in H.
  - injection H as <-. apply ss_refl.
  - destruct (_ && _)%bool eqn:E; [|discriminate].
    rewrite !Bool.andb_true_iff in E. destruct E as (((((E1 & E2) & E3) & E4) & E5) & E6).
    apply Nat.ltb_lt in E1, E2, E3. apply Bool.negb_true_iff, Nat.eqb_neq in E4.
    destruct s as [m ths]. cbn [s_mem s_threads] in *.
    apply (sys_steps_front _ _ _ _ (mkSys m (upd i (start_pc o u (nth u (m_label m) 0%nat) to (lim to)) ths))).
    + apply ss_start; auto.
      * apply (Hops i o u to). left. reflexivity.
      * destruct (nth i ths Idle); try discriminate. reflexivity.
      * intros t Ht Et. rewrite forallb_forall in E6. specialize (E6 t Ht). rewrite Et, Nat.eqb_refl in E6. discriminate.
    + apply IH; [intros; eapply Hops; right; eauto|exact H].
  - destruct (Nat.ltb_spec i (length (s_threads s))) as [Hi|]; [|discriminate].
    destruct (thread_step _ _ _) as [[t' m']|] eqn:E; [|discriminate]. destruct s as [m ths]. cbn [s_mem s_threads] in *.
    apply (sys_steps_front _ _ _ _ (mkSys m' (upd i t' ths))).
    + apply ss_run; assumption.
    + apply IH; [intros; eapply Hops; right; eauto|exact H].
Qed.
