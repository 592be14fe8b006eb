(* Concurrent moves: what is in the cache plus what is still outstanding is the connection in the current partition. *)
From Verif Require Import Lib.Prelude Spec.Graph Spec.Gain Model.GainModel Proofs.GraphFacts Proofs.GainBase.

Lemma upd_split_at {A} (d : A) t l : t < length l ->
  exists l1 l2, l = l1 ++ nth t l d :: l2 /\ length l1 = t /\ forall x, upd t x l = l1 ++ x :: l2.
Proof.
  revert t. induction l as [|a l IH]; intros t Ht; cbn [length] in Ht; [lia|]. destruct t as [|t].
  - exists [], l. split; [reflexivity|]. split; [reflexivity|]. reflexivity.
  - destruct (IH t ltac:(lia)) as (l1 & l2 & E & HL & HU). exists (a :: l1), l2. cbn [nth app length].
    split; [f_equal; exact E|]. split; [lia|]. intros x. change (upd (S t) x (a :: l)) with (a :: upd t x l).
    rewrite HU. reflexivity.
Qed.
Lemma concat_upd_nil {A} t (x : list A) l : t < length l -> nth t l [] = [] ->
  Permutation (concat (upd t x l)) (x ++ concat l).
Proof.
  intros Ht E. destruct (upd_split_at [] t l Ht) as (l1 & l2 & El & _ & Eu). rewrite Eu.
  rewrite El at 1. rewrite E, !concat_app. cbn [concat app].
  rewrite !app_assoc. apply Permutation_app_tail, Permutation_app_comm.
Qed.
Lemma concat_upd_cons {A} t (m : A) r l : nth t l [] = m :: r ->
  Permutation (concat l) (m :: concat (upd t r l)).
Proof.
  intros E. assert (Ht : t < length l).
  { destruct (Nat.lt_ge_cases t (length l)); auto. rewrite nth_overflow in E by auto. discriminate. }
  destruct (upd_split_at [] t l Ht) as (l1 & l2 & El & _ & Eu). rewrite Eu. rewrite El at 1. rewrite E, !concat_app.
  cbn [concat app]. symmetry. apply Permutation_middle.
Qed.

Definition effect (m : micro) (v b : nat) : Z :=
  if m_dst m =? v then
    ((match m_inc m with Some x => if Nat.eqb x b then m_w m else 0 | None => 0 end) -
     (match m_dec m with Some x => if Nat.eqb x b then m_w m else 0 | None => 0 end))%Z
  else 0%Z.
Definition peff (L : list micro) (v b : nat) : Z := zsum (map (fun m => effect m v b) L).
Lemma peff_perm L L' v b : Permutation L L' -> peff L v b = peff L' v b.
Proof. intros H. apply zsum_perm, Permutation_map, H. Qed.
Lemma peff_app L L' v b : peff (L ++ L') v b = (peff L v b + peff L' v b)%Z.
Proof. unfold peff. rewrite map_app, zsum_app. reflexivity. Qed.
Lemma peff_none L v b : (forall m, In m L -> m_dst m <> v) -> peff L v b = 0%Z.
Proof.
  intros H. unfold peff. rewrite (zsum_map_ext _ (fun _ => 0%Z)), zsum_map_0; auto. intros m Hm. unfold effect.
  destruct (Nat.eqb_spec (m_dst m) v); auto. exfalso. eapply H; eauto.
Qed.

Section Sys.
Variables (g : graph) (k : nat).
Hypothesis (Hc : closed_graph g) (Hs : undirected g).
Variable Mem : Type.
Variable expand : nat -> nat -> nat -> nat -> Z -> list micro.
Variable apply : micro -> Mem -> option Mem.
Hypothesis expand_eff : forall u v a b w x c,
  peff (expand u v a b w) x c = if v =? x then ((if Nat.eqb b c then w else 0) - (if Nat.eqb a c then w else 0))%Z else 0%Z.
Hypothesis expand_wf : forall u v a b w m, In m (expand u v a b w) ->
  m_src m = u /\ m_dst m = v /\ m_w m = w /\ (m_dec m = None \/ m_dec m = Some a) /\ (m_inc m = None \/ m_inc m = Some b).

Notation sys := (gsys Mem).
Notation bag s := (concat (s_pend (Mem := Mem) s)).
Definition expected (s : sys) (v b : nat) : Z := (block_conn g (label_of (s_lab s)) v b - peff (bag s) v b)%Z.

Definition micro_ok (lab : list nat) (m : micro) : Prop :=
  m_src m < gn g /\ m_dst m < gn g /\ In (m_dst m, m_w m) (gadj g (m_src m)) /\
  (forall a, m_dec m = Some a -> a < k) /\ (forall b, m_inc m = Some b -> b = label_of lab (m_src m)).
Definition sys_ok (s : sys) : Prop := labels_ok g k (s_lab s) /\ forall m, In m (bag s) -> micro_ok (s_lab s) m.

Lemma src_idle_spec u (s : sys) : src_idle u s = true -> forall m, In m (bag s) -> m_src m <> u.
Proof.
  intros H m Hm. apply in_concat in Hm. destruct Hm as (p & Hp & Hm).
  apply (proj1 (forallb_forall _ _) H) in Hp. apply (proj1 (forallb_forall _ _) Hp) in Hm.
  apply Bool.negb_true_iff, Nat.eqb_neq in Hm. exact Hm.
Qed.
Lemma dst_idle_spec u (s : sys) : dst_idle u s = true -> forall m, In m (bag s) -> m_dst m <> u.
Proof.
  intros H m Hm. apply in_concat in Hm. destruct Hm as (p & Hp & Hm).
  apply (proj1 (forallb_forall _ _) H) in Hp. apply (proj1 (forallb_forall _ _) Hp) in Hm.
  apply Bool.negb_true_iff, Nat.eqb_neq in Hm. exact Hm.
Qed.

Lemma label_upd lab u b : length lab = gn g -> u < gn g ->
  forall x, label_of (upd u b lab) x = relabel (label_of lab) u b x.
Proof.
  intros HL Hu x. unfold label_of, relabel. destruct (Nat.eqb_spec x u) as [->|Hne].
  - apply upd_nth_same. lia.
  - apply upd_nth_other. auto.
Qed.

(** The updates of a whole move. *)
Lemma peff_move u a b v c : closed_graph g -> u < gn g ->
  peff (flat_map (fun e => expand u (fst e) a b (snd e)) (gadj g u)) v c =
  ((if Nat.eqb b c then conn g u v else 0) - (if Nat.eqb a c then conn g u v else 0))%Z.
Proof.
  intros _ Hu. unfold conn. induction (gadj g u) as [|[x w] l IH]; cbn [flat_map map filter fst snd].
  - cbn. destruct (b =? c), (a =? c); reflexivity.
  - rewrite peff_app, IH, expand_eff. destruct (x =? v); cbn [map zsum snd]; destruct (b =? c), (a =? c); lia.
Qed.

(** One event: a move leaves the expected contents as they are, an update changes them by its effect. *)
Inductive shape : sys -> sys -> Prop :=
| Sh_skip s : shape s s
| Sh_move s u b t : u < gn g -> b < k -> t < length (s_pend s) -> nth t (s_pend s) [] = [] ->
    (forall m, In m (bag s) -> m_src m <> u) ->
    shape s {| s_lab := upd u b (s_lab s); s_mem := s_mem s;
               s_pend := upd t (flat_map (fun e => expand u (fst e) (nth u (s_lab s) 0) b (snd e)) (gadj g u)) (s_pend s) |}
| Sh_tick s m rest t mem : nth t (s_pend s) [] = m :: rest -> apply m (s_mem s) = Some mem ->
    shape s {| s_lab := s_lab s; s_mem := mem; s_pend := upd t rest (s_pend s) |}.

Lemma step_shape e s : (exists s', g_step g k Mem expand apply e s = Some s' /\ shape s s') \/
  (exists t m rest, nth t (s_pend s) [] = m :: rest /\ apply m (s_mem s) = None /\ g_step g k Mem expand apply e s = None).
Proof.
  destruct e as [t u b|t]; cbn [g_step].
  - left. destruct (_ && _) eqn:E.
    + rewrite !Bool.andb_true_iff in E. destruct E as [[[[E1 E2] E3] E4] E5].
      apply Nat.ltb_lt in E1, E2, E3. eexists. split; [reflexivity|].
      apply Sh_move with (t := t); auto.
      * destruct (nth t (s_pend s) []); [reflexivity|discriminate].
      * apply src_idle_spec; auto.
    + exists s. split; [auto|constructor].
  - destruct (nth t (s_pend s) []) as [|m rest] eqn:E.
    + left. exists s. split; [auto|constructor].
    + destruct (apply m (s_mem s)) as [mem|] eqn:Ea.
      * left. eexists. split; [reflexivity|]. eapply Sh_tick; eauto.
      * right. exists t, m, rest. auto.
Qed.

Lemma move_micro_in m u a b : In m (flat_map (fun e => expand u (fst e) a b (snd e)) (gadj g u)) ->
  exists v w, In (v, w) (gadj g u) /\ m_src m = u /\ m_dst m = v /\ m_w m = w /\
    (m_dec m = None \/ m_dec m = Some a) /\ (m_inc m = None \/ m_inc m = Some b).
Proof.
  intros H. apply in_flat_map in H. destruct H as ([v w] & Hin & Hm). cbn [fst snd] in Hm.
  exists v, w. split; auto.
Qed.

Lemma shape_ok s s' : shape s s' -> sys_ok s -> sys_ok s'.
Proof.
  intros H [HL HM]. destruct H as [s|s u b t Hu Hb Ht He Hi|s m rest t mem He Ha].
  - split; auto.
  - destruct HL as [HL1 HL2]. split; cbn [s_lab s_pend].
    + split; [rewrite upd_length; auto|]. intros x Hx. rewrite label_upd by auto. unfold relabel.
      destruct (x =? u); auto.
    + intros m Hm. apply (Permutation_in m (concat_upd_nil t _ _ Ht He)) in Hm. apply in_app_iff in Hm.
      destruct Hm as [Hm|Hm].
      * apply move_micro_in in Hm. destruct Hm as (v & w & Hin & E1 & E2 & E3 & E4 & E5).
        unfold micro_ok. rewrite E1, E2, E3. split; auto. split; [eapply Hc; eauto|]. split; auto. split.
        -- intros x Hx. destruct E4 as [E|E]; rewrite E in Hx; [discriminate|]. injection Hx as <-. apply HL2; auto.
        -- intros x Hx. rewrite label_upd by auto. unfold relabel. rewrite Nat.eqb_refl.
           destruct E5 as [E|E]; rewrite E in Hx; [discriminate|]. injection Hx as <-. auto.
      * destruct (HM m Hm) as (H1 & H2 & H3 & H4 & H5). unfold micro_ok. do 4 (split; auto).
        intros x Hx. rewrite label_upd by auto. unfold relabel. specialize (Hi m Hm).
        destruct (Nat.eqb_spec (m_src m) u); [contradiction|]. auto.
  - split; cbn [s_lab s_pend]; auto. intros x Hx. apply HM.
    apply (Permutation_in x (Permutation_sym (concat_upd_cons t m rest _ He))). right. auto.
Qed.

Lemma expected_move s u b t : u < gn g -> b < k -> t < length (s_pend s) -> nth t (s_pend s) [] = [] -> sys_ok s ->
  forall v c, v < gn g ->
  expected {| s_lab := upd u b (s_lab s); s_mem := s_mem s;
              s_pend := upd t (flat_map (fun e => expand u (fst e) (nth u (s_lab s) 0) b (snd e)) (gadj g u)) (s_pend s) |} v c
  = expected s v c.
Proof.
  intros Hu Hb Ht He [[HL1 HL2] HM] v c Hv. unfold expected. cbn [s_lab s_pend].
  rewrite (peff_perm _ _ v c (concat_upd_nil t _ _ Ht He)), peff_app, peff_move by auto.
  rewrite (block_conn_ext g (label_of (upd u b (s_lab s))) (relabel (label_of (s_lab s)) u b))
    by (auto; intros; apply label_upd; auto).
  rewrite block_conn_relabel by auto. rewrite (Hs v u) by auto. unfold label_of at 2. lia.
Qed.
Lemma expected_tick s m rest t mem : nth t (s_pend s) [] = m :: rest ->
  forall v c, expected {| s_lab := s_lab s; s_mem := mem; s_pend := upd t rest (s_pend s) |} v c
  = (expected s v c + effect m v c)%Z.
Proof using Type. clear expand_wf expand_eff. clear apply expand. clear Hc Hs k.
  intros He v c. unfold expected. cbn [s_lab s_pend].
  rewrite (peff_perm _ _ v c (concat_upd_cons t m rest _ He)).
  change (peff (m :: ?l) v c) with (effect m v c + peff l v c)%Z. lia.
Qed.
Lemma expected_idle s v b : dst_idle v s = true -> expected s v b = block_conn g (label_of (s_lab s)) v b.
Proof using Type. clear expand_wf expand_eff. clear apply expand. clear Hc Hs k. intros H. unfold expected. rewrite peff_none by (apply dst_idle_spec; auto). lia. Qed.

(** Induction over executions. *)
Variable mem_ok : sys -> Prop.
Hypothesis mem_move : forall s u b t, sys_ok s -> mem_ok s -> u < gn g -> b < k -> t < length (s_pend s) ->
  nth t (s_pend s) [] = [] -> (forall m, In m (bag s) -> m_src m <> u) ->
  mem_ok {| s_lab := upd u b (s_lab s); s_mem := s_mem s;
            s_pend := upd t (flat_map (fun e => expand u (fst e) (nth u (s_lab s) 0) b (snd e)) (gadj g u)) (s_pend s) |}.
Hypothesis mem_tick : forall s m rest t, sys_ok s -> mem_ok s -> nth t (s_pend s) [] = m :: rest ->
  exists mem, apply m (s_mem s) = Some mem /\ mem_ok {| s_lab := s_lab s; s_mem := mem; s_pend := upd t rest (s_pend s) |}.

Lemma run_ok es : forall s, sys_ok s -> mem_ok s ->
  exists s', g_run g k Mem expand apply es s = Some s' /\ sys_ok s' /\ mem_ok s'.
Proof.
  induction es as [|e es IH]; intros s H1 H2; cbn [g_run].
  - exists s. auto.
  - destruct (step_shape e s) as [(s' & E & Sh)|(t & m & rest & E1 & E2 & _)].
    + rewrite E. apply IH; [eapply shape_ok; eauto|].
      inversion Sh; subst; auto. destruct (mem_tick s m rest t H1 H2 H) as (mem' & Em & Hm).
      rewrite Em in H0. injection H0 as <-. auto.
    + destruct (mem_tick s m rest t H1 H2 E1) as (mem & Em & _). congruence.
Qed.
Lemma start_ok lab mem T : labels_ok g k lab -> sys_ok (g_start Mem lab mem T).
Proof.
  intros H. split; [exact H|]. intros m Hm. cbn [g_start s_pend] in Hm. exfalso. revert Hm.
  induction T; cbn [repeat concat app]; auto.
Qed.
Lemma start_bag lab mem T : bag (g_start Mem lab mem T) = [].
Proof. cbn [g_start s_pend]. induction T; cbn [repeat concat app]; auto. Qed.
End Sys.
