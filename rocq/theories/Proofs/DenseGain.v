(* The dense gain cache is exact after every concurrent history. *)
From Verif Require Import Lib.Prelude Spec.Graph Spec.Gain Model.GainModel Proofs.GraphFacts Proofs.GainBase Proofs.GainSys.

Lemma index_inj k u b u' b' : b < k -> b' < k -> u * k + b = u' * k + b' -> u = u' /\ b = b'.
Proof.
  intros Hb Hb' E. assert (u = u').
  { rewrite (Nat.div_unique (u * k + b) k u b) by lia. symmetry. apply (Nat.div_unique _ k u' b'); lia. }
  subst. lia.
Qed.
Lemma index_lt n k u b : u < n -> b < k -> u * k + b < n * k.
Proof. intros Hu Hb. assert (S u * k <= n * k) by (apply Nat.mul_le_mono_r; lia). lia. Qed.
Lemma nth_error_in {A} (l : list A) i d : i < length l -> nth_error l i = Some (nth i l d).
Proof. intros H. apply nth_error_nth'. auto. Qed.

(** The enumeration shared by the caches that look up every block. *)
Lemma gains_fold k (all : bool) (c : nat -> option Z) (f : nat -> Z) cf from :
  (forall b, b < k -> c b = Some (f b)) ->
  fold_right (fun to r =>
        match r with
        | None => None
        | Some l => if from =? to then Some l
                    else match c to with
                         | None => None
                         | Some ct => if all || (0 <? ct)%Z then Some ((to, ct - cf)%Z :: l) else Some l
                         end
        end) (Some []) (seq 0 k)
  = Some (map (fun b => (b, f b - cf)%Z) (filter (fun b => negb (b =? from) && (all || (0 <? f b)%Z)) (seq 0 k))).
Proof.
  intros H. assert (G : forall l, (forall b, In b l -> b < k) -> fold_right (fun to r =>
        match r with
        | None => None
        | Some l => if from =? to then Some l
                    else match c to with
                         | None => None
                         | Some ct => if all || (0 <? ct)%Z then Some ((to, ct - cf)%Z :: l) else Some l
                         end
        end) (Some []) l
   = Some (map (fun b => (b, f b - cf)%Z) (filter (fun b => negb (b =? from) && (all || (0 <? f b)%Z)) l))).
  { induction l as [|b l IH]; intros Hl; cbn [fold_right filter map]; [reflexivity|].
    rewrite IH by (intros; apply Hl; right; auto). rewrite (Nat.eqb_sym from b).
    destruct (b =? from) eqn:E; cbn [negb andb]; [reflexivity|].
    rewrite H by (apply Hl; left; auto). destruct (all || (0 <? f b)%Z); reflexivity. }
  apply G. intros b Hb. apply in_seq in Hb. lia.
Qed.

Section D.
Variables (g : graph) (k : nat).
Hypothesis (Hc : closed_graph g) (Hs : undirected g).
Notation idx := (d_index k).
Definition cells_are (c : list Z) (f : nat -> nat -> Z) : Prop :=
  length c = gn g * k /\ forall v b, v < gn g -> b < k -> nth_error c (idx v b) = Some (f v b).

Lemma d_add_ok c f v b w : cells_are c f -> v < gn g -> b < k ->
  exists c', d_add (idx v b) w c = Some c' /\
    cells_are c' (fun x y => f x y + (if (Nat.eqb x v && Nat.eqb y b)%bool then w else 0))%Z.
Proof.
  intros [HL H] Hv Hb. unfold d_add. rewrite (H v b Hv Hb). eexists. split; [reflexivity|].
  split; [rewrite upd_length; auto|]. intros x y Hx Hy. rewrite upd_nth_error.
  rewrite HL. pose proof (index_lt (gn g) k v b Hv Hb) as Hi. fold (idx v b) in Hi.
  destruct (Nat.ltb_spec (idx v b) (gn g * k)); [|lia]. rewrite Bool.andb_true_r.
  destruct (Nat.eqb_spec x v) as [->|Hne]; [destruct (Nat.eqb_spec y b) as [->|Hne]|]; cbn [andb].
  - rewrite Nat.eqb_refl. reflexivity.
  - destruct (Nat.eqb_spec (idx v b) (idx v y)) as [E|E].
    + apply index_inj in E; [|auto|auto]. destruct E; subst; contradiction.
    + rewrite H by auto. f_equal. lia.
  - destruct (Nat.eqb_spec (idx v b) (idx x y)) as [E|E].
    + apply index_inj in E; [|auto|auto]. destruct E; subst; contradiction.
    + rewrite H by auto. f_equal. lia.
Qed.
Lemma cells_ext c f f' : cells_are c f -> (forall v b, v < gn g -> b < k -> f v b = f' v b) -> cells_are c f'.
Proof. intros [HL H] E. split; auto. intros. rewrite <- E by auto. auto. Qed.

Lemma d_apply_ok m c f : cells_are c f -> m_dst m < gn g -> (forall a, m_dec m = Some a -> a < k) ->
  (forall a, m_inc m = Some a -> a < k) ->
  exists c', d_apply k m c = Some c' /\ cells_are c' (fun x y => f x y + effect m x y)%Z.
Proof.
  intros H Hd H1 H2. unfold d_apply.
  assert (exists c', (match m_dec m with None => Some c | Some b => d_add (idx (m_dst m) b) (- m_w m) c end) = Some c' /\
    cells_are c' (fun x y => f x y - (match m_dec m with Some z => if (Nat.eqb x (m_dst m) && Nat.eqb y z)%bool then m_w m else 0 | None => 0 end))%Z) as (c1 & E1 & C1).
  { destruct (m_dec m) as [b|].
    - destruct (d_add_ok c f (m_dst m) b (- m_w m) H Hd (H1 _ eq_refl)) as (c' & E & C). exists c'. split; auto.
      eapply cells_ext; [exact C|]. intros v x _ _. cbn beta. destruct (_ && _); lia.
    - exists c. split; auto. eapply cells_ext; [exact H|]. intros; cbn beta; lia. }
  rewrite E1. destruct (m_inc m) as [b|] eqn:E.
  - destruct (d_add_ok c1 _ (m_dst m) b (m_w m) C1 Hd (H2 _ eq_refl)) as (c' & E' & C). exists c'. split; auto.
    eapply cells_ext; [exact C|]. intros v x _ _. cbn beta. unfold effect. rewrite E, (Nat.eqb_sym (m_dst m) v), (Nat.eqb_sym b x).
    destruct (v =? m_dst m), (x =? b), (m_dec m) as [z|]; cbn [andb]; try lia; rewrite (Nat.eqb_sym z x); lia.
  - exists c1. split; auto. eapply cells_ext; [exact C1|]. intros v x _ _. cbn beta. unfold effect. rewrite E, (Nat.eqb_sym (m_dst m) v).
    destruct (v =? m_dst m), (m_dec m) as [z|]; cbn [andb]; try lia; rewrite (Nat.eqb_sym z x); lia.
Qed.

(** Initialization. *)
Lemma d_init_node_ok lab u : labels_ok g k lab -> u < gn g -> forall l c f, incl l (gadj g u) -> cells_are c f ->
  exists c', fold_left (fun c e => match c with
                        | None => None
                        | Some c => match nth_error lab (fst e) with
                                    | None => None
                                    | Some b => d_add (idx u b) (snd e) c
                                    end
                        end) l (Some c) = Some c' /\
    cells_are c' (fun v b => f v b + (if Nat.eqb v u then zsum (map (fun e => if Nat.eqb (label_of lab (fst e)) b then snd e else 0) l) else 0))%Z.
Proof.
  intros [HL1 HL2] Hu. induction l as [|[x w] l IH]; intros c f Hl H; cbn [fold_left].
  - exists c. split; auto. eapply cells_ext; [exact H|]. intros v b _ _. cbn. destruct (v =? u); lia.
  - assert (Hx : x < gn g) by (eapply Hc; [exact Hu|apply Hl; left; reflexivity]).
    cbn [fst snd]. rewrite (nth_error_in lab x 0) by lia. fold (label_of lab x).
    destruct (d_add_ok c f u (label_of lab x) w H Hu (HL2 x Hx)) as (c1 & E1 & C1).
    rewrite E1. destruct (IH c1 _ ltac:(intros y Hy; apply Hl; right; auto) C1) as (c2 & E2 & C2).
    exists c2. split; auto. eapply cells_ext; [exact C2|]. intros v b _ _. cbn beta. cbn [map zsum fst snd].
    rewrite (Nat.eqb_sym b). destruct (v =? u), (label_of lab x =? b); cbn [andb]; lia.
Qed.
Lemma d_init_ok lab : labels_ok g k lab ->
  exists c, d_init g k lab = Some c /\ cells_are c (fun v b => block_conn g (label_of lab) v b).
Proof.
  intros HL. unfold d_init.
  assert (G : forall j c f, j <= gn g -> cells_are c f -> exists c', 
    fold_left (fun c u => d_init_node g k lab u c) (seq 0 j) (Some c) = Some c' /\
    cells_are c' (fun v b => f v b + (if Nat.ltb v j then block_conn g (label_of lab) v b else 0))%Z).
  { induction j as [|j IH]; intros c f Hj H.
    - exists c. split; auto. eapply cells_ext; [exact H|]. intros; cbn; lia.
    - rewrite seq_S, fold_left_app. cbn [fold_left plus].
      destruct (IH c f ltac:(lia) H) as (c1 & E1 & C1). rewrite E1. unfold d_init_node at 1.
      destruct (d_init_node_ok lab j HL ltac:(lia) (gadj g j) c1 _ (incl_refl _) C1) as (c2 & E2 & C2).
      exists c2. split; auto. eapply cells_ext; [exact C2|]. intros v b Hv Hb. cbn beta.
      rewrite block_conn_if.
      destruct (Nat.ltb_spec v j), (Nat.ltb_spec v (S j)), (Nat.eqb_spec v j); subst; try lia. }
  destruct (G (gn g) (repeat 0%Z (gn g * k)) (fun _ _ => 0%Z) (le_n _)) as (c & E & C).
  - split; [apply repeat_length|]. intros v b Hv Hb. rewrite (nth_error_in _ _ 0%Z) by (rewrite repeat_length; apply index_lt; auto).
    f_equal. apply nth_repeat.
  - exists c. split; auto. eapply cells_ext; [exact C|]. intros v b Hv Hb. cbn beta.
    destruct (Nat.ltb_spec v (gn g)); [|lia]. lia.
Qed.

Lemma d_expand_eff u v a b w x c :
  peff (d_expand u v a b w) x c = if v =? x then ((if Nat.eqb b c then w else 0) - (if Nat.eqb a c then w else 0))%Z else 0%Z.
Proof. unfold peff, d_expand, effect. cbn. destruct (v =? x); lia. Qed.
Lemma d_expand_wf u v a b w m : In m (d_expand u v a b w) ->
  m_src m = u /\ m_dst m = v /\ m_w m = w /\ (m_dec m = None \/ m_dec m = Some a) /\ (m_inc m = None \/ m_inc m = Some b).
Proof. intros [<-|[<-|[]]]; cbn; repeat split; auto. Qed.

Theorem dense_run_ok lab T es : labels_ok g k lab ->
  exists c0 s, d_init g k lab = Some c0 /\ d_run g k es (g_start _ lab c0 T) = Some s /\ labels_ok g k (s_lab s) /\
    forall u, u < gn g -> dst_idle u s = true ->
      forall b, b < k -> d_conn k (s_mem s) u b = Some (block_conn g (label_of (s_lab s)) u b).
Proof.
  intros HL. destruct (d_init_ok lab HL) as (c0 & E0 & C0). exists c0.
  destruct (run_ok g k Hc (list Z) d_expand (d_apply k) d_expand_eff d_expand_wf
     (fun s => cells_are (s_mem s) (fun v b => expected g (list Z) s v b))) with (es := es) (s := g_start (list Z) lab c0 T)
    as (s & Er & [Hl _] & Hm).
  - intros s u b t Hok Hm Hu Hb Ht He _. cbn [s_mem]. eapply cells_ext; [exact Hm|]. intros v x Hv Hx. cbn beta. symmetry.
    exact (expected_move g k Hc Hs (list Z) d_expand d_expand_eff d_expand_wf s u b t Hu Hb Ht He Hok v x Hv).
  - intros s m rest t [HLs HM] Hm He.
    assert (Hin : In m (concat (s_pend s))).
    { apply (Permutation_in m (Permutation_sym (concat_upd_cons t m rest _ He))). left; auto. }
    destruct (HM m Hin) as (H1 & H2 & _ & H3 & H4).
    destruct (d_apply_ok m (s_mem s) _ Hm H2 H3) as (c' & Ea & Ca).
    + intros a Ea. rewrite (H4 a Ea). apply HLs; auto.
    + exists c'. split; auto. cbn [s_mem]. eapply cells_ext; [exact Ca|]. intros v x _ _. cbn beta. symmetry.
      apply expected_tick; auto.
  - apply start_ok; auto.
  - cbn [g_start s_mem]. eapply cells_ext; [exact C0|]. intros v b _ _. cbn beta. unfold expected.
    rewrite (start_bag (list Z)). cbn. lia.
  - exists s. split; auto. split; auto. split; auto. intros u Hu Hi b Hb. unfold d_conn.
    rewrite (proj2 Hm u b Hu Hb). f_equal. apply expected_idle; auto.
Qed.

Lemma dense_gains_ok c f u from all exact : (forall b, b < k -> d_conn k c u b = Some (f b)) -> from < k ->
  d_gains k all exact c u from = Some (targets k all exact f from).
Proof.
  intros H Hf. unfold d_gains, targets.
  destruct exact; [rewrite (H from Hf)|]; apply gains_fold; auto.
Qed.
Lemma d_degrees_ok u : u < gn g -> nth_error (d_degrees g) u = Some (weighted_degree g u).
Proof.
  intros Hu. unfold d_degrees. rewrite (nth_error_in _ _ 0%Z) by (rewrite map_length, seq_length; auto).
  rewrite nth_map_seq by auto. cbn [plus]. f_equal. unfold weighted_degree.
  assert (G : forall l s, fold_left (fun s e => s + snd e)%Z l s = (s + zsum (map (@snd nat Z) l))%Z).
  { induction l as [|e l IH]; intros s; cbn [fold_left map zsum]; [lia|]. rewrite IH. lia. }
  rewrite G. lia.
Qed.
Lemma dense_border_ok c p u : positive_edges g -> u < gn g -> d_conn k c u (p u) = Some (block_conn g p u (p u)) ->
  exists r, d_border k (d_degrees g) c u (p u) = Some r /\
    (r = true <-> exists v w, In (v, w) (gadj g u) /\ p v <> p u).
Proof.
  intros Hp Hu E. unfold d_border. rewrite d_degrees_ok, E by auto. eexists. split; [reflexivity|].
  rewrite Bool.negb_true_iff, Z.eqb_neq. apply border_iff; auto.
Qed.
End D.
