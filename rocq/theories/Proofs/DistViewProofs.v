(* import_graph shows every rank its part of the graph. *)
From Verif Require Import Lib.Prelude Model.GridModel Model.DistGraphModel Spec.Graph Spec.DistGraphSpec Proofs.GridBase Proofs.ImportProofs.

(** ** Distributions *)
Section Dist.
Variables P N : nat.
Variable dist : list nat.
Hypothesis HD : distribution P N dist.
Lemma dist_le i j : i <= j -> j <= P -> nth i dist 0 <= nth j dist 0.
Proof. intros Hij. destruct HD as (_ & _ & _ & M). induction Hij as [|j Hij IH]; intros Hj; [lia|]. specialize (M j ltac:(lia)). specialize (IH ltac:(lia)). lia. Qed.
Lemma owns_unique q r g : q < P -> r < P -> owns dist q g -> owns dist r g -> q = r.
Proof.
  intros Hq Hr [A1 A2] [B1 B2]. destruct (Nat.lt_trichotomy q r) as [C|[C|C]]; [|exact C|].
  - pose proof (dist_le (S q) r ltac:(lia) ltac:(lia)). lia.
  - pose proof (dist_le (S r) q ltac:(lia) ltac:(lia)). lia.
Qed.
Lemma owns_lt r g : r < P -> owns dist r g -> g < N.
Proof. intros Hr [_ B]. pose proof (dist_le (S r) P ltac:(lia) ltac:(lia)). destruct HD as (_ & _ & E & _). lia. Qed.
End Dist.
Lemma first_above_spec g l : (forall i, i < first_above g l -> nth i l 0 <= g) /\ first_above g l <= length l /\
  (first_above g l < length l -> g < nth (first_above g l) l 0).
Proof.
  induction l as [|x t (A & B & C)]; cbn [first_above length nth].
  - repeat split; try lia.
  - destruct (Nat.ltb_spec g x) as [H|H].
    + repeat split; try lia.
    + split; [|split; [lia|intros D; apply C; lia]]. intros [|i] Hi; cbn [nth]; [exact H|apply A; lia].
Qed.
Lemma find_owner_owns P N dist g : distribution P N dist -> g < N -> find_owner dist g < P /\ owns dist (find_owner dist g) g.
Proof.
  intros (L & Z0 & E & M) Hg. unfold find_owner. cbn [Nat.sub]. rewrite Nat.sub_0_r. destruct (first_above_spec g (tl dist)) as (A & B & C).
  destruct dist as [|d0 t]; [cbn [length] in L; lia|]. cbn [tl] in *. cbn [length] in L. cbn [nth] in Z0.
  set (i := first_above g t) in *.
  assert (Hi : i < P).
  { destruct (Nat.lt_ge_cases i P) as [H|H]; [exact H|]. destruct P as [|P']; cbn [nth] in E; [lia|]. specialize (A P' ltac:(lia)). lia. }
  split; [exact Hi|]. unfold owns. split.
  - destruct i as [|j]; cbn [nth]; [lia|]. apply A. lia.
  - cbn [nth]. apply C. lia.
Qed.

(** ** finalize *)
Lemma finalize_ok n k dist order : NoDup (map fst order) -> NoDup (map snd order) -> (forall i, In i (map snd order) -> n <= i < n + k) ->
  exists gh, finalize n dist (n + k) order = Some gh /\ length (gh_global gh) = k /\ length (gh_owner gh) = k /\
    (forall g i, In (g, i) order -> nth_error (gh_global gh) (i - n) = Some g /\ nth_error (gh_owner gh) (i - n) = Some (find_owner dist g)) /\
    (forall x i, afind x (gh_map gh) = Some i <-> exists g, x = g + 1 /\ In (g, i) order).
Proof.
  unfold finalize. replace (n + k - n) with k by lia. induction order as [|[g i] t IH] using rev_ind; intros N1 N2 R.
  - eexists. split; [reflexivity|]. cbn [gh_global gh_owner gh_map]. rewrite !repeat_length. split; [reflexivity|]. split; [reflexivity|]. split.
    + intros g i [].
    + intros x i. cbn [afind]. split; [discriminate|]. intros [g [_ []]].
  - rewrite map_app in N1, N2, R. cbn [map fst snd] in N1, N2, R.
    apply NoDup_remove in N1. apply NoDup_remove in N2. rewrite app_nil_r in N1, N2. destruct N1 as [N1 N1'], N2 as [N2 N2'].
    destruct (IH N1 N2) as (gh & E & L1 & L2 & A & B); [intros j Hj; apply R; rewrite in_app_iff; left; exact Hj|].
    rewrite fold_left_app, E. cbn [fold_left final_entry bind fst snd].
    assert (Ri : n <= i < n + k) by (apply R; rewrite in_app_iff; right; left; reflexivity).
    rewrite !store_ok by lia. cbn [bind]. eexists. split; [reflexivity|]. cbn [gh_global gh_owner gh_map]. rewrite !upd_length.
    split; [exact L1|]. split; [exact L2|]. split.
    + intros g' i' Hin. rewrite !upd_nth_error. apply in_app_iff in Hin. destruct Hin as [Hin|[[= <- <-]|[]]].
      * assert (i' <> i) by (intros ->; apply N2'; exact (in_map snd _ _ Hin)).
        assert (n <= i' < n + k) by (apply R; rewrite in_app_iff; left; exact (in_map snd _ _ Hin)).
        destruct (Nat.eqb_spec (i - n) (i' - n)); [lia|]. cbn [andb]. exact (A g' i' Hin).
      * rewrite Nat.eqb_refl. rewrite !(proj2 (Nat.ltb_lt _ _)) by lia. split; reflexivity.
    + assert (F : afind (g + 1) (gh_map gh) = None).
      { destruct (afind (g + 1) (gh_map gh)) as [j|] eqn:F; [|reflexivity]. apply B in F. destruct F as [g' [Eg F]]. replace g' with g in F by lia.
        destruct N1'. exact (in_map fst _ _ F). }
      intros x j. unfold ainsert. rewrite F. cbn [afind]. destruct (Nat.eqb_spec (g + 1) x) as [<-|Hne].
      * split.
        -- intros [= <-]. exists g. split; [reflexivity|]. rewrite in_app_iff. right. left. reflexivity.
        -- intros [g' [Eg Hin]]. replace g' with g in Hin by lia. apply in_app_iff in Hin. destruct Hin as [Hin|[[= <-]|[]]]; [|reflexivity].
           destruct N1'. exact (in_map fst _ _ Hin).
      * rewrite B. split; intros [g' [Eg Hin]]; exists g'; (split; [exact Eg|]); rewrite in_app_iff in *; [left; exact Hin|].
        destruct Hin as [Hin|[[= <- <-]|[]]]; [exact Hin|]. congruence.
Qed.

Lemma narrow_fits bits x : (0 < bits)%Z -> (- 2 ^ (bits - 1) <= x < 2 ^ (bits - 1))%Z -> narrow bits x = x.
Proof.
  intros Hb H. unfold narrow. assert (E : (2 ^ bits = 2 * 2 ^ (bits - 1))%Z).
  { replace bits with (Z.succ (bits - 1)) at 1 by lia. apply Z.pow_succ_r. lia. }
  rewrite Z.mod_small; lia.
Qed.

(** Every edge belongs to a node. *)
Lemma edge_row (xadj : list nat) n : nth 0 xadj 0 = 0 -> (forall i, i < n -> nth i xadj 0 <= nth (S i) xadj 0) ->
  forall e, e < nth n xadj 0 -> exists u, u < n /\ nth u xadj 0 <= e < nth (S u) xadj 0.
Proof.
  intros Z0. induction n as [|n IH]; intros M e He; [lia|]. destruct (Nat.lt_ge_cases e (nth n xadj 0)) as [H|H].
  - destruct (IH (fun i Hi => M i ltac:(lia)) e H) as [u [A B]]. exists u. split; [lia|exact B].
  - exists n. lia.
Qed.
Lemma xadj_le (xadj : list nat) n : (forall i, i < n -> nth i xadj 0 <= nth (S i) xadj 0) -> forall i, i <= n -> nth i xadj 0 <= nth n xadj 0.
Proof. intros M i Hi. induction Hi as [|m Hi IH]; [lia|]. specialize (M m ltac:(lia)) as M1. specialize (IH (fun i Hi => M i ltac:(lia))). lia. Qed.
Lemma slice0 {X} (l : list X) k : k <= length l -> slice l 0 k = Some (firstn k l).
Proof. intros H. unfold slice. cbn [Nat.add skipn]. apply Nat.leb_le in H. rewrite H. reflexivity. Qed.
Lemma map_nth_error' {X Y} (f : X -> Y) l i : nth_error (map f l) i = option_map f (nth_error l i).
Proof. revert i. induction l as [|a l IH]; intros [|i]; cbn [map nth_error option_map]; auto. Qed.

Lemma match_ne {X Y} (l : list X) (a b : Y) : l <> [] -> match l with [] => a | _ :: _ => b end = b.
Proof. destruct l; [congruence|reflexivity]. Qed.
Lemma nil_dec {X} (l : list X) : l = [] \/ l <> []. Proof. destruct l; [left; reflexivity|right; discriminate]. Qed.

Section View.
Variables (P : nat) (G : graph) (dist : list nat) (r : nat) (xadj adj : list nat) (vw aw : list Z) (bits : Z).
Hypothesis HD : distribution P (gn G) dist.
Hypothesis Hr : r < P.
Hypothesis HA : rank_arrays G dist r xadj adj vw aw.
Hypothesis HW : weights_fit bits G.
Hypothesis HC : closed_graph G.
Notation from := (nth r dist 0).
Notation to := (nth (S r) dist 0).
Notation n := (to - from).
Variables (junk : list nat) (sched : list nat) (s : imp).
Hypothesis Hj : length junk = length adj.
Hypothesis Hrun : import_run from to adj sched (import_start from to adj junk) = Some s.
Hypothesis Hfin : forall t, In t (im_tasks s) -> t = Finished.
Variable order : list (nat * nat).
Hypothesis Ho : Permutation order (entries (im_map s)).
Variables (fresh : nat -> Z) (edist : list nat).

Lemma dist_nth i : i <= P -> nth_error dist i = Some (nth i dist 0).
Proof. intros Hi. apply nth_error_nth'. destruct HD as (L & _). lia. Qed.
Lemma from_to : from <= to. Proof. destruct HD as (_ & _ & _ & M). exact (M r Hr). Qed.

Lemma ghost_adj g : ghost_of G dist r g <-> ~ (from <= g < to) /\ In g adj.
Proof.
  destruct HA as (X1 & X2 & X3 & X4 & X5 & X6 & X7). unfold ghost_of, owns. split; intros [A B]; (split; [exact A|]).
  - destruct B as (v & w & [V1 V2] & Hin). destruct (X7 (v - from) ltac:(lia)) as [E _]. replace (from + (v - from)) with v in E by lia.
    rewrite E in Hin. cbn [user_graph gadj] in Hin. apply in_map_iff in Hin. destruct Hin as [e [[= <- _] He]]. apply nth_In. apply in_seq in He.
    pose proof (xadj_le xadj n X3 (S (v - from)) ltac:(lia)). lia.
  - apply In_nth_error in B. destruct B as [e He]. assert (Hl : e < length adj) by (apply nth_error_Some; congruence).
    destruct (edge_row xadj n X2 X3 e) as [u [U1 U2]]; [lia|]. destruct (X7 u U1) as [E _].
    exists (from + u). exists (match aw with [] => 1%Z | _ => nth e aw 0%Z end). split; [lia|]. rewrite E. cbn [user_graph gadj]. apply in_map_iff. exists e. split.
    + f_equal. exact (nth_error_nth _ _ 0 He).
    + apply in_seq. lia.
Qed.

Theorem import_view : exists d, import_graph bits fresh r dist edist xadj vw aw s order = Some d /\
  local_view G dist r (dn d) (dghost_n d) (dlocal_to_global d) (dglobal_to_local d) (dghost_owner d) (dcontains d) (dadj d) /\
  dc_rank d = r /\ dc_dist d = dist /\ dc_edist d = edist /\ length (dc_edges d) = length adj /\
  (vw = [] -> dc_nw d = []) /\
  (vw <> [] -> dn d + dghost_n d <= length (dc_nw d) /\ forall u, u < dn d -> nth_error (dc_nw d) u = Some (gvw G (from + u))) /\
  (vw = [] -> forall u, u < dn d -> gvw G (from + u) = 1%Z).
Proof.
  destruct (import_result from to adj junk sched s Hj Hrun Hfin) as (Nx & Le & K & Ids & Keys & Ed).
  destruct HA as (X1 & X2 & X3 & X4 & X5 & X6 & X7). destruct HW as (Hb & Wf).
  pose proof from_to as Hft.
  set (k := im_next s - n). assert (Ek : im_next s = n + k) by lia.
  assert (O1 : NoDup (map fst order)) by (eapply Permutation_NoDup; [|exact K]; apply Permutation_map; symmetry; exact Ho).
  assert (Ids' : Permutation (map snd order) (seq n k)) by (rewrite (Permutation_map snd Ho); exact Ids).
  assert (O2 : NoDup (map snd order)) by (eapply Permutation_NoDup; [symmetry; exact Ids'|apply seq_NoDup]).
  assert (O3 : forall i, In i (map snd order) <-> n <= i < n + k).
  { intros i. split; intros H; [apply (Permutation_in _ Ids') in H; apply in_seq in H; exact H|].
    apply (Permutation_in _ (Permutation_sym Ids')). apply in_seq. exact H. }
  assert (Ord : forall g i, In (g, i) order <-> In (g, i) (entries (im_map s))).
  { intros g i. split; apply Permutation_in; [exact Ho|symmetry; exact Ho]. }
  assert (Keys' : forall g i, In (g, i) order -> ~ (from <= g < to) /\ In g adj).
  { intros g i H. apply Keys. apply Ord in H. exact (in_map fst _ _ H). }
  destruct (finalize_ok n k dist order O1 O2 (fun i => proj1 (O3 i))) as (gh & Ef & G1 & G2 & G3 & G4).
  assert (Enw : exists nw, match vw with [] => Some [] | _ => bind (slice vw 0 n) (fun vw => Some (map (narrow bits) vw ++ map fresh (seq n (im_next s)))) end = Some nw /\
     (vw = [] -> nw = []) /\
     (vw <> [] -> n + k <= length nw /\ forall u, u < n -> nth_error nw u = Some (gvw G (from + u)))).
  { destruct (nil_dec vw) as [Ev|Ev]; [rewrite Ev; exists []; split; [reflexivity|]; split; [reflexivity|congruence]|]. destruct X5 as [C|X5]; [congruence|].
    rewrite match_ne by exact Ev. rewrite slice0 by lia. cbn [bind]. eexists. split; [reflexivity|]. split; [congruence|]. intros _. split.
    - rewrite app_length, !map_length, firstn_length, seq_length. lia.
    - intros u Hu. rewrite nth_error_app1 by (rewrite map_length, firstn_length; lia). rewrite map_nth_error'.
      rewrite firstn_all2 by lia.
      rewrite (nth_error_nth' vw 0%Z) by lia. cbn [option_map]. f_equal.
      destruct (X7 u Hu) as [_ E]. cbn [user_graph gvw] in E. rewrite match_ne in E by exact Ev. rewrite E.
      apply narrow_fits; [exact Hb|]. destruct (Wf (from + u)) as [W _].
      + assert (owns dist r (from + u)) by (unfold owns; lia). exact (owns_lt P (gn G) dist HD r _ Hr H).
      + rewrite E in W. exact W. }
  destruct Enw as (nw & Enw & Nw0 & Nw1).
  set (ew := map (narrow bits) (match aw with [] => [] | _ => firstn (length adj) aw end)).
  exists (Dcsr r dist edist (firstn (n + 1) xadj) (im_edges s) nw ew gh). split.
  - unfold import_graph. rewrite (dist_nth r) by lia. cbn [bind]. rewrite (dist_nth (r + 1)) by lia. cbn [bind]. replace (r + 1) with (S r) by lia.
    rewrite (nth_error_nth' xadj 0) by lia. cbn [bind]. rewrite slice0 by lia. cbn [bind]. rewrite X4.
    replace (match aw with [] => Some [] | _ => slice aw 0 (length adj) end) with (Some (match aw with [] => [] | _ => firstn (length adj) aw end)).
    + cbn [bind]. rewrite Enw. cbn [bind]. rewrite Ek, Ef. cbn [bind]. reflexivity.
    + destruct (nil_dec aw) as [Ea|Ea]; [rewrite Ea; reflexivity|]. rewrite !match_ne by exact Ea. destruct X6 as [C|X6]; [congruence|]. rewrite slice0 by lia. reflexivity.
  - set (d := Dcsr r dist edist (firstn (n + 1) xadj) (im_edges s) nw ew gh).
    assert (Edn : dn d = n) by (unfold dn, d; cbn [dc_nodes]; rewrite firstn_length; lia).
    assert (Egn : dghost_n d = k) by (unfold dghost_n, d; cbn [dc_ghosts]; exact G1).
    assert (Eoff : doffset d (dc_rank d) = Some from) by (unfold doffset, d; cbn [dc_dist dc_rank]; apply dist_nth; lia).
    assert (Lo : forall u, u < n -> dlocal_to_global d u = Some (from + u)).
    { intros u Hu. unfold dlocal_to_global, dis_ghost. rewrite Edn. destruct (Nat.leb_spec n u); [lia|]. rewrite Eoff. reflexivity. }
    assert (Lg : forall u, n <= u -> dlocal_to_global d u = nth_error (gh_global gh) (u - n)).
    { intros u Hu. unfold dlocal_to_global, dis_ghost. rewrite Edn. destruct (Nat.leb_spec n u); [reflexivity|lia]. }
    assert (Go : forall g, from <= g < to -> dglobal_to_local d g = Some (g - from)).
    { intros g Hg. unfold dglobal_to_local. rewrite Eoff, Edn. cbn [bind]. destruct (Nat.leb_spec from g); [|lia]. destruct (Nat.ltb_spec g (from + n)); [|lia]. reflexivity. }
    assert (Gg : forall g, ~ (from <= g < to) -> dglobal_to_local d g = afind (g + 1) (gh_map gh)).
    { intros g Hg. unfold dglobal_to_local. rewrite Eoff, Edn. cbn [bind]. destruct (Nat.leb_spec from g); [|reflexivity]. destruct (Nat.ltb_spec g (from + n)); [lia|]. reflexivity. }
    assert (Gpos : forall u, n <= u < n + k -> exists g, In (g, u) order).
    { intros u Hu. apply O3 in Hu. apply in_map_iff in Hu. destruct Hu as [[g i] [<- Hin]]. exists g. exact Hin. }
    assert (Hord : forall g u, In (g, u) order -> n <= u < n + k) by (intros g u H; apply O3; exact (in_map snd _ _ H)).
    assert (Inv : forall u g, dlocal_to_global d u = Some g <-> dglobal_to_local d g = Some u).
    { intros u g. split; intros H.
      - destruct (Nat.lt_ge_cases u n) as [Hu|Hu].
        + rewrite Lo in H by exact Hu. injection H as <-. rewrite Go by lia. f_equal. lia.
        + rewrite Lg in H by exact Hu. assert (Hk : u - n < k) by (rewrite <- G1; apply nth_error_Some; congruence).
          destruct (Gpos u ltac:(lia)) as [g' Hin]. destruct (G3 g' u Hin) as [A _]. replace g with g' by congruence. rewrite Gg by exact (proj1 (Keys' g' u Hin)).
          apply G4. exists g'. auto.
      - destruct (Nat.le_gt_cases from g) as [H1|H1]; [destruct (Nat.lt_ge_cases g to) as [H2|H2]|].
        + rewrite Go in H by lia. injection H as <-. rewrite Lo by lia. f_equal. lia.
        + rewrite Gg in H by lia. apply G4 in H. destruct H as [g' [Eg Hin]]. replace g' with g in Hin by lia. pose proof (Hord g u Hin). rewrite Lg by lia. apply (G3 g u Hin).
        + rewrite Gg in H by lia. apply G4 in H. destruct H as [g' [Eg Hin]]. replace g' with g in Hin by lia. pose proof (Hord g u Hin). rewrite Lg by lia. apply (G3 g u Hin). }
    assert (Gin : forall g, ghost_of G dist r g -> exists u, In (g, u) order).
    { intros g Hg. apply ghost_adj in Hg. apply Keys in Hg. apply in_map_iff in Hg. destruct Hg as [[g' u] [<- Hin]]. exists u. apply Ord. exact Hin. }
    split; [|cbn [dc_rank dc_dist dc_edist dc_edges dc_nw d]; split; [reflexivity|]; split; [reflexivity|]; split; [reflexivity|]; split; [exact Le|];
      split; [exact Nw0|]; split; [intros C; rewrite Edn, Egn; exact (Nw1 C)|]].
    + unfold local_view. rewrite Edn, Egn. split; [reflexivity|]. split; [exact Lo|]. split.
      { intros u Hu. destruct (Gpos u Hu) as [g Hin]. destruct (G3 g u Hin) as [A B]. exists g, (find_owner dist g). split; [rewrite Lg by lia; exact A|].
        pose proof (proj2 (ghost_adj g) (Keys' g u Hin)) as Hg. split; [exact Hg|]. split.
        - unfold dghost_owner. rewrite Edn. exact B.
        - apply (find_owner_owns P (gn G)); [exact HD|]. destruct Hg as [_ (v & w & Hv & Hvw)]. exact (HC v g w (owns_lt P (gn G) dist HD r v Hr Hv) Hvw). }
      split; [intros u Hu; rewrite Lg by lia; apply nth_error_None; lia|]. split; [exact Inv|]. split.
      { intros g Hg. destruct (Gin g Hg) as [u Hin]. exists u. split; [exact (Hord g u Hin)|]. rewrite Gg by exact (proj1 (Keys' g u Hin)). apply G4. exists g. auto. }
      split.
      { intros g. unfold dcontains. rewrite Eoff, Edn. cbn [bind]. split.
        - intros [= H]. apply orb_true_iff in H. destruct H as [H|H].
          + left. apply andb_true_iff in H. destruct H as [H1 H2]. apply Nat.leb_le in H1. apply Nat.ltb_lt in H2. unfold owns. lia.
          + right. destruct (afind (g + 1) (gh_map gh)) as [u|] eqn:F.
            * apply G4 in F. destruct F as [g' [Eg Hin]]. replace g' with g in Hin by lia. apply ghost_adj. exact (Keys' g u Hin).
            * exfalso. unfold d in H. cbn [dc_ghosts] in H. discriminate H || (rewrite F in H; discriminate H).
        - intros [[H1 H2]|H]; f_equal; apply orb_true_iff.
          + left. apply andb_true_iff. split; [apply Nat.leb_le; exact H1|apply Nat.ltb_lt; lia].
          + right. destruct (Gin g H) as [u Hin]. unfold d. cbn [dc_ghosts]. rewrite (proj2 (G4 (g + 1) u)) by (exists g; auto). reflexivity. }
      intros u Hu. pose proof (xadj_le xadj n X3 (S u) ltac:(lia)) as Xu. pose proof (X3 u Hu) as Xm.
      set (h := fun e => (nth e (im_edges s) 0, match ew with [] => 1%Z | _ => nth e ew 0%Z end)).
      assert (Ew : aw = [] /\ ew = [] \/ length ew = length adj /\ forall e, e < length adj -> nth e ew 0%Z = narrow bits (nth e aw 0%Z)).
      { unfold ew. destruct (nil_dec aw) as [Ea|Ea]; [left; rewrite Ea; auto|]. right. rewrite match_ne by exact Ea. destruct X6 as [C|X6]; [congruence|].
        rewrite firstn_all2 by lia. rewrite map_length. split; [exact X6|]. intros e He. rewrite (nth_indep _ 0%Z (narrow bits 0%Z)) by (rewrite map_length; lia). apply map_nth. }
      exists (map h (seq (nth u xadj 0) (nth (S u) xadj 0 - nth u xadj 0))). split.
      * unfold dadj, d. cbn [dc_nodes]. fold d.
        rewrite (nth_error_nth' (firstn (n + 1) xadj) 0) by (rewrite firstn_length; lia). cbn [bind].
        rewrite (nth_error_nth' (firstn (n + 1) xadj) 0) by (rewrite firstn_length; lia). cbn [bind].
        rewrite firstn_all2 by lia. replace (u + 1) with (S u) by lia. apply traverse_ok. intros e He. apply in_seq in He. unfold dedge, d. cbn [dc_edges dc_ew].
        rewrite (nth_error_nth' (im_edges s) 0) by lia. cbn [bind]. unfold h. destruct Ew as [[_ Ew]|[Ew _]]; [rewrite Ew; reflexivity|].
        assert (E0 : ew <> []) by (intros E0; rewrite E0 in Ew; cbn [length] in Ew; lia). rewrite !match_ne by exact E0. rewrite (nth_error_nth' ew 0%Z) by lia. reflexivity.
      * destruct (X7 u Hu) as [E _]. rewrite E. cbn [user_graph gadj]. rewrite !map_map. apply map_ext_in. intros e He.
        assert (Hin : In (nth e adj 0, match aw with [] => 1%Z | _ => nth e aw 0%Z end) (gadj G (from + u))).
        { rewrite E. cbn [user_graph gadj]. apply in_map_iff. exists e. auto. }
        apply in_seq in He. unfold h. cbn [fst snd]. f_equal.
        -- destruct (Ed e (nth e adj 0)) as [x [A B]]; [apply nth_error_nth'; lia|]. rewrite (nth_error_nth _ _ 0 A). destruct B as [[B ->]|[B C]].
           ++ rewrite Lo by lia. f_equal. lia.
           ++ apply Ord in C. pose proof (Hord _ _ C). rewrite Lg by lia. apply (G3 _ _ C).
        -- destruct Ew as [[E1 E2]|[L Ew]]; [rewrite E1, E2; reflexivity|].
           assert (E0 : ew <> []) by (intros E0; rewrite E0 in L; cbn [length] in L; lia).
           assert (Ea : aw <> []) by (intros Ea; apply E0; unfold ew; rewrite Ea; reflexivity).
           rewrite (match_ne ew) by exact E0. rewrite (match_ne aw) by exact Ea. rewrite (match_ne aw) in Hin by exact Ea.
           rewrite Ew by lia. apply narrow_fits; [exact Hb|].
           refine (proj2 (Wf (from + u) _) _ _ Hin). apply (owns_lt P (gn G) dist HD r _ Hr). unfold owns. lia.
    + intros E0 u Hu. rewrite Edn in Hu. destruct (X7 u Hu) as [_ E]. rewrite E. cbn [user_graph gvw]. rewrite E0. reflexivity.
Qed.
End View.
