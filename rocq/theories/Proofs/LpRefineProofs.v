(* Proofs about Model/LpRefineModel.v. *)
From Verif Require Import Lib.Prelude Spec.Graph Spec.Gain Model.LpClusterModel Model.LpRefineModel Spec.LpRefineSpec
  Proofs.GraphFacts Proofs.GainBase Proofs.GainTop Proofs.DeltaProofs Proofs.LpClusterProofs.
Local Open Scope Z_scope.

(** ** Selection *)
Section Select.
Variables (limit : nat -> Z) (uw : Z) (init : nat) (iw : Z).

(** The own block, or the block of an entry whose rating is the gain; no entry of the own block is rated higher. *)
Definition chosen (es : list rentry) (b : nat) (gain : Z) : Prop :=
  0 <= gain /\ (b = init \/ exists e, In e es /\ e_block e = b /\ e_rating e = gain) /\
  (forall e, In e es -> e_block e = init -> e_rating e <= gain).

Lemma allowed_own e : e_block e = init -> allowed limit uw init iw e = true.
Proof. intros E. unfold allowed. rewrite E, Nat.eqb_refl. apply orb_true_r. Qed.

Lemma chosen_skip es b gain e : chosen es b gain -> (e_block e = init -> e_rating e <= gain) -> chosen (es ++ [e]) b gain.
Proof.
  intros (G & B & O) H. split; [exact G|]. split.
  - destruct B as [E|(x & I & X)]; [left; exact E|right; exists x; split; [apply in_or_app; left; exact I|exact X]].
  - intros x I E. apply in_app_or in I as [I|[<-|[]]]; auto.
Qed.

Lemma chosen_take es b gain e : chosen es b gain -> gain <= e_rating e -> chosen (es ++ [e]) (e_block e) (e_rating e).
Proof.
  intros (G & B & O) H. split; [lia|]. split.
  - right. exists e. split; [apply in_or_app; right; left; reflexivity|split; reflexivity].
  - intros x I E. apply in_app_or in I as [I|[<-|[]]]; [specialize (O x I E); lia|lia].
Qed.

Lemma uniform_fold es : let st := fold_left (uniform_step limit uw init iw) es (RSel init 0 iw []) in
  chosen es (r_best st) (r_gain st) /\ forall t, In t (r_ties st) -> chosen es t (r_gain st).
Proof.
  induction es as [|e es IH] using rev_ind.
  - cbn. split; [|intros t []]. split; [lia|]. split; [left; reflexivity|intros e []].
  - rewrite fold_left_app. cbn [fold_left]. set (st := fold_left _ es _) in *. clearbody st. cbn zeta in *. destruct IH as (C & T).
    assert (Skip : (e_block e = init -> e_rating e <= r_gain st) -> chosen (es ++ [e]) (r_best st) (r_gain st) /\ (forall t, In t (r_ties st) -> chosen (es ++ [e]) t (r_gain st))).
    { intros H. split; [apply chosen_skip; assumption|]. intros t I. apply chosen_skip; auto. }
    unfold uniform_step. destruct (Z.ltb_spec (r_gain st) (e_rating e)) as [L|G].
    + destruct (allowed limit uw init iw e) eqn:A.
      * cbn [r_best r_gain r_ties]. assert (Q : chosen (es ++ [e]) (e_block e) (e_rating e)) by (apply (chosen_take es (r_best st) (r_gain st)); [exact C|lia]).
        split; [exact Q|]. intros t [<-|[]]. exact Q.
      * apply Skip. intros E. rewrite allowed_own in A by exact E. discriminate.
    + destruct (Z.eqb_spec (e_rating e) (r_gain st)) as [E|N]; [|apply Skip; lia].
      assert (Q : chosen (es ++ [e]) (e_block e) (r_gain st)) by (rewrite <- E; apply (chosen_take es (r_best st) (r_gain st)); [exact C|lia]).
      cbn zeta. destruct (Z.ltb _ _).
      * destruct (allowed limit uw init iw e); [|apply Skip; lia]. cbn [r_best r_gain r_ties]. split; [exact Q|]. intros t [<-|[]]. exact Q.
      * destruct (Z.eqb _ _); [|apply Skip; lia]. destruct (allowed limit uw init iw e); [|apply Skip; lia]. cbn [r_best r_gain r_ties].
        split; [apply chosen_skip; [exact C|lia]|]. intros t I. apply in_app_or in I as [I|[<-|[]]]; [apply chosen_skip; [auto|lia]|exact Q].
Qed.

Lemma geometric_fold es : let st := fold_left (geometric_step limit uw init iw) es (RSel init 0 iw []) in chosen es (r_best st) (r_gain st).
Proof.
  induction es as [|e es IH] using rev_ind.
  - cbn. split; [lia|]. split; [left; reflexivity|intros e []].
  - rewrite fold_left_app. cbn [fold_left]. set (st := fold_left _ es _) in *. clearbody st. cbn zeta in *. unfold geometric_step.
    destruct (allowed limit uw init iw e) eqn:A; [rewrite andb_true_r|rewrite andb_false_r].
    + destruct (Z.ltb_spec (r_gain st) (e_rating e)) as [L|G]; [apply (chosen_take es (r_best st) (r_gain st)); [exact IH|lia]|]. cbn [orb].
      destruct (Z.eqb_spec (e_rating e) (r_gain st)) as [E|N]; cbn [andb]; [|apply chosen_skip; [exact IH|lia]].
      destruct (_ || _)%bool; [apply (chosen_take es (r_best st) (r_gain st)); [exact IH|lia]|apply chosen_skip; [exact IH|lia]].
    + apply chosen_skip; [exact IH|]. intros E. rewrite allowed_own in A by exact E. discriminate.
Qed.

Lemma select_chosen uni es r : chosen es (fst (select_block limit uw init iw uni es r)) (snd (select_block limit uw init iw uni es r)).
Proof.
  unfold select_block. destruct uni; cbn [fst snd].
  - destruct (uniform_fold es) as (C & T). destruct (break_tie_in (r_ties (fold_left (uniform_step limit uw init iw) es (RSel init 0 iw []))) r
      (r_best (fold_left (uniform_step limit uw init iw) es (RSel init 0 iw [])))) as [E|I]; [rewrite E; exact C|exact (T _ I)].
  - apply geometric_fold.
Qed.

Lemma chosen_weaken es es' b gain : chosen es b gain -> (forall e, In e es -> In e es') -> forall gain', gain <= gain' -> 
  (forall e, In e es' -> e_block e = init -> e_rating e <= gain') -> (gain = gain' \/ b = init) -> chosen es' b gain'.
Proof.
  intros (G & B & O) S gain' L O' E. split; [lia|]. split; [|exact O'].
  destruct E as [<-|E]; [|left; exact E]. destruct B as [B|(e & I & X)]; [left; exact B|right; exists e; split; [apply S; exact I|exact X]].
Qed.

Lemma merge_fold uni (parts : list (list rentry)) xs : Forall2 (fun es x => chosen es (snd x) (fst x)) parts xs ->
  let st := fold_left (merge_local uni) xs (init, 0, []) in
  chosen (concat parts) (fst (fst st)) (snd (fst st)) /\ forall t, In t (snd st) -> chosen (concat parts) t (snd (fst st)).
Proof.
  revert parts. induction xs as [|x xs IH] using rev_ind; intros parts F.
  - inversion F; subst. cbn. split; [|intros t []]. split; [lia|]. split; [left; reflexivity|intros e []].
  - apply Forall2_app_inv_r in F as (parts1 & parts2 & F1 & F2 & ->). inversion F2 as [|es x' l1 l2 Cx F3]; subst. inversion F3; subst.
    rewrite fold_left_app. cbn [fold_left]. specialize (IH parts1 F1). destruct (fold_left (merge_local uni) xs (init, 0, [])) as [[best gain] ties].
    cbn [fst snd] in IH. destruct IH as (C & T). rewrite concat_app. cbn [concat]. rewrite app_nil_r. unfold merge_local.
    assert (Keep : forall b, chosen (concat parts1) b gain -> fst x <= gain -> chosen (concat parts1 ++ es) b gain).
    { intros b Cb Lx. apply (chosen_weaken (concat parts1)) with (gain := gain); [exact Cb|intros e I; apply in_or_app; left; exact I|lia| |left; reflexivity].
      intros e I E. apply in_app_or in I as [I|I]; [exact (proj2 (proj2 C) e I E)|]. pose proof (proj2 (proj2 Cx) e I E). lia. }
    assert (New : gain <= fst x -> chosen (concat parts1 ++ es) (snd x) (fst x)).
    { intros Lx. apply (chosen_weaken es) with (gain := fst x); [exact Cx|intros e I; apply in_or_app; right; exact I|lia| |left; reflexivity].
      intros e I E. apply in_app_or in I as [I|I]; [pose proof (proj2 (proj2 C) e I E); lia|exact (proj2 (proj2 Cx) e I E)]. }
    destruct (Z.ltb_spec gain (fst x)) as [L|G].
    + cbn [fst snd]. split; [apply New; lia|]. destruct uni; [intros t [<-|[]]; apply New; lia|intros t []].
    + destruct (Z.eqb_spec (fst x) gain) as [E|N]; cbn [andb]; [destruct uni|]; cbn [fst snd].
      * split; [apply Keep; [exact C|lia]|]. intros t I. apply in_app_or in I as [I|[<-|[]]]; [apply Keep; [auto|lia]|]. rewrite <- E. apply New. lia.
      * split; [apply Keep; [exact C|lia]|]. intros t I. apply Keep; [auto|lia].
      * split; [apply Keep; [exact C|lia]|]. intros t I. apply Keep; [auto|lia].
Qed.

Lemma best_block_chosen uni v : exists gain, chosen (view_entries v) (best_block limit uw init iw uni v) gain.
Proof.
  destruct v as [es r|parts r]; cbn [view_entries best_block].
  - exists (snd (select_block limit uw init iw uni es r)). apply select_chosen.
  - set (xs := map _ parts). assert (F : Forall2 (fun es x => chosen es (snd x) (fst x)) (map fst parts) xs).
    { unfold xs. clear xs. induction parts as [|p parts IH]; [constructor|]. cbn [map]. constructor; [apply select_chosen|exact IH]. }
    destruct (merge_fold uni _ xs F) as (C & T). unfold merge_locals. destruct (fold_left (merge_local uni) xs (init, 0, [])) as [[best gain] ties].
    cbn [fst snd] in C, T. rewrite flat_map_concat_map. exists gain. destruct uni; [|exact C].
    destruct (break_tie_in ties r best) as [E|I]; [rewrite E; exact C|exact (T _ I)].
Qed.
End Select.

(** ** A visit *)
Lemma shift_weight_nth from to d w b : from <> to -> (from < length w)%nat -> (to < length w)%nat ->
  nth b (shift_weight from to d w) 0 = nth b w 0 + (if (to =? b)%nat then d else 0) - (if (from =? b)%nat then d else 0).
Proof.
  intros N Hf Ht. unfold shift_weight. cbn zeta. rewrite !upd_nth, upd_length.
  destruct (Nat.eqb_spec from b) as [<-|Nb].
  - apply Nat.ltb_lt in Hf. rewrite Hf. cbn [andb]. destruct (Nat.eqb_spec to from); [congruence|]. cbn [andb]. lia.
  - cbn [andb]. destruct (Nat.eqb_spec to b) as [<-|Nt]; cbn [andb]; [|lia]. apply Nat.ltb_lt in Ht. rewrite Ht. lia.
Qed.

Lemma label_upd l u b v : (u < length l)%nat -> label_of (upd u b l) v = relabel (label_of l) u b v.
Proof.
  intros H. unfold label_of, relabel. rewrite upd_nth. apply Nat.ltb_lt in H. rewrite H, andb_true_r, Nat.eqb_sym. reflexivity.
Qed.

(** What a visit does. *)
Lemma lp_visit_cases g limit uni u iw v s : let s' := lp_visit g limit uni u iw v s in
  let init := nth u (p_label s) 0%nat in
  s' = s \/ exists b gain, b <> init /\ chosen init (view_entries v) b gain /\ nth b (p_weight s) 0 + gvw g u <= limit b /\
    s' = PState (upd u b (p_label s)) (shift_weight init b (gvw g u) (p_weight s)).
Proof.
  cbn zeta. unfold lp_visit. set (init := nth u (p_label s) 0%nat). set (b := best_block limit (gvw g u) init iw uni v).
  destruct (Nat.eqb_spec init b) as [E|N]; cbn [negb andb]; [left; reflexivity|].
  destruct (Z.leb_spec (nth b (p_weight s) 0 + gvw g u) (limit b)) as [L|_]; [|left; reflexivity].
  right. destruct (best_block_chosen limit (gvw g u) init iw uni v) as (gain & C). exists b, gain. auto.
Qed.

Section Refine.
Variables (g : graph) (limit : nat -> Z) (uni : bool).

Lemma move_exact l w u b : (u < gn g)%nat -> exact_block_weights g l w -> b <> nth u l 0%nat -> (b < length w)%nat ->
  exact_block_weights g (upd u b l) (shift_weight (nth u l 0%nat) b (gvw g u) w).
Proof.
  intros Hu (L & H & E) Nb Hb. assert (Hi : (nth u l 0 < length w)%nat) by (apply H; exact Hu).
  assert (Lw : length (shift_weight (nth u l 0%nat) b (gvw g u) w) = length w) by (unfold shift_weight; rewrite !upd_length; reflexivity).
  split; [rewrite upd_length; exact L|]. rewrite Lw. split.
  - intros x Hx. rewrite upd_nth. destruct (_ && _)%bool; [exact Hb|apply H; exact Hx].
  - intros c Hc. rewrite shift_weight_nth by (auto; congruence). rewrite (E c Hc).
    rewrite (block_weight_ext g (fun x => nth x (upd u b l) 0%nat) (relabel (label_of l) u b)) by (intros x Hx; apply label_upd; lia).
    rewrite block_weight_relabel by exact Hu. unfold label_of. reflexivity.
Qed.

Lemma run_ok s0 h s : closed_graph g -> (forall u, (u < gn g)%nat -> 0 <= gvw g u) ->
  exact_block_weights g (p_label s0) (p_weight s0) -> lp_refine_run g limit uni s0 h s ->
  In (p_label s) h /\ exact_block_weights g (p_label s) (p_weight s) /\ length (p_weight s) = length (p_weight s0) /\
  (forall l, In l h -> forall u, (u < gn g)%nat -> (nth u l 0 < length (p_weight s0))%nat) /\
  (forall b, (b < length (p_weight s0))%nat -> nth b (p_weight s) 0 <= Z.max (limit b) (nth b (p_weight s0) 0)).
Proof.
  intros Cl Nn E0 R. induction R as [|h s u iw v R IH Hu O s'].
  - split; [left; reflexivity|]. split; [exact E0|]. split; [reflexivity|]. split.
    + intros l [<-|[]] u Hu. apply E0. exact Hu.
    + intros b Hb. lia.
  - destruct IH as (I & E & Lw & Hl & B). split; [left; reflexivity|].
    destruct (lp_visit_cases g limit uni u iw v s) as [Es|(b & gain & Nb & C & Lb & Es)]; fold s' in Es.
    + rewrite Es. split; [exact E|]. split; [exact Lw|]. split; [|exact B]. intros l [<-|Il]; [exact (Hl _ I)|exact (Hl l Il)].
    + assert (Hb : (b < length (p_weight s))%nat).
      { destruct C as (_ & [Ei|(e & Ie & <- & _)] & _); [congruence|]. destruct (O e Ie) as (w & x & l & Iw & Il & <-).
        rewrite Lw. apply (Hl l Il). exact (Cl u w x Hu Iw). }
      pose proof (move_exact (p_label s) (p_weight s) u b Hu E Nb Hb) as E'. rewrite Es. cbn [p_label p_weight].
      assert (Hi : (nth u (p_label s) 0 < length (p_weight s))%nat) by (apply E; exact Hu).
      assert (Lw' : length (shift_weight (nth u (p_label s) 0%nat) b (gvw g u) (p_weight s)) = length (p_weight s0))
        by (unfold shift_weight; rewrite !upd_length; exact Lw).
      split; [exact E'|]. split; [exact Lw'|]. split.
      * intros l [<-|Il]; [|exact (Hl l Il)]. intros x Hx. rewrite <- Lw'. apply E'. exact Hx.
      * intros c Hc. rewrite shift_weight_nth by (auto; congruence). specialize (B c Hc). specialize (Nn u Hu).
        destruct (Nat.eqb_spec b c) as [Ebc|Nbc]; destruct (Nat.eqb_spec (nth u (p_label s) 0%nat) c) as [Eic|Nic]; [exfalso; congruence|subst c; lia|lia|lia].
Qed.

(** ** Cuts *)
Lemma no_loop_conn u : refinable g -> (u < gn g)%nat -> conn g u u = 0.
Proof.
  intros (_ & _ & N & _) Hu. specialize (N u Hu). unfold conn. replace (filter _ (gadj g u)) with (@nil (nat * Z)); [reflexivity|].
  symmetry. clear - N. induction (gadj g u) as [|[v x] l IH]; [reflexivity|]. cbn in N |- *.
  destruct (Nat.eqb_spec v u) as [->|_]; [exfalso; apply N; left; reflexivity|]. apply IH. intros I. apply N. right. exact I.
Qed.

Lemma block_conn_nonneg p u b : refinable g -> (u < gn g)%nat -> 0 <= block_conn g p u b.
Proof.
  intros (_ & _ & _ & P) Hu. unfold block_conn. specialize (fun v w => P u v w Hu). induction (gadj g u) as [|[v x] l IH]; [cbn; lia|].
  cbn [filter fst]. assert (Q : 0 <= zsum (map snd (filter (fun e => (p (fst e) =? b)%nat) l))) by (apply IH; intros v' w' I; apply (P v' w'); right; exact I).
  destruct (p v =? b)%nat; [|exact Q]. cbn [map snd]. specialize (P v x (or_introl eq_refl)).
  change (zsum (x :: map snd (filter (fun e => (p (fst e) =? b)%nat) l))) with (x + zsum (map snd (filter (fun e => (p (fst e) =? b)%nat) l))). lia.
Qed.

Lemma block_conn_absent p u b : (forall w x, In (w, x) (gadj g u) -> p w <> b) -> block_conn g p u b = 0.
Proof.
  intros H. unfold block_conn. replace (filter _ (gadj g u)) with (@nil (nat * Z)); [reflexivity|].
  symmetry. induction (gadj g u) as [|[v x] l IH]; [reflexivity|]. cbn. destruct (Nat.eqb_spec (p v) b) as [E|_]; [exfalso; exact (H v x (or_introl eq_refl) E)|].
  apply IH. intros w y I. apply (H w y). right. exact I.
Qed.

Lemma visit_cut u iw v s : refinable g -> (u < gn g)%nat -> length (p_label s) = gn g -> exact_view g (p_label s) u v ->
  cut_weight g (label_of (p_label (lp_visit g limit uni u iw v s))) <= cut_weight g (label_of (p_label s)).
Proof.
  intros RG Hu Ll (X1 & X2). destruct (lp_visit_cases g limit uni u iw v s) as [Es|(b & gain & Nb & C & _ & Es)]; cbn zeta in Es; rewrite Es; [lia|].
  cbn [p_label]. rewrite (cut_weight_ext g _ (relabel (label_of (p_label s)) u b)) by (intros x Hx; apply label_upd; lia).
  pose proof (gain_is_cut_decrease g (label_of (p_label s)) u b (proj1 RG) (proj1 (proj2 RG)) Hu (no_loop_conn u RG Hu)) as G.
  destruct C as (C0 & [E|(e & Ie & Eb & Er)] & C2); [congruence|]. destruct (X1 e Ie) as (R1 & _). rewrite Eb in R1.
  assert (O : block_conn g (label_of (p_label s)) u (label_of (p_label s) u) <= gain).
  { destruct (in_dec Nat.eq_dec (label_of (p_label s) u) (map (fun e => label_of (p_label s) (fst e)) (gadj g u))) as [I|N].
    - apply in_map_iff in I as ([w x] & Ew & Iw). cbn [fst] in Ew. destruct (X2 w x Iw) as (e' & Ie' & Eb').
      unfold label_of in Ew. rewrite Ew in Eb'. specialize (C2 e' Ie' Eb'). destruct (X1 e' Ie') as (R' & _). rewrite Eb' in R'. unfold label_of at 2. lia.
    - rewrite block_conn_absent; [exact C0|]. intros w x I E. apply N. apply in_map_iff. exists (w, x). split; [exact E|exact I]. }
  lia.
Qed.

(** ** Single-threaded runs *)
Lemma blocks_of_spec l : forall nbrs acc b, In b (blocks_of acc l nbrs) <-> In b acc \/ exists v x, In (v, x) nbrs /\ nth v l 0%nat = b.
Proof.
  induction nbrs as [|[v x] nbrs IH]; intros acc b; cbn [blocks_of].
  - rewrite <- in_rev. split; [left; assumption|]. intros [I|(v & x & [] & _)]. exact I.
  - rewrite IH. clear IH. destruct (existsb (Nat.eqb (nth v l 0%nat)) acc) eqn:Ex.
    + split; (intros [I|(v' & x' & I & E)]; [left; exact I|]).
      * right. exists v', x'. split; [right; exact I|exact E].
      * destruct I as [I|I]; [|right; exists v', x'; auto]. injection I as -> ->. left. apply existsb_exists in Ex as (y & Iy & Ey). apply Nat.eqb_eq in Ey. congruence.
    + split.
      * intros [[I|I]|(v' & x' & I & E)]; [right; exists v, x; split; [left; reflexivity|exact I]|left; exact I|right; exists v', x'; split; [right; exact I|exact E]].
      * intros [I|(v' & x' & [I|I] & E)]; [left; right; exact I| |right; exists v', x'; auto]. injection I as -> ->. left. left. exact E.
Qed.

Lemma ratings_exact s coins u r es : Permutation es (ratings s coins (gadj g u)) -> exact_view g (p_label s) u (InOnePiece es r).
Proof.
  intros P. split; cbn [view_entries].
  - intros e I. apply (Permutation_in _ P) in I. unfold ratings in I. apply in_map_iff in I as (b & <- & Ib). cbn [e_rating e_block].
    split; [reflexivity|]. apply blocks_of_spec in Ib as [[]|(v & x & Iv & E)]. exists v, x. auto.
  - intros w x I. exists (REntry (nth w (p_label s) 0%nat) (zsum (map snd (filter (fun e => (nth (fst e) (p_label s) 0 =? nth w (p_label s) 0)%nat) (gadj g u))))
      (nth (nth w (p_label s) 0%nat) (p_weight s) 0) (coins (nth w (p_label s) 0%nat))).
    split; [|reflexivity]. apply (Permutation_in _ (Permutation_sym P)). unfold ratings. apply in_map_iff. exists (nth w (p_label s) 0%nat). split; [reflexivity|].
    apply blocks_of_spec. right. exists w, x. auto.
Qed.

Lemma sequential_is_run s0 cs maxn : closed_graph g -> choices_ok g cs -> exists h, lp_refine_run g limit uni s0 h (lp_sequential g limit uni maxn cs s0) /\ In (p_label (lp_sequential g limit uni maxn cs s0)) h.
Proof.
  intros Cl. unfold lp_sequential, choices_ok. induction cs as [|c cs IH] using rev_ind; intros F.
  - cbn. eexists. split; [constructor|left; reflexivity].
  - apply Forall_app in F as (F1 & F2). inversion F2 as [|? ? (Hu & P) _]; subst. destruct (IH F1) as (h & R & I). rewrite fold_left_app. cbn [fold_left].
    set (s := fold_left _ cs s0) in *. unfold lp_sequential_visit at 1. eexists. split; [apply lpr_visit; [exact R|exact Hu|]|left; reflexivity].
    cbn [view_entries]. intros e Ie. apply (Permutation_in _ (P _)) in Ie. unfold ratings in Ie. apply in_map_iff in Ie as (b & <- & Ib). cbn [e_block].
    apply blocks_of_spec in Ib as [[]|(v & x & Iv & E)]. exists v, x, (p_label s). split; [|split; [exact I|exact E]].
    destruct maxn as [m|]; [|exact Iv]. rewrite <- (firstn_skipn m). apply in_or_app. left. exact Iv.
Qed.

Lemma sequential_cut s0 cs : refinable g -> (forall u, (u < gn g)%nat -> 0 <= gvw g u) -> exact_block_weights g (p_label s0) (p_weight s0) -> choices_ok g cs ->
  let s := lp_sequential g limit uni None cs s0 in
  cut_weight g (label_of (p_label s)) <= cut_weight g (label_of (p_label s0)) /\ exact_block_weights g (p_label s) (p_weight s) /\
  length (p_weight s) = length (p_weight s0) /\
  forall b, (b < length (p_weight s0))%nat -> nth b (p_weight s) 0 <= Z.max (limit b) (nth b (p_weight s0) 0).
Proof.
  intros RG Nn E0 F s. destruct (sequential_is_run s0 cs None (proj1 RG) F) as (h & R & _). fold s in R.
  destruct (run_ok s0 h s (proj1 RG) Nn E0 R) as (_ & E & Lw & _ & B). split; [|split; [exact E|split; [exact Lw|exact B]]].
  clear E Lw B R h. unfold s, lp_sequential. clear s. revert F. induction cs as [|c cs IH] using rev_ind; intros F; [cbn; lia|].
  apply Forall_app in F as (F1 & F2). inversion F2 as [|? ? (Hu & P) _]; subst. specialize (IH F1). rewrite fold_left_app. cbn [fold_left].
  destruct (sequential_is_run s0 cs None (proj1 RG) F1) as (h & R & _). destruct (run_ok s0 h _ (proj1 RG) Nn E0 R) as (_ & (L & _) & _). unfold lp_sequential in L.
  set (s := fold_left _ cs s0) in *. eapply Z.le_trans; [|exact IH]. unfold lp_sequential_visit at 1. apply visit_cut; [exact RG|exact Hu|exact L|].
  apply (ratings_exact s (ch_coins c)). apply P.
Qed.
End Refine.

(** ** The active set *)
Lemma activate_length (adj : list (nat * Z)) : forall fl, length (fold_left (fun l e => upd (fst e) true l) adj fl) = length fl.
Proof. induction adj as [|e adj IH]; intros fl; [reflexivity|]. cbn [fold_left]. rewrite IH, upd_length. reflexivity. Qed.

Lemma activate_false u (adj : list (nat * Z)) : forall fl, (u < length fl)%nat -> nth u (fold_left (fun l e => upd (fst e) true l) adj fl) false = false ->
  nth u fl false = false /\ ~ In u (map fst adj).
Proof.
  induction adj as [|[v x] adj IH]; intros fl Hu H; [split; [exact H|intros []]|]. cbn [fold_left fst] in H.
  destruct (IH (upd v true fl)) as (A & B); [rewrite upd_length; exact Hu|exact H|]. rewrite upd_nth in A.
  destruct (Nat.eqb_spec v u) as [E|N]; cbn [andb] in A.
  - subst v. apply Nat.ltb_lt in Hu. rewrite Hu in A. discriminate A.
  - split; [exact A|]. intros [I|I]; [exact (N I)|exact (B I)].
Qed.

Lemma sequential_visit_other g limit uni maxn s c v : v <> ch_node c -> nth v (p_label (lp_sequential_visit g limit uni maxn s c)) 0%nat = nth v (p_label s) 0%nat.
Proof.
  intros N. unfold lp_sequential_visit. match goal with |- context [lp_visit g limit uni ?u ?iw ?v s] => destruct (lp_visit_cases g limit uni u iw v s) as [E|(b & gain & _ & _ & _ & E)] end;
    cbn zeta in E; rewrite E; [reflexivity|]. cbn [p_label]. rewrite upd_nth. destruct (Nat.eqb_spec (ch_node c) v); [congruence|reflexivity].
Qed.

Lemma active_set_ok g limit uni maxn s0 cs : symmetric_lists g -> (forall u, (u < gn g)%nat -> ~ In u (map fst (gadj g u))) ->
  Forall (fun c => (ch_node c < gn g)%nat) cs ->
  let run cs := active_run g limit uni maxn cs (AState s0 (repeat true (gn g))) in
  forall u, (u < gn g)%nat -> nth u (a_flags (run cs)) false = false ->
  exists cs1 c cs2, cs = cs1 ++ c :: cs2 /\ ch_node c = u /\ nth u (a_flags (run cs1)) false = true /\
    forall v x, In (v, x) (gadj g u) -> nth v (p_label (a_part (run cs))) 0%nat = nth v (p_label (a_part (run cs1))) 0%nat.
Proof.
  intros Sy Nl F run.
  assert (Q : length (a_flags (run cs)) = gn g /\ forall u, (u < gn g)%nat -> nth u (a_flags (run cs)) false = false ->
    exists cs1 c cs2, cs = cs1 ++ c :: cs2 /\ ch_node c = u /\ nth u (a_flags (run cs1)) false = true /\
      forall v x, In (v, x) (gadj g u) -> nth v (p_label (a_part (run cs))) 0%nat = nth v (p_label (a_part (run cs1))) 0%nat); [|exact (proj2 Q)].
  revert F. induction cs as [|c cs IH] using rev_ind; intros F.
  - cbn. split; [apply repeat_length|]. intros u Hu H. exfalso. clear - Hu H. revert u Hu H. induction (gn g) as [|n IH]; intros [|u] Hu H; try lia; [discriminate H|]. cbn in H. apply (IH u); [lia|exact H].
  - apply Forall_app in F as (F1 & F2). inversion F2 as [|? ? Hw _]; subst. destruct (IH F1) as (Lf & IH').
    assert (Er : run (cs ++ [c]) = active_visit g limit uni maxn (run cs) c) by (unfold run, active_run; rewrite fold_left_app; reflexivity).
    rewrite Er. clear Er. set (a := run cs) in *. unfold active_visit. destruct (nth (ch_node c) (a_flags a) false) eqn:Fw.
    2:{ split; [exact Lf|]. intros u Hu H. destruct (IH' u Hu H) as (cs1 & c' & cs2 & -> & R). exists cs1, c', (cs2 ++ [c]). rewrite <- app_assoc. split; [reflexivity|exact R]. }
    set (w := ch_node c) in *. set (s' := lp_sequential_visit g limit uni maxn (a_part a) c). cbn [a_flags a_part].
    set (moved := (nth w (p_label s') 0 =? nth w (p_label (a_part a)) 0)%nat). split.
    { destruct moved; [|rewrite activate_length]; rewrite upd_length; exact Lf. }
    intros u Hu H.
    destruct (Nat.eq_dec w u) as [E|N].
    + exists cs, c, []. split; [reflexivity|]. split; [exact E|]. split; [rewrite <- E; exact Fw|]. intros v x I. fold a.
      apply sequential_visit_other. fold w. rewrite E. intros ->. apply (Nl u Hu). apply in_map_iff. exists (u, x). auto.
    + assert (K : nth u (a_flags a) false = false /\ (moved = false -> ~ In u (map fst (gadj g w)))).
      { destruct moved.
        - rewrite upd_nth in H. destruct (Nat.eqb_spec w u); [congruence|]. split; [exact H|discriminate].
        - apply activate_false in H as (H1 & H2); [|rewrite upd_length; lia]. rewrite upd_nth in H1. destruct (Nat.eqb_spec w u); [congruence|]. split; [exact H1|intros _; exact H2]. }
      destruct K as (K1 & K2). destruct (IH' u Hu K1) as (cs1 & c' & cs2 & Ec & Ec' & Fl & Lb).
      exists cs1, c', (cs2 ++ [c]). split; [rewrite Ec, <- app_assoc; reflexivity|]. split; [exact Ec'|]. split; [exact Fl|].
      intros v x I. rewrite <- (Lb v x I). destruct (Nat.eq_dec v w) as [->|Nv]; [|apply sequential_visit_other; exact Nv].
      destruct moved eqn:Em; [unfold moved in Em; apply Nat.eqb_eq in Em; exact Em|]. exfalso. apply (K2 eq_refl). apply (Sy u w Hu). apply in_map_iff. exists (w, x). auto.
Qed.

Lemma all_executions g limit uni s0 h s : closed_graph g -> (forall u, (u < gn g)%nat -> 0 <= gvw g u) ->
  exact_block_weights g (p_label s0) (p_weight s0) -> lp_refine_run g limit uni s0 h s ->
  exact_block_weights g (p_label s) (p_weight s) /\ length (p_weight s) = length (p_weight s0) /\
  (forall u, (u < gn g)%nat -> (nth u (p_label s) 0 < length (p_weight s0))%nat) /\
  forall b, (b < length (p_weight s0))%nat -> block_weight g (label_of (p_label s)) b <= Z.max (limit b) (block_weight g (label_of (p_label s0)) b).
Proof.
  intros Cl Nn E0 R. destruct (run_ok g limit uni s0 h s Cl Nn E0 R) as (I & E & Lw & Hl & B). split; [exact E|]. split; [exact Lw|]. split; [exact (Hl _ I)|].
  intros b Hb. specialize (B b Hb). destruct E0 as (_ & _ & E0). destruct E as (_ & _ & E). rewrite (E0 b Hb), (E b) in B by lia. exact B.
Qed.
