(* Proofs about Model/LpClusterModel.v. *)
From Verif Require Import Lib.Prelude Spec.Induced Model.LpClusterModel Spec.LpSpec Proofs.BlockWeightProofs.
Local Open Scope Z_scope.

(** ** Selection of the best cluster *)

Definition sel_ok (acc : nat -> bool) (init : nat) (es : list entry) (b : nat) (gain : Z) : Prop :=
  (gain = 0 /\ b = init /\ forall c r' y, In (c, r', y) es -> acc c = false) \/
  (1 <= gain /\ (exists x, In (b, gain, x) es) /\ acc b = true /\ forall c r' y, In (c, r', y) es -> acc c = true -> r' <= gain).

Definition ties_ok (acc : nat -> bool) (es : list entry) (gain : Z) (ties : list nat) : Prop :=
  forall t, In t ties -> (exists x, In (t, gain, x) es) /\ acc t = true.

Lemma sel_ok_snoc_skip acc init es b gain c r x : sel_ok acc init es b gain ->
  (acc c = true -> r <= gain) -> 1 <= r -> sel_ok acc init (es ++ [(c, r, x)]) b gain.
Proof.
  intros [(E & B & H)|(G & (y & I) & A & H)] Hc R.
  - left. split; [exact E|]. split; [exact B|]. intros c' r' y' I. apply in_app_or in I as [I|[I|[]]]; [exact (H _ _ _ I)|].
    injection I as <- <- <-. destruct (acc c); [|reflexivity]. specialize (Hc eq_refl). lia.
  - right. split; [exact G|]. split; [exists y; apply in_or_app; left; exact I|]. split; [exact A|].
    intros c' r' y' I' A'. apply in_app_or in I' as [I'|[I'|[]]]; [exact (H _ _ _ I' A')|].
    injection I' as <- <- <-. exact (Hc A').
Qed.

Lemma sel_ok_snoc_take acc init es b gain c r x : sel_ok acc init es b gain -> acc c = true -> gain <= r -> 1 <= r ->
  sel_ok acc init (es ++ [(c, r, x)]) c r.
Proof.
  intros H A G R. right. split; [exact R|]. split; [exists x; apply in_or_app; right; left; reflexivity|]. split; [exact A|].
  intros c' r' y' I' A'. apply in_app_or in I' as [I'|[I'|[]]]; [|injection I' as <- <- <-; lia].
  destruct H as [(E & B & H)|(G' & _ & _ & H)]; [rewrite (H _ _ _ I') in A'; discriminate|].
  specialize (H _ _ _ I' A'). lia.
Qed.

Lemma ties_ok_app acc es es' gain ties : ties_ok acc es gain ties -> ties_ok acc (es ++ es') gain ties.
Proof. intros H t I. destruct (H t I) as ((x & X) & A). split; [exists x; apply in_or_app; left; exact X|exact A]. Qed.

Definition uni_inv (acc : nat -> bool) (init : nat) (es : list entry) (st : sel) : Prop :=
  sel_ok acc init es (s_best st) (s_bgain st) /\ ties_ok acc es (s_bgain st) (s_ties st).

Lemma uniform_entry_inv store acc init es st c r x : uni_inv acc init es st -> 1 <= r ->
  uni_inv acc init (es ++ [(c, r, x)]) (uniform_entry store acc st (c, r, x)).
Proof.
  intros (H & T) R. unfold uniform_entry.
  set (st1 := if store then _ else st).
  assert (E1 : s_best st1 = s_best st) by (unfold st1; destruct store; [destruct (_ <? _); [|destruct (_ =? _)]|]; reflexivity).
  assert (E2 : s_bgain st1 = s_bgain st) by (unfold st1; destruct store; [destruct (_ <? _); [|destruct (_ =? _)]|]; reflexivity).
  assert (E3 : s_ties st1 = s_ties st) by (unfold st1; destruct store; [destruct (_ <? _); [|destruct (_ =? _)]|]; reflexivity).
  clearbody st1. rewrite <- E1, <- E2 in H. rewrite <- E2, <- E3 in T. clear E1 E2 E3.
  destruct (Z.ltb_spec (s_bgain st1) r) as [L|L]; [|destruct (Z.eqb_spec r (s_bgain st1)) as [E|E]].
  - destruct (acc c) eqn:A; unfold uni_inv; cbn [s_best s_bgain s_ties].
    + split; [apply (sel_ok_snoc_take _ _ _ (s_best st1) (s_bgain st1)); auto; lia|].
      intros t [<-|[]]. split; [exists x; apply in_or_app; right; left; reflexivity|exact A].
    + split; [apply sel_ok_snoc_skip; auto; congruence|apply ties_ok_app; exact T].
  - destruct (acc c) eqn:A; unfold uni_inv; cbn [s_best s_bgain s_ties].
    + split; [apply sel_ok_snoc_skip; auto; lia|].
      intros t I. apply in_app_or in I as [I|[<-|[]]]; [exact (ties_ok_app acc es [(c, r, x)] _ _ T t I)|].
      split; [exists x; apply in_or_app; right; left; rewrite E; reflexivity|exact A].
    + split; [apply sel_ok_snoc_skip; auto; lia|apply ties_ok_app; exact T].
  - split; [apply sel_ok_snoc_skip; auto; lia|apply ties_ok_app; exact T].
Qed.

Lemma geometric_entry_inv store acc init es st c r x : sel_ok acc init es (s_best st) (s_bgain st) -> 1 <= r ->
  sel_ok acc init (es ++ [(c, r, x)]) (s_best (geometric_entry store acc st (c, r, x))) (s_bgain (geometric_entry store acc st (c, r, x))).
Proof.
  intros H R. unfold geometric_entry.
  set (st1 := if store && _ then _ else st).
  assert (E1 : s_best st1 = s_best st) by (unfold st1; destruct (store && _); reflexivity).
  assert (E2 : s_bgain st1 = s_bgain st) by (unfold st1; destruct (store && _); reflexivity).
  clearbody st1. rewrite <- E1, <- E2 in H. clear E1 E2.
  destruct (acc c) eqn:A; [|rewrite andb_false_r; apply sel_ok_snoc_skip; auto; congruence].
  rewrite andb_true_r. destruct (Z.ltb_spec (s_bgain st1) r) as [L|L]; cbn [orb s_best s_bgain].
  - apply (sel_ok_snoc_take _ _ _ (s_best st1) (s_bgain st1)); auto; lia.
  - destruct ((r =? s_bgain st1) && x) eqn:E; cbn [s_best s_bgain].
    + apply andb_true_iff in E as (E & _). apply Z.eqb_eq in E. apply (sel_ok_snoc_take _ _ _ (s_best st1) (s_bgain st1)); auto; lia.
    + apply sel_ok_snoc_skip; auto.
Qed.

Lemma break_tie_in ties r best : break_tie ties r best = best \/ In (break_tie ties r best) ties.
Proof.
  unfold break_tie. destruct (Nat.ltb_spec 1 (length ties)); [|left; reflexivity]. right. apply nth_In. apply Nat.mod_upper_bound. lia.
Qed.

Definition pos (es : list entry) : Prop := forall c r x, In (c, r, x) es -> 1 <= r.

Lemma sel_ok_retie acc init es b gain t x : sel_ok acc init es b gain -> In (t, gain, x) es -> acc t = true -> pos es -> sel_ok acc init es t gain.
Proof.
  intros [(E & B & H)|(G & _ & _ & H)] I A P.
  - rewrite (H _ _ _ I) in A. discriminate.
  - right. split; [exact G|]. split; [exists x; exact I|]. split; [exact A|exact H].
Qed.

Lemma select_best_ok uni store acc init es r1 r2 b gain f : pos es ->
  select_best uni store acc init es r1 r2 = (b, gain, f) -> sel_ok acc init es b gain.
Proof.
  intros P. unfold select_best. destruct uni; intros E; injection E as <- <- _.
  - assert (I : uni_inv acc init es (fold_left (uniform_entry store acc) es (mkSel init 0 0 init [] []))).
    { revert P. induction es as [|[[c r] x] es IH] using rev_ind; intros P.
      - split; [left; split; [reflexivity|split; [reflexivity|intros ? ? ? []]]|intros t []].
      - rewrite fold_left_app. cbn [fold_left]. apply uniform_entry_inv.
        + apply IH. intros c' r' x' I. apply (P c' r' x'). apply in_or_app; left; exact I.
        + apply (P c r x). apply in_or_app; right; left; reflexivity. }
    destruct I as (H & T). destruct (break_tie_in (s_ties (fold_left (uniform_entry store acc) es (mkSel init 0 0 init [] []))) r1
      (s_best (fold_left (uniform_entry store acc) es (mkSel init 0 0 init [] [])))) as [E|E]; [rewrite E; exact H|].
    destruct (T _ E) as ((x & X) & A). exact (sel_ok_retie _ _ _ _ _ _ x H X A P).
  - revert P. induction es as [|[[c r] x] es IH] using rev_ind; intros P.
    + left. split; [reflexivity|split; [reflexivity|intros ? ? ? []]].
    + rewrite fold_left_app. cbn [fold_left]. apply geometric_entry_inv.
      * apply IH. intros c' r' x' I. apply (P c' r' x'). apply in_or_app; left; exact I.
      * apply (P c r x). apply in_or_app; right; left; reflexivity.
Qed.

(** Favoured clusters are rated clusters or the own cluster. *)
Definition rated (init : nat) (es : list entry) (c : nat) : Prop := c = init \/ exists r x, In (c, r, x) es.

Lemma rated_app init es es' c : rated init es c -> rated init (es ++ es') c.
Proof. intros [E|(r & x & I)]; [left; exact E|right; exists r, x; apply in_or_app; left; exact I]. Qed.
Lemma rated_last init es c r x : rated init (es ++ [(c, r, x)]) c.
Proof. right. exists r, x. apply in_or_app; right; left; reflexivity. Qed.

Lemma select_fav_ok uni store acc init es r1 r2 b gain f :
  select_best uni store acc init es r1 r2 = (b, gain, f) -> rated init es f.
Proof.
  unfold select_best. destruct uni; intros E; injection E as _ _ <-.
  - assert (I : rated init es (s_fav (fold_left (uniform_entry store acc) es (mkSel init 0 0 init [] []))) /\
                forall t, In t (s_fties (fold_left (uniform_entry store acc) es (mkSel init 0 0 init [] []))) -> rated init es t).
    { induction es as [|[[c r] x] es IH] using rev_ind.
      - split; [left; reflexivity|intros t []].
      - rewrite fold_left_app. cbn [fold_left]. destruct IH as (F & T).
        set (st := fold_left _ es _) in *. clearbody st. unfold uniform_entry.
        set (st1 := if store then _ else st).
        assert (C : rated init (es ++ [(c, r, x)]) (s_fav st1) /\ forall t, In t (s_fties st1) -> rated init (es ++ [(c, r, x)]) t).
        { unfold st1. destruct store; [destruct (_ <? _); [|destruct (_ =? _)]|]; cbn [s_fav s_fties].
          - split; [apply rated_last|]. intros t [<-|[]]. apply rated_last.
          - split; [apply rated_app; exact F|]. intros t I. apply in_app_or in I as [I|[<-|[]]]; [apply rated_app; exact (T t I)|apply rated_last].
          - split; [apply rated_app; exact F|]. intros t I. apply rated_app. exact (T t I).
          - split; [apply rated_app; exact F|]. intros t I. apply rated_app. exact (T t I). }
        clearbody st1. destruct (_ <? _); [destruct (acc c); exact C|]. destruct (_ =? _); [destruct (acc c); exact C|exact C]. }
    destruct I as (F & T). destruct (break_tie_in (s_fties (fold_left (uniform_entry store acc) es (mkSel init 0 0 init [] []))) r2
      (s_fav (fold_left (uniform_entry store acc) es (mkSel init 0 0 init [] [])))) as [E|E]; [rewrite E; exact F|exact (T _ E)].
  - induction es as [|[[c r] x] es IH] using rev_ind; [left; reflexivity|].
    rewrite fold_left_app. cbn [fold_left]. set (st := fold_left _ es _) in *. clearbody st. unfold geometric_entry.
    set (st1 := if store && _ then _ else st).
    assert (C : rated init (es ++ [(c, r, x)]) (s_fav st1)) by (unfold st1; destruct (store && _); cbn [s_fav]; [apply rated_last|apply rated_app; exact IH]).
    clearbody st1. destruct (_ && _); exact C.
Qed.

(** Merging the workers' choices. *)
Lemma merge_locals_ok uni acc init (parts : list (list entry)) xs r :
  Forall2 (fun es x => sel_ok acc init es (snd x) (fst x)) parts xs ->
  exists gain, sel_ok acc init (concat parts) (merge_locals uni init xs r) gain.
Proof.
  intros F. unfold merge_locals.
  assert (I : exists best gain ties, fold_left (merge_local uni) xs (init, 0, []) = (best, gain, ties) /\
            sel_ok acc init (concat parts) best gain /\ (forall t, In t ties -> sel_ok acc init (concat parts) t gain)).
  { revert xs F. induction parts as [|es parts IH] using rev_ind; intros xs F.
    - inversion F; subst. exists init, 0, []. split; [reflexivity|]. split; [left; split; [reflexivity|split; [reflexivity|intros ? ? ? []]]|intros t []].
    - apply Forall2_app_inv_l in F as (xs1 & xs2 & F1 & F2 & ->). inversion F2 as [|? x ? xs3 Hx F3]; subst. inversion F3; subst.
      destruct (IH xs1 F1) as (best & gain & ties & E & H & T).
      rewrite fold_left_app, E. cbn [fold_left]. rewrite concat_app. cbn [concat]. rewrite app_nil_r.
      assert (Old : forall t, fst x <= gain -> sel_ok acc init (concat parts) t gain -> sel_ok acc init (concat parts ++ es) t gain).
      { intros t L [(G0 & B & A)|(G & (y & I) & A & M)].
        - left. split; [exact G0|]. split; [exact B|]. intros c r' y I. apply in_app_or in I as [I|I]; [exact (A _ _ _ I)|].
          destruct Hx as [(_ & _ & Hx)|(G & _)]; [exact (Hx _ _ _ I)|lia].
        - right. split; [exact G|]. split; [exists y; apply in_or_app; left; exact I|]. split; [exact A|].
          intros c r' z I' A'. apply in_app_or in I' as [I'|I']; [exact (M _ _ _ I' A')|].
          destruct Hx as [(_ & _ & Hx)|(_ & _ & _ & Hx)]; [rewrite (Hx _ _ _ I') in A'; discriminate|]. specialize (Hx _ _ _ I' A'). lia. }
      assert (New : gain <= fst x -> sel_ok acc init (concat parts ++ es) (snd x) (fst x)).
      { intros L. destruct Hx as [(G0 & B & A)|(G & (y & I) & A & M)].
        - left. split; [exact G0|]. split; [exact B|]. intros c r' y I. apply in_app_or in I as [I|I]; [|exact (A _ _ _ I)].
          destruct H as [(_ & _ & H)|(G & _)]; [exact (H _ _ _ I)|lia].
        - right. split; [exact G|]. split; [exists y; apply in_or_app; right; exact I|]. split; [exact A|].
          intros c r' z I' A'. apply in_app_or in I' as [I'|I']; [|exact (M _ _ _ I' A')].
          destruct H as [(_ & _ & H)|(_ & _ & _ & H)]; [rewrite (H _ _ _ I') in A'; discriminate|]. specialize (H _ _ _ I' A'). lia. }
      unfold merge_local. destruct (Z.ltb_spec gain (fst x)) as [L|L].
      + exists (snd x), (fst x), (if uni then [snd x] else []). split; [reflexivity|]. split; [apply New; lia|].
        intros t It. destruct uni; [destruct It as [<-|[]]; apply New; lia|destruct It].
      + destruct ((fst x =? gain) && uni) eqn:Eq.
        * apply andb_true_iff in Eq as (Eq & _). apply Z.eqb_eq in Eq.
          exists best, gain, (ties ++ [snd x]). split; [reflexivity|]. split; [apply Old; [lia|exact H]|].
          intros t It. apply in_app_or in It as [It|[<-|[]]]; [apply Old; [lia|exact (T t It)]|].
          rewrite <- Eq. apply New. lia.
        * exists best, gain, ties. split; [reflexivity|]. split; [apply Old; [lia|exact H]|]. intros t It. apply Old; [lia|exact (T t It)]. }
  destruct I as (best & gain & ties & E & H & T). rewrite E. exists gain. destruct uni; [|exact H].
  destruct (break_tie_in ties r best) as [B|B]; [rewrite B; exact H|exact (T _ B)].
Qed.

Lemma merge_locals_in uni init xs r (P : nat -> Prop) : P init -> (forall x, In x xs -> P (snd x)) -> P (merge_locals uni init xs r).
Proof.
  intros Pi Px. unfold merge_locals.
  assert (I : forall st, P (fst (fst st)) -> (forall t, In t (snd st) -> P t) ->
     P (fst (fst (fold_left (merge_local uni) xs st))) /\ forall t, In t (snd (fold_left (merge_local uni) xs st)) -> P t).
  { revert Px. induction xs as [|x xs IH]; intros Px [[best gain] ties] B T; [split; assumption|].
    cbn [fold_left]. apply IH; [intros y Iy; apply Px; right; exact Iy| |];
      unfold merge_local; destruct (_ <? _); [|destruct (_ && _)| |destruct (_ && _)]; cbn [fst snd] in *; auto.
    - apply Px. left; reflexivity.
    - intros t It. destruct uni; [destruct It as [<-|[]]; apply Px; left; reflexivity|destruct It].
    - intros t It. apply in_app_or in It as [It|[<-|[]]]; [exact (T t It)|apply Px; left; reflexivity]. }
  specialize (I (init, 0, []) Pi (fun t (H : In t []) => match H with end)).
  destruct (fold_left _ xs _) as [[best gain] ties]. cbn [fst snd] in I. destruct I as (B & T).
  destruct uni; [|exact B]. destruct (break_tie_in ties r best) as [E|E]; [rewrite E; exact B|exact (T _ E)].
Qed.

Lemma sel_ok_best acc init es b gain : sel_ok acc init es b gain -> best_choice acc init es b.
Proof.
  intros [(_ & B & H)|(_ & (x & I) & A & H)]; [right; split; [exact B|exact H]|left; exists gain, x; split; [exact I|split; [exact A|exact H]]].
Qed.

Lemma concat_flat {A B} (f : A -> list B) l : flat_map f l = concat (map f l).
Proof. apply flat_map_concat_map. Qed.

Lemma find_best_ok uni store acc init k b f : pos (kind_entries k) -> find_best uni store acc init k = (b, f) ->
  best_choice acc init (kind_entries k) b /\ rated init (kind_entries k) f.
Proof.
  intros P E. destruct k as [es r1 r2|parts fg r1 r2]; unfold find_best in E; cbn [kind_entries] in *.
  - destruct (select_best uni store acc init es r1 r2) as [[b' gain] f'] eqn:S. injection E as <- <-.
    split; [exact (sel_ok_best _ _ _ _ _ (select_best_ok _ _ _ _ _ _ _ _ _ _ P S))|exact (select_fav_ok _ _ _ _ _ _ _ _ _ _ S)].
  - injection E as <- <-. split.
    + rewrite concat_flat. edestruct (merge_locals_ok uni acc init (map fst parts)) as (gain & H); [|exact (sel_ok_best _ _ _ _ _ H)].
      rewrite map_map. cbn [fst snd]. revert P. induction parts as [|[es [a b]] parts IH]; intros P; constructor.
      * cbn [fst snd]. destruct (select_best uni store acc init es a b) as [[b' gain] f'] eqn:S. cbn [fst snd].
        apply (select_best_ok uni store acc init es a b b' gain f'); [|exact S].
        intros c r x I. apply (P c r x). cbn [flat_map fst]. apply in_or_app; left; exact I.
      * apply IH. intros c r x I. apply (P c r x). cbn [flat_map]. apply in_or_app; right; exact I.
    + destruct store; [|left; reflexivity]. apply merge_locals_in; [left; reflexivity|].
      intros [z c] I. cbn [snd]. apply in_combine_r in I. apply in_map_iff in I as ([[b' g'] f'] & <- & I). cbn [snd].
      apply in_map_iff in I as ([es [a b]] & S & I). cbn [fst snd] in S.
      destruct (select_fav_ok _ _ _ _ _ _ _ _ _ _ S) as [E|(r & x & I')]; [left; exact E|right].
      exists r, x. apply in_flat_map. exists (es, (a, b)). split; [exact I|exact I'].
Qed.

(** ** The rounds *)

(** What one visit does, without the internals of the selection. *)
Lemma visit_cases g maxw comm uni u k ow chk s :
  pos (kind_entries k) ->
  let s' := visit g maxw comm uni u k ow chk s in
  let init := nth u (l_cl s) 0%nat in
  (l_fav s' = l_fav s \/ exists f, l_fav s' = upd u f (l_fav s) /\ rated init (kind_entries k) f) /\
  ((l_cl s' = l_cl s /\ l_w s' = l_w s) \/
   exists b, b <> init /\ l_cl s' = upd u b (l_cl s) /\ l_w s' = shift_weight init b (lg_weight g u) (l_w s) /\
     chk b + lg_weight g u <= maxw /\ ow b + lg_weight g u <= maxw /\ comm_ok comm init b = true /\
     exists r x, In (b, r, x) (kind_entries k)).
Proof.
  intros P. cbn zeta. unfold visit.
  destruct (find_best uni _ _ _ k) as [b f] eqn:E. apply find_best_ok in E as (B & F); [|exact P].
  set (init := nth u (l_cl s) 0%nat) in *.
  set (store := _ && (_ <=? maxw / 2)) in *. clearbody store.
  assert (FV : (if store && (b =? init)%nat then upd u f (l_fav s) else l_fav s) = l_fav s \/
     exists f0, (if store && (b =? init)%nat then upd u f (l_fav s) else l_fav s) = upd u f0 (l_fav s) /\ rated init (kind_entries k) f0).
  { destruct (store && _); [right; exists f; split; [reflexivity|exact F]|left; reflexivity]. }
  destruct (negb (init =? b)%nat && (chk b + lg_weight g u <=? maxw)) eqn:M; cbn [l_cl l_w l_fav]; (split; [exact FV|]).
  - right. apply andb_true_iff in M as (N & C). apply negb_true_iff, Nat.eqb_neq in N. apply Z.leb_le in C.
    destruct B as [(r & x & I & A & _)|(B & _)]; [|congruence].
    unfold acceptable in A. apply andb_true_iff in A as (A & Cm). apply orb_true_iff in A as [A|A]; [|apply Nat.eqb_eq in A; congruence].
    apply Z.leb_le in A. exists b. repeat (split; [first [congruence|assumption|reflexivity]|]). exists r, x. exact I.
  - left. split; reflexivity.
Qed.

Lemma observed_pos g h u k : observed g h u (kind_entries k) -> pos (kind_entries k).
Proof. intros O c r x I. exact (proj1 (O _ _ _ I)). Qed.

Lemma nth_upd_cases {A} u (b : A) cl x d : nth x (upd u b cl) d = (if (u =? x)%nat && (u <? length cl)%nat then b else nth x cl d).
Proof. apply upd_nth. Qed.

Section Run.
Variables (g : lgraph) (maxw : Z) (comm : list nat) (uni : bool).
Hypothesis OK : lg_ok g.

Lemma adj_lt u v x : (u < length g)%nat -> In (v, x) (lg_adj g u) -> (v < length g)%nat.
Proof using OK.
  intros Hu I. unfold lg_adj in I. destruct (nth u g (0, [])) as [w adj] eqn:E.
  assert (J : In (w, adj) g) by (rewrite <- E; apply nth_In; exact Hu).
  exact (proj1 (proj2 (OK _ _ J) _ _ I)).
Qed.

Lemma weight_pos u : (u < length g)%nat -> 1 <= lg_weight g u.
Proof using OK.
  intros Hu. unfold lg_weight. destruct (nth u g (0, [])) as [w adj] eqn:E.
  assert (J : In (w, adj) g) by (rewrite <- E; apply nth_In; exact Hu).
  exact (proj1 (OK _ _ J)).
Qed.

(** Labels name nodes of the same community. *)
Definition label_ok (cl : list nat) : Prop :=
  length cl = length g /\ forall u, (u < length g)%nat -> (nth u cl 0 < length g)%nat /\ nth (nth u cl 0%nat) comm 0%nat = nth u comm 0%nat.

Lemma run_labels h s : lp_run g maxw comm uni h s ->
  In (l_cl s) h /\ (forall cl, In cl h -> label_ok cl) /\ length (l_w s) = length g /\ length (l_fav s) = length g /\
  forall u, (u < length g)%nat -> (nth u (l_fav s) 0 < length g)%nat.
Proof using OK.
  induction 1 as [|h s u k ow chk R IH Hu O s'].
  - cbn [l_cl l_w l_fav lp_init]. rewrite map_length, seq_length. split; [left; reflexivity|]. split.
    + intros cl [<-|[]]. split; [apply seq_length|]. intros v Hv. rewrite seq_nth by exact Hv. rewrite Nat.add_0_l. split; [exact Hv|reflexivity].
    + split; [reflexivity|]. split; [reflexivity|]. intros v Hv. rewrite seq_nth by exact Hv. exact Hv.
  - destruct IH as (I0 & H & LW & LF & FV). pose proof (H _ I0) as (LC & HC).
    destruct (visit_cases g maxw comm uni u k ow chk s (observed_pos _ _ _ _ O)) as (F & C). fold s' in F, C.
    assert (En : forall c r x, In (c, r, x) (kind_entries k) -> (c < length g)%nat).
    { intros c r x I. destruct (O _ _ _ I) as (_ & v & y & cl & A & Ih & <-). destruct (H _ Ih) as (_ & Hl).
      apply Hl. exact (adj_lt _ _ _ Hu A). }
    assert (LO : label_ok (l_cl s')).
    { destruct C as [(C & _)|(b & N & C & _ & _ & _ & Cm & r & x & I)]; rewrite C; [split; [exact LC|exact HC]|].
      split; [rewrite upd_length; exact LC|]. intros v Hv. rewrite upd_nth.
      destruct ((u =? v)%nat && (u <? length (l_cl s))%nat) eqn:E; [|exact (HC v Hv)].
      apply andb_true_iff in E as (E & _). apply Nat.eqb_eq in E. subst v. split; [exact (En _ _ _ I)|].
      unfold comm_ok in Cm. destruct comm as [|c0 cs]; [destruct b, u; reflexivity|]. apply Nat.eqb_eq in Cm.
      rewrite Cm. exact (proj2 (HC u Hu)). }
    split; [left; reflexivity|]. split; [intros cl [<-|I]; [exact LO|exact (H _ I)]|].
    split; [|split].
    + destruct C as [(_ & C)|(b & _ & _ & C & _)]; rewrite C; [exact LW|]. unfold shift_weight. rewrite !upd_length. exact LW.
    + destruct F as [F|(f & F & _)]; rewrite F; [exact LF|rewrite upd_length; exact LF].
    + destruct F as [F|(f & F & [E|(r & x & I)])]; rewrite F; [exact FV| |];
        intros v Hv; rewrite upd_nth; destruct (_ && _); try exact (FV v Hv).
      * rewrite E. exact (proj1 (HC u Hu)).
      * exact (En _ _ _ I).
Qed.

(** ** Weights *)

Definition lw (cl : list nat) (c : nat) : Z := lweight (lg_weight g) cl c.

Lemma weight_of_lw cl c : weight_of g cl c = lw cl c.
Proof using.
  unfold weight_of, members, lw, lweight. rewrite zsum_filter. unfold sumn.
  f_equal. apply map_ext_in. intros u I. apply in_seq in I. rewrite (nth_indep cl (S c) 0%nat) by lia. reflexivity.
Qed.

Record winv (s : lps) : Prop := mkWinv {
  wi_len : length (l_cl s) = length g; wi_lw : length (l_w s) = length g;
  wi_lt : forall u, (u < length g)%nat -> (nth u (l_cl s) 0 < length g)%nat;
  wi_ex : forall c, (c < length g)%nat -> nth c (l_w s) 0 = lw (l_cl s) c;
  wi_lim : forall c, lw (l_cl s) c <= maxw \/ forall u v, (u < length g)%nat -> (v < length g)%nat ->
     nth u (l_cl s) 0%nat = c -> nth v (l_cl s) 0%nat = c -> u = v }.

Lemma shift_nth from to d w c : (from < length w)%nat -> (to < length w)%nat ->
  nth c (shift_weight from to d w) 0 = nth c w 0 + ind to c d - ind from c d.
Proof using.
  intros Hf Ht. unfold shift_weight. rewrite !upd_nth, !upd_length. unfold ind.
  rewrite (proj2 (Nat.ltb_lt from (length w))) by exact Hf. rewrite (proj2 (Nat.ltb_lt to (length w))) by exact Ht. rewrite !andb_true_r.
  destruct (Nat.eqb_spec from c) as [->|A], (Nat.eqb_spec to c) as [->|B]; try rewrite Nat.eqb_refl; try lia.
  all: try (destruct (Nat.eqb_spec to c); try lia).
Qed.

Lemma winv_init : winv (lp_init g).
Proof using.
  assert (L : forall u, (u < length g)%nat -> nth u (seq 0 (length g)) 0%nat = u) by (intros u Hu; rewrite seq_nth by exact Hu; reflexivity).
  constructor; cbn [lp_init l_cl l_w].
  - apply seq_length.
  - rewrite map_length. apply seq_length.
  - intros u Hu. rewrite L by exact Hu. exact Hu.
  - intros c Hc. rewrite nth_map_seq by exact Hc. rewrite Nat.add_0_l. unfold lw, lweight. rewrite seq_length.
    rewrite (sumn_ext _ _ (fun i => if (i =? c)%nat then lg_weight g c else 0)).
    + rewrite sumn_indicator by exact Hc. reflexivity.
    + intros i Hi. rewrite L by exact Hi. destruct (Nat.eqb_spec i c) as [->|]; reflexivity.
  - intros c. right. intros u v Hu Hv. rewrite !L by assumption. congruence.
Qed.

Lemma lw_nonneg cl c : length cl = length g -> 0 <= lw cl c.
Proof using OK.
  intros L. unfold lw, lweight. apply sumn_nonneg. intros i Hi. destruct (_ =? _)%nat; [|lia]. pose proof (weight_pos i). lia.
Qed.

Lemma winv_move s u c fav : winv s -> (u < length g)%nat -> (c < length g)%nat -> c <> nth u (l_cl s) 0%nat ->
  nth c (l_w s) 0 + lg_weight g u <= maxw ->
  winv (mkLps (upd u c (l_cl s)) (shift_weight (nth u (l_cl s) 0%nat) c (lg_weight g u) (l_w s)) fav).
Proof using OK.
  intros [LC LW LT EX LIM] Hu Hc N M. constructor; cbn [l_cl l_w].
  - rewrite upd_length. exact LC.
  - unfold shift_weight. rewrite !upd_length. exact LW.
  - intros v Hv. rewrite upd_nth. destruct (_ && _); [exact Hc|exact (LT v Hv)].
  - intros d Hd. rewrite shift_nth by (rewrite LW; auto). rewrite EX by exact Hd. unfold lw.
    rewrite lweight_upd by (rewrite LC; exact Hu). reflexivity.
  - intros d. unfold lw. rewrite lweight_upd by (rewrite LC; exact Hu). fold (lw (l_cl s) d). unfold ind.
    destruct (Nat.eqb_spec c d) as [<-|Nd].
    + left. rewrite (proj2 (Nat.eqb_neq _ _)) by congruence. rewrite <- EX by exact Hc. lia.
    + destruct (LIM d) as [L|L].
      * left. pose proof (weight_pos u Hu). destruct (_ =? _)%nat; lia.
      * right. intros v w Hv Hw. rewrite !upd_nth.
        destruct ((u =? v)%nat && _); [congruence|]. destruct ((u =? w)%nat && _); [congruence|]. apply L; assumption.
Qed.

Lemma winv_fav s fav : winv s -> winv (mkLps (l_cl s) (l_w s) fav).
Proof using. intros [A B C D E]. constructor; assumption. Qed.

Lemma winv_of s s' : winv s -> l_cl s' = l_cl s -> l_w s' = l_w s -> winv s'.
Proof using. intros [A B C D E] E1 E2. constructor; rewrite ?E1, ?E2; assumption. Qed.

Lemma seq_winv s : seq_run g maxw comm uni s -> winv s.
Proof using OK.
  induction 1 as [|s u k R IH Hu O]; [exact winv_init|].
  destruct (visit_cases g maxw comm uni u k (fun c => nth c (l_w s) 0) (fun c => nth c (l_w s) 0) s (observed_pos _ _ _ _ O)) as (_ & C).
  destruct C as [(C1 & C2)|(b & N & C1 & C2 & M & _ & _ & r & x & I)]; [exact (winv_of _ _ IH C1 C2)|].
  destruct (O _ _ _ I) as (_ & v & y & cl & A & [<-|[]] & E).
  assert (Hb : (b < length g)%nat) by (rewrite <- E; apply (wi_lt _ IH); exact (adj_lt _ _ _ Hu A)).
  refine (winv_of _ _ (winv_move s u b (l_fav s) IH Hu Hb N M) _ _); cbn [l_cl l_w]; assumption.
Qed.

(** Nodes without neighbours keep their own cluster, and nobody joins them. *)
Definition lonely (cl : list nat) (u : nat) : Prop :=
  forall v, (v < length g)%nat -> (nth v cl 0%nat = u <-> v = u).

Hypothesis SYM : symmetric g.

Lemma seq_lonely s u : seq_run g maxw comm uni s -> (u < length g)%nat -> lg_adj g u = [] -> lonely (l_cl s) u.
Proof using OK SYM.
  intros R Hu D. induction R as [|s v k R IH Hv O].
  - intros v Hv. cbn [lp_init l_cl]. rewrite seq_nth by exact Hv. reflexivity.
  - pose proof (wi_len _ (seq_winv _ R)) as LC.
    destruct (visit_cases g maxw comm uni v k (fun c => nth c (l_w s) 0) (fun c => nth c (l_w s) 0) s (observed_pos _ _ _ _ O)) as (_ & C).
    destruct C as [(C1 & _)|(b & N & C1 & _ & _ & _ & _ & r & x & I)]; rewrite C1; [exact IH|].
    destruct (O _ _ _ I) as (_ & z & y & cl & A & [<-|[]] & E).
    intros w Hw. rewrite upd_nth. destruct (Nat.eqb_spec v w) as [->|Nw]; cbn [andb]; [|exact (IH w Hw)].
    rewrite (proj2 (Nat.ltb_lt _ _)) by lia. split.
    + intros Eb. exfalso. rewrite <- E in Eb. apply (proj1 (IH z (adj_lt _ _ _ Hw A))) in Eb. subst z.
      destruct (SYM _ _ _ Hw A) as (y' & A'). rewrite D in A'. destruct A'.
    + intros ->. rewrite D in A. destruct A.
Qed.

(** A node that is alone in its cluster: the cluster weight is the node weight. *)
Lemma lonely_weight cl u : length cl = length g -> (u < length g)%nat -> lonely cl u -> lw cl u = lg_weight g u.
Proof using.
  intros L Hu A. unfold lw, lweight. rewrite L.
  rewrite (sumn_ext _ _ (fun i => if (i =? u)%nat then lg_weight g u else 0)).
  - apply sumn_indicator. exact Hu.
  - intros i Hi. destruct (Nat.eqb_spec i u) as [->|N].
    + rewrite (proj2 (Nat.eqb_eq _ _)) by (apply A; [exact Hu|reflexivity]). reflexivity.
    + rewrite (proj2 (Nat.eqb_neq _ _)); [reflexivity|]. intros E. apply (proj1 (A i Hi)) in E. congruence.
Qed.

(** Conversely, a cluster of the weight of its own node contains no other node. *)
Lemma weight_lonely cl u : length cl = length g -> (u < length g)%nat -> nth u cl 0%nat = u -> lw cl u = lg_weight g u -> lonely cl u.
Proof using OK.
  intros L Hu E W v Hv. split; [|intros ->; exact E]. intros Ev. destruct (Nat.eq_dec v u) as [|N]; [assumption|exfalso].
  assert (X : lw cl u >= lg_weight g u + lg_weight g v).
  { unfold lw, lweight. rewrite L.
    pose proof (sumn_le (length g) (fun i => (if (i =? u)%nat then lg_weight g u else 0) + (if (i =? v)%nat then lg_weight g v else 0))
      (fun i => if (nth i cl 0 =? u)%nat then lg_weight g i else 0)) as S.
    rewrite sumn_add, !sumn_indicator in S by assumption. rewrite Z.ge_le_iff. apply S.
    intros i Hi. pose proof (weight_pos i Hi).
    destruct (Nat.eqb_spec i u) as [E1|N1], (Nat.eqb_spec i v) as [E2|N2]; try congruence.
    - rewrite E1, E, Nat.eqb_refl. lia.
    - rewrite E2, Ev, Nat.eqb_refl. lia.
    - destruct (_ =? _)%nat; lia. }
  pose proof (weight_pos v Hv). lia.
Qed.

(** ** Isolated nodes *)

Definition iinv (rest : list nat) (st : lps * (nat -> option nat)) : Prop :=
  let '(s, cur) := st in
  winv s /\ (forall u, In u rest -> lg_adj g u = [] -> lonely (l_cl s) u) /\
  (forall t c, cur t = Some c -> (c < length g)%nat /\ ~ In c rest).

Lemma iso_step_inv matching t u rest st : NoDup (u :: rest) -> (u < length g)%nat ->
  iinv (u :: rest) st -> iinv rest (iso_step matching g maxw st (t, u)).
Proof using OK SYM.
  destruct st as [s cur]. intros ND Hu (W & A & C). inversion_clear ND as [|? ? NU ND'].
  assert (Skip : forall cur', (forall t c, cur' t = Some c -> (c < length g)%nat /\ ~ In c rest) -> iinv rest (s, cur')).
  { intros cur' H. split; [exact W|]. split; [intros v I; apply A; right; exact I|exact H]. }
  unfold iso_step. destruct (lg_adj g u) eqn:D; [|apply Skip; intros t' c E; destruct (C _ _ E) as (H1 & H2); split; [exact H1|intros I; apply H2; right; exact I]].
  pose proof (A u (or_introl eq_refl) D) as AU. pose proof (proj2 (AU u Hu) eq_refl) as EU. rewrite EU.
  assert (SetU : forall t' c, (fun t'0 => if (t'0 =? t)%nat then Some u else cur t'0) t' = Some c -> (c < length g)%nat /\ ~ In c rest).
  { intros t' c E. cbn beta in E. destruct (t' =? t)%nat; [injection E as <-; split; [exact Hu|exact NU]|].
    destruct (C _ _ E) as (H1 & H2); split; [exact H1|intros I; apply H2; right; exact I]. }
  destruct (cur t) as [c|] eqn:Ct; [|apply Skip; exact SetU].
  destruct (C _ _ Ct) as (Hc & NC).
  assert (Wu : nth u (l_w s) 0 = lg_weight g u) by (rewrite (wi_ex _ W) by exact Hu; apply lonely_weight; [exact (wi_len _ W)|exact Hu|exact AU]).
  rewrite Wu. destruct (Z.leb_spec (nth c (l_w s) 0 + lg_weight g u) maxw) as [M|M]; [|apply Skip; exact SetU].
  assert (Ncu : c <> u) by (intros ->; apply NC; left; reflexivity).
  split; [|split].
  - rewrite <- EU at 2. apply winv_move; auto. rewrite EU. exact Ncu.
  - intros v I Dv w Hw. cbn [l_cl]. rewrite upd_nth. destruct (Nat.eqb_spec u w) as [<-|Nw]; cbn [andb].
    + rewrite (wi_len _ W), (proj2 (Nat.ltb_lt _ _)) by exact Hu. split; [intros ->; exfalso; apply NC; right; exact I|intros ->; exfalso; exact (NU I)].
    + apply A; [right; exact I|exact Dv|exact Hw].
  - intros t' c' E. destruct (t' =? t)%nat.
    + destruct matching; [discriminate|]. injection E as <-. split; [exact Hc|intros I; apply NC; right; exact I].
    + destruct (C _ _ E) as (H1 & H2); split; [exact H1|intros I; apply H2; right; exact I].
Qed.

Lemma isolated_winv matching evs s : winv s -> NoDup (map snd evs) -> (forall u, In u (map snd evs) -> (u < length g)%nat) ->
  (forall u, (u < length g)%nat -> lg_adj g u = [] -> lonely (l_cl s) u) -> winv (isolated matching g maxw evs s).
Proof using OK SYM.
  intros W ND LT A. unfold isolated.
  assert (I : iinv (map snd evs) (s, fun _ => None)) by (split; [exact W|split; [intros u Iu; apply A, LT, Iu|intros t c E; discriminate]]).
  revert I ND LT. generalize (s, fun _ : nat => @None nat). induction evs as [|[t u] evs IH]; intros [s0 cur] I ND LT.
  - exact (proj1 I).
  - cbn [fold_left map snd] in *. apply IH.
    + apply iso_step_inv; [exact ND|apply LT; left; reflexivity|exact I].
    + inversion ND; assumption.
    + intros v Iv. apply LT. right; exact Iv.
Qed.

(** ** Two-hop nodes *)

Definition hinv (matching : bool) (rest : list nat) (st : lps * (nat -> nat -> nat)) : Prop :=
  let '(s, mm) := st in
  winv s /\
  (forall t k c, mm t k = S c -> (c < length g)%nat /\ ~ In c rest /\ nth c (l_cl s) 0%nat = c /\
     (matching = true -> lonely (l_cl s) c /\ nth c (l_w s) 0 <= maxw / 2 /\ nth c (l_fav s) 0%nat = k /\
        forall t' k', mm t' k' = S c -> t' = t /\ k' = k)).

Lemma considered_spec s u : winv s -> (u < length g)%nat -> considered g maxw s u = true ->
  nth u (l_cl s) 0%nat = u /\ nth u (l_w s) 0 <= maxw / 2 /\ nth u (l_w s) 0 = lg_weight g u /\ lonely (l_cl s) u /\ lg_adj g u <> [].
Proof using OK.
  intros W Hu. unfold considered. destruct (lg_adj g u); [discriminate|]. intros E.
  apply andb_true_iff in E as (E & E3). apply andb_true_iff in E as (E1 & E2). apply Nat.eqb_eq in E1. apply Z.leb_le in E2. apply Z.eqb_eq in E3.
  split; [congruence|]. split; [exact E2|]. split; [exact E3|]. split; [|discriminate].
  apply weight_lonely; [exact (wi_len _ W)|exact Hu|congruence|]. rewrite <- (wi_ex _ W) by exact Hu. exact E3.
Qed.

Lemma half2 z : z / 2 + z / 2 <= z.
Proof using. pose proof (Z_div_mod_eq_full z 2). pose proof (Z.mod_pos_bound z 2). lia. Qed.

Lemma hop_step_inv matching t u rest st : NoDup (u :: rest) -> (u < length g)%nat ->
  hinv matching (u :: rest) st -> hinv matching rest (hop_step matching g maxw st (t, u)).
Proof using OK.
  destruct st as [s mm]. intros ND Hu (W & C). inversion_clear ND as [|? ? NU ND'].
  unfold hop_step. destruct (considered g maxw s u) eqn:D.
  2:{ split; [exact W|]. intros t' k' c E. destruct (C _ _ _ E) as (H1 & H2 & H3 & H4). split; [exact H1|]. split; [intros I; apply H2; right; exact I|]. split; [exact H3|exact H4]. }
  destruct (considered_spec _ _ W Hu D) as (EU & Wh & Wu & AU & _). rewrite EU.
  set (key := nth u (l_fav s) 0%nat).
  assert (SetU : hinv matching rest (s, fun t' k' => if ((t' =? t) && (k' =? key))%nat then S u else mm t' k')).
  { split; [exact W|]. intros t' k' c E. destruct ((t' =? t) && (k' =? key))%nat eqn:Q.
    - injection E as <-. apply andb_true_iff in Q as (Q1 & Q2). apply Nat.eqb_eq in Q1, Q2. subst t' k'.
      split; [exact Hu|]. split; [exact NU|]. split; [exact EU|]. intros _. split; [exact AU|]. split; [exact Wh|]. split; [reflexivity|].
      intros t2 k2 E2. destruct ((t2 =? t) && (k2 =? key))%nat eqn:Q; [apply andb_true_iff in Q as (Q1 & Q2); apply Nat.eqb_eq in Q1, Q2; split; assumption|].
      destruct (C _ _ _ E2) as (_ & H2 & _). exfalso. apply H2. left; reflexivity.
    - destruct (C _ _ _ E) as (H1 & H2 & H3 & H4). split; [exact H1|]. split; [intros I; apply H2; right; exact I|]. split; [exact H3|].
      intros Mt. destruct (H4 Mt) as (P1 & P2 & P3 & P4). split; [exact P1|]. split; [exact P2|]. split; [exact P3|].
      intros t2 k2 E2. destruct ((t2 =? t) && (k2 =? key))%nat eqn:Q'; [|exact (P4 _ _ E2)].
      injection E2 as <-. exfalso. apply H2. left; reflexivity. }
  destruct (mm t key) as [|rep] eqn:K; [exact SetU|].
  destruct (C _ _ _ K) as (Hr & Nr & Er & Mr).
  assert (Nru : rep <> u) by (intros ->; apply Nr; left; reflexivity).
  assert (Mv : nth rep (l_w s) 0 + lg_weight g u <= maxw ->
            winv (mkLps (upd u rep (l_cl s)) (shift_weight u rep (lg_weight g u) (l_w s)) (l_fav s))).
  { intros M. rewrite <- EU at 2. apply winv_move; auto. rewrite EU. exact Nru. }
  assert (Keep : forall t' k' c, mm t' k' = S c -> (c < length g)%nat /\ ~ In c rest /\ nth c (upd u rep (l_cl s)) 0%nat = c).
  { intros t' k' c E. destruct (C _ _ _ E) as (H1 & H2 & H3 & _). split; [exact H1|]. split; [intros I; apply H2; right; exact I|].
    rewrite upd_nth_other; [exact H3|]. intros ->. apply H2. left; reflexivity. }
  rewrite Wu. destruct matching.
  - destruct (Mr eq_refl) as (P1 & P2 & P3 & P4).
    rewrite (proj2 (Z.leb_le _ _)) by (pose proof (half2 maxw); lia).
    split; [apply Mv; pose proof (half2 maxw); lia|].
    intros t' k' c E. destruct ((t' =? t) && (k' =? key))%nat eqn:Q; [discriminate|].
    destruct (Keep _ _ _ E) as (H1 & H2 & H3). split; [exact H1|]. split; [exact H2|]. split; [exact H3|]. intros _.
    destruct (C _ _ _ E) as (_ & H2' & _ & H4). destruct (H4 eq_refl) as (Q1 & Q2 & Q3 & Q4).
    assert (Ncr : c <> rep).
    { intros ->. destruct (P4 _ _ E) as (-> & ->). rewrite !Nat.eqb_refl in Q. discriminate. }
    assert (Ncu : c <> u) by (intros ->; apply H2'; left; reflexivity).
    split; [|split; [|split; [exact Q3|]]].
    + intros w Hw. cbn [l_cl]. rewrite upd_nth. destruct (Nat.eqb_spec u w) as [<-|Nw]; cbn [andb]; [|exact (Q1 w Hw)].
      rewrite (wi_len _ W), (proj2 (Nat.ltb_lt _ _)) by exact Hu. split; congruence.
    + cbn [l_w]. rewrite shift_nth by (rewrite (wi_lw _ W); assumption). unfold ind.
      rewrite (proj2 (Nat.eqb_neq rep c)), (proj2 (Nat.eqb_neq u c)) by congruence. lia.
    + intros t2 k2 E2. destruct ((t2 =? t) && (k2 =? key))%nat; [discriminate|exact (Q4 _ _ E2)].
  - destruct (Z.leb_spec (nth rep (l_w s) 0 + lg_weight g u) maxw) as [M|M]; [|exact SetU].
    split; [exact (Mv M)|]. intros t' k' c E. destruct (Keep _ _ _ E) as (H1 & H2 & H3).
    split; [exact H1|]. split; [exact H2|]. split; [exact H3|discriminate].
Qed.

Lemma two_hop_winv matching evs s : winv s -> NoDup (map snd evs) -> (forall u, In u (map snd evs) -> (u < length g)%nat) ->
  winv (two_hop matching g maxw evs s).
Proof using OK.
  intros W ND LT. unfold two_hop.
  assert (I : hinv matching (map snd evs) (s, fun _ _ => 0%nat)) by (split; [exact W|intros t k c E; discriminate]).
  revert I ND LT. generalize (s, fun _ _ : nat => 0%nat). induction evs as [|[t u] evs IH]; intros [s0 cur] I ND LT.
  - exact (proj1 I).
  - cbn [fold_left map snd] in *. apply IH.
    + apply hop_step_inv; [exact ND|apply LT; left; reflexivity|exact I].
    + inversion ND; assumption.
    + intros v Iv. apply LT. right; exact Iv.
Qed.

Lemma schedule_facts evs : schedule g evs -> NoDup (map snd evs) /\ forall u, In u (map snd evs) -> (u < length g)%nat.
Proof using.
  intros S. split; [exact (Permutation_NoDup (Permutation_sym S) (seq_NoDup _ _))|].
  intros u I. apply (Permutation_in _ S) in I. apply in_seq in I. lia.
Qed.

Lemma finish_winv iso hop ev1 ev2 s : seq_run g maxw comm uni s -> schedule g ev1 -> schedule g ev2 ->
  winv (finish iso hop g maxw ev1 ev2 s).
Proof using OK SYM.
  intros R S1 S2. destruct (schedule_facts _ S1) as (N1 & L1). destruct (schedule_facts _ S2) as (N2 & L2).
  unfold finish.
  assert (W1 : winv (match iso with Some m => isolated m g maxw ev1 s | None => s end)).
  { destruct iso; [|exact (seq_winv _ R)]. apply isolated_winv; [exact (seq_winv _ R)|exact N1|exact L1|].
    intros u Hu D. exact (seq_lonely s u R Hu D). }
  destruct hop; [|exact W1]. apply two_hop_winv; assumption.
Qed.
End Run.

(** ** Pairs of the two-hop matching *)
Section Pairs.
Variables (g : lgraph) (maxw : Z).
Hypothesis OK : lg_ok g.
Variable s0 : lps.

(** Node [u] was matched with the node that names its cluster. *)
Definition paired (s : lps) (u : nat) : Prop :=
  let v := nth u (l_cl s) 0%nat in
  (v < length g)%nat /\ v <> u /\ lonely g (l_cl s0) u /\ lonely g (l_cl s0) v /\ nth u (l_fav s0) 0%nat = nth v (l_fav s0) 0%nat /\
  forall x, (x < length g)%nat -> (nth x (l_cl s) 0%nat = v <-> x = u \/ x = v).

Definition pinv (rest : list nat) (st : lps * (nat -> nat -> nat)) : Prop :=
  hinv g maxw true rest st /\ l_fav (fst st) = l_fav s0 /\
  (forall u, In u rest -> nth u (l_cl (fst st)) 0%nat = nth u (l_cl s0) 0%nat) /\
  (forall t k c, snd st t k = S c -> lonely g (l_cl s0) c) /\
  (forall u, (u < length g)%nat -> nth u (l_cl (fst st)) 0%nat <> nth u (l_cl s0) 0%nat ->
     paired (fst st) u /\ ~ In (nth u (l_cl (fst st)) 0%nat) rest /\ forall t k, snd st t k <> S (nth u (l_cl (fst st)) 0%nat)) /\
  (* nobody has joined a cluster that was not formed by matching *)
  (forall x c, (x < length g)%nat -> nth x (l_cl (fst st)) 0%nat = c -> nth x (l_cl s0) 0%nat = c \/ ~ In c rest).

Lemma hop_step_pinv t u rest st : NoDup (u :: rest) -> (u < length g)%nat ->
  pinv (u :: rest) st -> pinv rest (hop_step true g maxw st (t, u)).
Proof using OK.
  intros ND Hu (H & F & R & L & P & J).
  pose proof (hop_step_inv g maxw OK true t u rest st ND Hu H) as H'. inversion_clear ND as [|? ? NU ND'].
  destruct st as [s mm]. cbn [fst snd] in *. destruct H as (W & C).
  unfold hop_step in *. destruct (considered g maxw s u) eqn:D.
  2:{ split; [exact H'|]. cbn [fst snd]. split; [exact F|]. split; [intros v I; apply R; right; exact I|]. split; [exact L|].
      split; [|intros x c Hx E; destruct (J x c Hx E) as [Q|Q]; [left; exact Q|right; intros I; apply Q; right; exact I]].
      intros v Hv Nv. destruct (P v Hv Nv) as (P1 & P2 & P3). split; [exact P1|]. split; [intros I; apply P2; right; exact I|exact P3]. }
  destruct (considered_spec g maxw OK _ _ W Hu D) as (EU & Wh & Wu & AU & _). rewrite EU in *.
  set (key := nth u (l_fav s) 0%nat) in *.
  assert (AU0 : lonely g (l_cl s0) u).
  { intros x Hx. split.
    - intros E. destruct (Nat.eq_dec (nth x (l_cl s) 0%nat) (nth x (l_cl s0) 0%nat)) as [Eq|Ne].
      + apply AU; [exact Hx|congruence].
      + destruct (P x Hx Ne) as (P1 & _). destruct P1 as (_ & _ & A & _). pose proof (proj2 (A x Hx) eq_refl) as Ex. congruence.
    - intros ->. rewrite <- (R u (or_introl eq_refl)). exact EU. }
  destruct (mm t key) as [|rep] eqn:K.
  - split; [exact H'|]. cbn [fst snd]. split; [exact F|]. split; [intros v I; apply R; right; exact I|]. split; [|split].
    + intros t' k' c E. destruct ((t' =? t) && (k' =? key))%nat; [injection E as <-; exact AU0|exact (L _ _ _ E)].
    + intros v Hv Nv. destruct (P v Hv Nv) as (P1 & P2 & P3). split; [exact P1|]. split; [intros I; apply P2; right; exact I|].
      intros t' k'. destruct ((t' =? t) && (k' =? key))%nat; [|exact (P3 t' k')]. intros E. injection E as E. apply P2. left. exact E.
    + intros x c Hx E; destruct (J x c Hx E) as [Q|Q]; [left; exact Q|right; intros I; apply Q; right; exact I].
  - destruct (C _ _ _ K) as (Hr & Nr & Er & Mr). destruct (Mr eq_refl) as (M1 & M2 & M3 & M4).
    assert (Nru : rep <> u) by (intros ->; apply Nr; left; reflexivity).
    assert (LC : length (l_cl s) = length g) by exact (wi_len _ _ _ W).
    split; [exact H'|]. cbn [fst snd l_cl l_fav]. split; [exact F|]. split; [|split; [|split]].
    + intros v I. rewrite upd_nth_other; [apply R; right; exact I|]. intros ->. exact (NU I).
    + intros t' k' c E. destruct ((t' =? t) && (k' =? key))%nat; [discriminate|exact (L _ _ _ E)].
    + intros v Hv Nv. destruct (Nat.eq_dec u v) as [<-|Nuv].
      * rewrite upd_nth_same by lia. split; [|split].
        -- unfold paired. cbn [l_cl]. rewrite upd_nth_same by lia. split; [exact Hr|]. split; [exact Nru|]. split; [exact AU0|].
           split; [exact (L _ _ _ K)|]. split; [rewrite <- F; symmetry; exact M3|].
           intros x Hx. rewrite upd_nth. destruct (Nat.eqb_spec u x) as [<-|Nx]; cbn [andb].
           ++ rewrite (proj2 (Nat.ltb_lt _ _)) by lia. split; [intros _; left; reflexivity|reflexivity].
           ++ rewrite (M1 x Hx). split; [intros ->; right; reflexivity|intros [Q|Q]; congruence].
        -- intros I. apply Nr. right; exact I.
        -- intros t' k'. destruct ((t' =? t) && (k' =? key))%nat eqn:Q; [discriminate|]. intros E.
           destruct (M4 _ _ E) as (-> & ->). rewrite !Nat.eqb_refl in Q. discriminate.
      * rewrite (upd_nth_other u v) in Nv |- * by exact Nuv. destruct (P v Hv Nv) as ((P1 & P2 & P3 & P4 & P5 & P6) & PR & PM). split; [|split].
        -- unfold paired. cbn [l_cl]. rewrite (upd_nth_other u v) by exact Nuv. split; [exact P1|]. split; [exact P2|]. split; [exact P3|]. split; [exact P4|]. split; [exact P5|].
           intros x Hx. rewrite upd_nth. destruct (Nat.eqb_spec u x) as [<-|Nx]; cbn [andb]; [|exact (P6 x Hx)].
           rewrite (proj2 (Nat.ltb_lt _ _)) by lia. split.
           ++ intros E. exfalso. apply (PM t key). rewrite <- E. exact K.
           ++ intros [E|E]; [congruence|]. exfalso. apply PR. left. exact E.
        -- intros I. apply PR. right; exact I.
        -- intros t' k'. destruct ((t' =? t) && (k' =? key))%nat; [discriminate|exact (PM t' k')].
    + intros x c Hx. rewrite upd_nth. destruct ((u =? x)%nat && _); intros E.
      * right. subst c. intros I. apply Nr. right; exact I.
      * destruct (J x c Hx E) as [Q|Q]; [left; exact Q|right; intros I; apply Q; right; exact I].
Qed.

Lemma two_hop_pairs evs : winv g maxw s0 -> NoDup (map snd evs) -> (forall u, In u (map snd evs) -> (u < length g)%nat) ->
  forall u, (u < length g)%nat -> nth u (l_cl (two_hop true g maxw evs s0)) 0%nat <> nth u (l_cl s0) 0%nat -> paired (two_hop true g maxw evs s0) u.
Proof using OK.
  intros W ND LT. unfold two_hop.
  assert (I : pinv (map snd evs) (s0, fun _ _ => 0%nat)).
  { split; [split; [exact W|intros t k c E; discriminate]|]. cbn [fst snd]. split; [reflexivity|]. split; [reflexivity|].
    split; [intros t k c E; discriminate|]. split; [intros u Hu N; congruence|intros x c Hx E; left; exact E]. }
  revert I ND LT. generalize (s0, fun _ _ : nat => 0%nat). induction evs as [|[t u] evs IH]; intros [s1 cur] I ND LT.
  - intros u Hu N. destruct I as (_ & _ & _ & _ & P & _). exact (proj1 (P u Hu N)).
  - cbn [fold_left map snd] in *. apply IH.
    + apply hop_step_pinv; [exact ND|apply LT; left; reflexivity|exact I].
    + inversion ND; assumption.
    + intros v Iv. apply LT. right; exact Iv.
Qed.
End Pairs.

(** ** Statements *)

Lemma nth_clustering g cl : length cl = length g -> (forall u, (u < length g)%nat -> (nth u cl 0 < length g)%nat) -> clustering g cl.
Proof.
  intros L H. split; [exact L|]. intros c I. destruct (In_nth _ _ 0%nat I) as (u & Hu & <-). apply H. lia.
Qed.

Lemma upd_lt (g : lgraph) cl u c : length cl = length g -> (forall u, (u < length g)%nat -> (nth u cl 0 < length g)%nat) -> (c < length g)%nat ->
  forall v, (v < length g)%nat -> (nth v (upd u c cl) 0 < length g)%nat.
Proof. intros L H Hc v Hv. rewrite upd_nth. destruct (_ && _); [exact Hc|exact (H v Hv)]. Qed.

Definition rng (g : lgraph) (s : lps) : Prop :=
  length (l_cl s) = length g /\ forall u, (u < length g)%nat -> (nth u (l_cl s) 0 < length g)%nat.

Lemma isolated_rng g maxw m evs s : rng g s -> (forall u, In u (map snd evs) -> (u < length g)%nat) -> rng g (isolated m g maxw evs s).
Proof.
  intros R LT. unfold isolated.
  assert (C : forall t c, (fun _ : nat => @None nat) t = Some c -> (c < length g)%nat) by discriminate.
  revert R C LT. generalize (fun _ : nat => @None nat) as cur. revert s.
  induction evs as [|[t u] evs IH]; intros s cur R C LT; [exact R|].
  cbn [fold_left]. unfold iso_step at 2. destruct (lg_adj g u) eqn:D.
  2:{ apply IH; [exact R|exact C|]. intros v I. apply LT. right; exact I. }
  assert (Hu : (u < length g)%nat) by (apply LT; left; reflexivity). destruct R as (L & R).
  assert (Set_ : forall x, (forall c, x = Some c -> (c < length g)%nat) ->
      forall t' c, (if (t' =? t)%nat then x else cur t') = Some c -> (c < length g)%nat).
  { intros x Hx t' c E. destruct (t' =? t)%nat; [exact (Hx _ E)|exact (C _ _ E)]. }
  assert (Skip : rng g (fst (fold_left (iso_step m g maxw) evs (s, fun t' => if (t' =? t)%nat then Some (nth u (l_cl s) 0%nat) else cur t')))).
  { apply IH; [split; assumption|apply Set_; intros c E; injection E as <-; exact (R u Hu)|intros v I; apply LT; right; exact I]. }
  destruct (cur t) as [c|] eqn:Ct; [|exact Skip].
  destruct (_ <=? _); [|exact Skip].
  apply IH; [|apply Set_; intros c' E; destruct m; [discriminate|]; injection E as <-; exact (C _ _ Ct)|intros v I; apply LT; right; exact I].
  split; cbn [l_cl]; [rewrite upd_length; exact L|]. apply upd_lt; [exact L|exact R|exact (C _ _ Ct)].
Qed.

Lemma two_hop_rng g maxw m evs s : rng g s -> (forall u, In u (map snd evs) -> (u < length g)%nat) -> rng g (two_hop m g maxw evs s).
Proof.
  intros R LT. unfold two_hop.
  assert (C : forall t k c, (fun _ _ : nat => 0%nat) t k = S c -> (c < length g)%nat) by discriminate.
  revert R C LT. generalize (fun _ _ : nat => 0%nat) as mm. revert s.
  induction evs as [|[t u] evs IH]; intros s mm R C LT; [exact R|].
  assert (LT' : forall v, In v (map snd evs) -> (v < length g)%nat) by (intros v I; apply LT; right; exact I).
  cbn [fold_left]. unfold hop_step at 2. destruct (considered g maxw s u) eqn:D.
  2:{ apply IH; assumption. }
  assert (Hu : (u < length g)%nat) by (apply LT; left; reflexivity). destruct R as (L & R).
  set (key := nth u (l_fav s) 0%nat).
  assert (SetU : forall x, (forall c, x = S c -> (c < length g)%nat) -> forall t' k c, (if ((t' =? t) && (k =? key))%nat then x else mm t' k) = S c -> (c < length g)%nat).
  { intros x Hx t' k c E. destruct (_ && _)%nat; [exact (Hx _ E)|exact (C _ _ _ E)]. }
  assert (Sk : rng g (fst (fold_left (hop_step m g maxw) evs (s, fun t' k' => if ((t' =? t) && (k' =? key))%nat then S (nth u (l_cl s) 0%nat) else mm t' k')))).
  { apply IH; [split; assumption|apply SetU; intros c E; injection E as <-; exact (R u Hu)|exact LT']. }
  destruct (mm t key) as [|rep] eqn:K; [exact Sk|].
  assert (Mv : forall w f, rng g (mkLps (upd u rep (l_cl s)) w f)).
  { intros w f. split; cbn [l_cl]; [rewrite upd_length; exact L|]. apply upd_lt; [exact L|exact R|exact (C _ _ _ K)]. }
  destruct m; [|destruct (_ <=? _); [|exact Sk]].
  - apply IH; [apply Mv|apply SetU; discriminate|exact LT'].
  - apply IH; [apply Mv|exact C|exact LT'].
Qed.

Lemma finish_clustering g maxw comm uni iso hop h s ev1 ev2 : lg_ok g -> lp_run g maxw comm uni h s -> schedule g ev1 -> schedule g ev2 ->
  clustering g (l_cl (finish iso hop g maxw ev1 ev2 s)).
Proof.
  intros OK R S1 S2. destruct (run_labels g maxw comm uni OK _ _ R) as (I & H & _). destruct (H _ I) as (L & Hl).
  assert (R0 : rng g s) by (split; [exact L|intros u Hu; exact (proj1 (Hl u Hu))]).
  destruct (schedule_facts _ _ S1) as (_ & L1). destruct (schedule_facts _ _ S2) as (_ & L2).
  assert (R2 : rng g (finish iso hop g maxw ev1 ev2 s)).
  { unfold finish. destruct iso; [pose proof (isolated_rng g maxw b ev1 s R0 L1) as R1|pose proof R0 as R1];
      (destruct hop; [apply two_hop_rng; assumption|exact R1]). }
  destruct R2. apply nth_clustering; assumption.
Qed.

Lemma run_communities g maxw comm uni h s : lg_ok g -> lp_run g maxw comm uni h s -> within_communities comm (l_cl s).
Proof.
  intros OK R. destruct (run_labels g maxw comm uni OK _ _ R) as (I & H & _). destruct (H _ I) as (L & Hl).
  intros u v Hu Hv E. rewrite L in Hu, Hv. rewrite <- (proj2 (Hl u Hu)), <- (proj2 (Hl v Hv)), E. reflexivity.
Qed.

Lemma finish_weights g maxw comm uni iso hop s ev1 ev2 : lg_ok g -> symmetric g -> seq_run g maxw comm uni s -> schedule g ev1 -> schedule g ev2 ->
  let s' := finish iso hop g maxw ev1 ev2 s in exact_weights g s' /\ limited g maxw (l_cl s').
Proof.
  intros OK SY R S1 S2. cbn zeta. pose proof (finish_winv g maxw comm uni OK SY iso hop ev1 ev2 s R S1 S2) as [LC LW LT EX LIM].
  split; [split; [exact LW|]|].
  - intros c Hc. rewrite weight_of_lw. exact (EX c Hc).
  - intros u v Hu Hv N E. rewrite LC in Hu, Hv. rewrite weight_of_lw. destruct (LIM (nth u (l_cl (finish iso hop g maxw ev1 ev2 s)) 0%nat)) as [H|H]; [exact H|].
    exfalso. apply N. apply H; auto.
Qed.

Lemma visit_best g maxw comm uni u k ow chk s : pos (kind_entries k) -> (u < length (l_cl s))%nat ->
  let init := nth u (l_cl s) 0%nat in
  let s' := visit g maxw comm uni u k ow chk s in
  exists b, best_choice (acceptable maxw (lg_weight g u) comm ow init) init (kind_entries k) b /\
    l_cl s' = upd u (if chk b + lg_weight g u <=? maxw then b else init) (l_cl s).
Proof.
  intros P Hu. cbn zeta. unfold visit. destruct (find_best uni _ _ _ k) as [b f] eqn:E. apply find_best_ok in E as (B & F); [|exact P].
  exists b. split; [exact B|]. destruct (Nat.eqb_spec (nth u (l_cl s) 0%nat) b) as [Eb|Nb]; cbn [negb andb l_cl].
  - rewrite <- Eb. destruct (_ <=? _); rewrite upd_same; reflexivity.
  - destruct (_ <=? _); cbn [l_cl]; [reflexivity|rewrite upd_same; reflexivity].
Qed.

Lemma finish_pairs g maxw comm uni iso s ev1 ev2 u : lg_ok g -> symmetric g -> seq_run g maxw comm uni s -> schedule g ev1 -> schedule g ev2 ->
  (u < length g)%nat ->
  let s1 := finish iso None g maxw ev1 ev2 s in
  let s2 := finish iso (Some true) g maxw ev1 ev2 s in
  let v := nth u (l_cl s2) 0%nat in
  v <> nth u (l_cl s1) 0%nat ->
  v <> u /\ alone g (l_cl s1) u /\ alone g (l_cl s1) v /\ nth u (l_fav s1) 0%nat = nth v (l_fav s1) 0%nat /\
  (forall x, (x < length g)%nat -> (nth x (l_cl s2) 0%nat = v <-> x = u \/ x = v)).
Proof.
  intros OK SY R S1 S2 Hu. cbn zeta. intros N.
  pose proof (finish_winv g maxw comm uni OK SY iso None ev1 ev2 s R S1 S2) as W.
  destruct (schedule_facts _ _ S2) as (N2 & L2).
  destruct (two_hop_pairs g maxw OK _ ev2 W N2 L2 u Hu N) as (_ & P2 & P3 & P4 & P5 & P6).
  split; [exact P2|]. split; [exact P3|]. split; [exact P4|]. split; [exact P5|exact P6].
Qed.
