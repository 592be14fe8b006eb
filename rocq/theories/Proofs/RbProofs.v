(* Recursive bipartitioning mode: exact labels, weights, and the uncoarsening loop. *)
From Verif Require Import Lib.Prelude Lib.Slice Spec.Induced Spec.ExtendSpec Spec.Level Spec.RbSpec Spec.LimitsSpec
  Model.MathModel Model.PartUtilsModel Model.CsrModel Model.SubgraphModel Model.ExtendModel Model.DeepModel Model.ContextModel Model.RbModel
  Proofs.MathProofs Proofs.SubgraphFill Proofs.FinalK Proofs.SubgraphPar Proofs.ExtendBase Proofs.ExtendStep Proofs.ExtendTop Proofs.ContextProofs Proofs.DeepProofs.

(** ** Offsets of the two halves *)
Lemma halves_final ub L : (N.of_nat (2 ^ S L) < 2 ^ 31)%N ->
  final_k ub 0 2 (2 ^ S L) = Some (2 ^ L) /\ final_k ub 1 2 (2 ^ S L) = Some (2 ^ L).
Proof.
  intros Hk. pose proof (pow2_pos L) as P. pose proof (Nat.pow_succ_r' 2 L) as PS.
  destruct (final_ks_ok ub 1 (2 ^ S L)) as (fks & E & Lf & Sm & H); auto.
  { split; [lia|]. split; [lia|]. left. now exists 0. }
  destruct fks as [|x [|]]; try discriminate. cbn [list_sum fold_right] in Sm. destruct (H 0 ltac:(lia)) as [H0 _]. cbn [nth] in H0.
  destruct (final_k_split ub 0 (2 ^ S L) 0) as (v & E1 & E2 & E3); auto; [cbn [Nat.pow]; lia|].
  change (2 ^ 0) with 1 in E1. rewrite H0 in E1. injection E1 as <-. assert (Ex : x = 2 ^ S L) by lia.
  change (2 * 0) with 0 in *. change (0 + 1) with 1 in *. change (2 ^ 1) with 2 in *. rewrite E2, E3, Ex, PS. split; f_equal.
  - symmetry. apply (Nat.div_unique _ 2 _ 1); lia.
  - symmetry. apply (Nat.div_unique _ 2 _ 0); lia.
Qed.

Lemma halves_offsets ub d k : (exists j, k = 2 ^ j * 2 ^ S d) -> 1 <= d -> (N.of_nat k < 2 ^ 31)%N ->
  exists o, block_offsets ub 2 (2 ^ d + 2 ^ d) k = Some [0; 2 ^ d; o].
Proof.
  intros (j & Ek) Hd Hk. assert (E2 : k = 2 ^ S (j + d)).
  { rewrite Ek, <- Nat.pow_add_r. f_equal. lia. }
  rewrite E2 in *. destruct (halves_final ub (j + d) Hk) as [F0 F1].
  unfold block_offsets. cbn [seq map]. rewrite F0, F1. cbn [all_some]. pose proof (pow2_pos d) as P. pose proof (Nat.pow_succ_r' 2 d) as PS.
  destruct (Nat.eqb_spec (2 ^ d + 2 ^ d) (2 ^ S (j + d))) as [E|E].
  - assert (Ej : 2 ^ S d = 2 ^ S (j + d)) by lia. apply Nat.pow_inj_r in Ej; [|lia]. assert (j = 0) by lia. subst j.
    eexists. cbn [prefix_sum]. unfold prefix_sum. reflexivity.
  - replace ((2 ^ d + 2 ^ d) / 2) with (2 ^ d) by (apply (Nat.div_unique _ 2 _ 0); lia). eexists. reflexivity.
Qed.

Lemma graph_memory_fits g k junk junkz : mem_fits g k (graph_memory g k junk junkz).
Proof.
  unfold mem_fits, graph_memory. cbn [sm_nodes sm_edges sm_nw sm_ew]. rewrite !map_length, !seq_length.
  split; [lia|]. split; [lia|]. split; intros H; rewrite H; [|lia].
  destruct (Nat.eqb_spec (length g) 0) as [E|]; [|lia].
  exfalso. destruct g; [|discriminate]. cbv in H. discriminate.
Qed.

Lemma all_some_seq {B} (f : nat -> option B) h n : (forall u, u < n -> f u = Some (h u)) -> all_some (map f (seq 0 n)) = Some (map h (seq 0 n)).
Proof.
  intros H. assert (H' : forall u, In u (seq 0 n) -> f u = Some (h u)) by (intros u Hu; apply H; apply in_seq in Hu; lia). clear H.
  revert H'. generalize (seq 0 n) as q. induction q as [|x q IH]; intros H'; auto. cbn. rewrite H' by (left; auto).
  rewrite IH by (intros; apply H'; right; auto). auto.
Qed.

Lemma listing_in g side order b u : labelled g 2 side -> Permutation order (seq 0 (length g)) ->
  (In u (listing side order b) <-> u < length g /\ nth u side 0 = b).
Proof.
  intros [L Hl] Hp. rewrite listing_blk, in_blk. split.
  - intros [_ H]. assert (u < length side) by (apply nth_error_Some; congruence). split; [lia|]. now apply nth_error_nth.
  - intros [Hu E]. split. { apply (Permutation_in u (Permutation_sym Hp)), in_seq. lia. }
    rewrite <- E. apply nth_error_nth'. lia.
Qed.

Section Tree.
Variables (ub : N) (e : rb_env) (bip : lgraph -> nat -> nat -> option (list nat)) (split : lgraph -> nat -> nat -> list nat) (k : nat).
Hypothesis Hbip : forall g b kp, lg_ok g -> bip g b kp = Some (split g b kp) /\ labelled g 2 (split g b kp).
Hypothesis Hord : forall g b kp, Permutation (e_order e g b kp) (seq 0 (length g)).
Hypothesis Hbuild : forall g b kp, Permutation (e_build e g b kp) (seq 0 2).
Hypothesis Hk : (N.of_nat k < 2 ^ 31)%N.

Lemma side_induced g b kp s : lg_ok g -> lg_ok (induced (listing (split g b kp) (e_order e g b kp) s) g).
Proof using All.
  intros Hg. apply induced_ok; auto. intros u Hu. apply (listing_in g) in Hu; [tauto|apply Hbip; auto|apply Hord].
Qed.

Lemma rb_ok : forall d fuel g b j, 2 ^ j * 2 ^ S d = k -> d < fuel -> lg_ok g ->
  rb_recursive ub e bip k fuel g b (2 ^ j) = Some (map (tree_label split (e_order e) d g b (2 ^ j)) (seq 0 (length g)), 2 ^ S d).
Proof using All.
  induction d as [|d IH]; intros fuel g b j Ek Hf Hg; (destruct fuel as [|fuel]; [lia|]); cbn [rb_recursive];
    destruct (Hbip g b (2 ^ j) Hg) as [-> [Ls Hs]].
  - replace (2 ^ j * 2 <? k) with false by (symmetry; apply Nat.ltb_ge; cbn [Nat.pow] in Ek; lia).
    do 2 f_equal. cbn [tree_label]. rewrite <- Ls. symmetry. apply map_nth_seq.
  - pose proof (pow2_pos j) as Pj. pose proof (pow2_pos d) as Pd. pose proof (Nat.pow_succ_r' 2 d) as Pd1. pose proof (Nat.pow_succ_r' 2 (S d)) as Pd2.
    replace (2 ^ j * 2 <? k) with true by (symmetry; apply Nat.ltb_lt; nia).
    set (side := split g b (2 ^ j)) in *. set (order := e_order e g b (2 ^ j)).
    destruct (extract_ok ub g side 2 2 order (e_build e g b (2 ^ j)) (graph_memory g 2 (e_junk e g b (2 ^ j)) (e_junkz e g b (2 ^ j))))
      as (mem & mapping & views & nst & est & -> & _ & Lv & Lm & _ & _ & _ & _ & _ & _ & H); auto.
    { split; [lia|]. split; [lia|]. auto. }
    { cbn. lia. }
    { apply Hord. }
    { apply graph_memory_fits. }
    destruct views as [|v0 [|v1 [|]]]; try discriminate.
    destruct (H 0 ltac:(lia)) as (R0 & M0 & _). destruct (H 1 ltac:(lia)) as (R1 & M1 & _). clear H. cbn [nth] in R0, R1.
    rewrite R0, R1. rewrite <- !listing_blk in *. fold order.
    assert (E2 : 2 ^ j * 2 = 2 ^ S j) by (rewrite Nat.pow_succ_r'; lia). rewrite E2.
    assert (G : forall s, lg_ok (induced (listing side order s) g)) by (intros s; apply side_induced; auto).
    assert (EkS : 2 ^ S j * 2 ^ S d = k) by (rewrite <- E2; nia).
    rewrite (IH fuel _ (2 * b) (S j) EkS ltac:(lia) (G 0)), (IH fuel _ (2 * b + 1) (S j) EkS ltac:(lia) (G 1)).
    destruct (halves_offsets ub (S d) k) as (o & ->); auto; [exists j; lia|lia|].
    rewrite !induced_length. unfold copy_subgraph_partitions. rewrite Ls.
    rewrite (all_some_seq _ (tree_label split (e_order e) (S d) g b (2 ^ j))).
    { cbn [option_map]. do 2 f_equal. lia. }
    intros u Hu. cbn [tree_label]. fold side order.
    assert (E : nth_error side u = Some (nth u side 0)) by (apply nth_error_nth'; lia). rewrite E.
    assert (Hu2 : nth u side 0 < 2) by (apply Hs, nth_In; lia).
    assert (Hin : In u (listing side order (nth u side 0))).
    { apply (listing_in g); auto; [split; auto|]. apply Hord. }
    assert (Em : nth_error mapping u = Some (index_of u (listing side order (nth u side 0)))).
    { rewrite (nth_error_nth' _ 0) by lia. f_equal. destruct (nth u side 0) as [|[|]]; [now apply M0|now apply M1|lia]. }
    rewrite Em. destruct (index_of_in _ _ Hin) as [Hi _].
    rewrite <- E2, (Nat.mul_comm (2 ^ j) 2).
    destruct (nth u side 0) as [|[|]]; [| |lia]; cbn [nth_error];
      rewrite nth_error_map, nth_error_seq0 by exact Hi; cbn [option_map]; f_equal; [now rewrite Nat.mul_0_l, Nat.add_0_r|now rewrite Nat.mul_1_l].
Qed.

Lemma tree_label_lt : forall d g b kp u, lg_ok g -> u < length g -> tree_label split (e_order e) d g b kp u < 2 ^ S d.
Proof using All.
  induction d as [|d IH]; intros g b kp u Hg Hu; cbn [tree_label]; destruct (Hbip g b kp Hg) as [_ [Ls Hs]];
    (assert (Hu2 : nth u (split g b kp) 0 < 2) by (apply Hs, nth_In; lia)).
  - exact Hu2.
  - set (s := nth u (split g b kp) 0) in *. assert (Hin : In u (listing (split g b kp) (e_order e g b kp) s)).
    { apply (listing_in g); auto; split; auto. }
    specialize (IH (induced (listing (split g b kp) (e_order e g b kp) s) g) (2 * b + s) (2 * kp) (index_of u (listing (split g b kp) (e_order e g b kp) s)) (side_induced g b kp s Hg)).
    rewrite induced_length in IH. specialize (IH (proj1 (index_of_in _ _ Hin))).
    pose proof (Nat.pow_succ_r' 2 (S d)). nia.
Qed.

(** Block f of the final partition is one side of a bipartition on the last level. *)
Lemma zsum_map_perm (f : nat -> Z) l l' : Permutation l l' -> zsum (map f l) = zsum (map f l').
Proof. induction 1; cbn [map zsum]; lia. Qed.
Lemma zsum_filter (f : nat -> Z) p l : (forall u, In u l -> p u = false -> f u = 0%Z) -> zsum (map f l) = zsum (map f (filter p l)).
Proof.
  induction l as [|x l IH]; intros H; auto. cbn [map filter zsum]. rewrite IH by (intros; apply H; [right|]; auto).
  destruct (p x) eqn:E; cbn [map zsum]; auto. rewrite (H x (or_introl eq_refl) E). lia.
Qed.

Lemma lg_weight_induced us g i : i < length us -> lg_weight (induced us g) i = lg_weight g (nth i us 0).
Proof.
  intros H. unfold lg_weight at 1, induced.
  match goal with |- fst (nth i (map ?F us) ?d) = _ => rewrite (nth_indep (map F us) d (F 0)) by (rewrite map_length; exact H); rewrite (map_nth F us 0 i) end.
  reflexivity.
Qed.

Lemma index_of_nth us i : NoDup us -> i < length us -> index_of (nth i us 0) us = i.
Proof.
  intros Hd Hi. assert (Hin : In (nth i us 0) us) by (apply nth_In; auto). destruct (index_of_in _ _ Hin) as [A B].
  apply (proj1 (NoDup_nth us 0)); auto.
Qed.

Lemma tree_weight d g b kp f : lg_ok g -> f < 2 ^ S (S d) ->
  let s := f / 2 ^ S d in let us := listing (split g b kp) (e_order e g b kp) s in
  label_weight g (map (tree_label split (e_order e) (S d) g b kp) (seq 0 (length g))) f =
  label_weight (induced us g) (map (tree_label split (e_order e) d (induced us g) (2 * b + s) (2 * kp)) (seq 0 (length us))) (f mod 2 ^ S d).
Proof using All.
  intros Hg Hf s us. destruct (Hbip g b kp Hg) as [_ [Ls Hs]]. pose proof (pow2_pos (S d)) as P.
  set (side := split g b kp) in *. set (order := e_order e g b kp) in *.
  assert (Hus : forall u, In u us <-> u < length g /\ nth u side 0 = s) by (intros u; apply listing_in; auto; [split; auto|apply Hord]).
  assert (Hnd : NoDup us). { apply NoDup_filter. apply (Permutation_NoDup (Permutation_sym (Hord g b kp))), seq_NoDup. }
  unfold label_weight at 1. rewrite <- (zsum_map_perm _ _ _ (Hord g b kp)). fold order.
  rewrite (zsum_filter _ (fun u => nth u side (S s) =? s)).
  2:{ intros u Hu Hn. apply (Permutation_in u (Hord g b kp)), in_seq in Hu.
      rewrite (nth_indep side _ 0) in Hn by lia. apply Nat.eqb_neq in Hn.
      rewrite nth_map_seq by lia. rewrite Nat.add_0_l. destruct (Nat.eqb_spec (tree_label split (e_order e) (S d) g b kp u) f) as [E|]; auto.
      exfalso. apply Hn. cbn [tree_label] in E. fold side order in E. set (t := nth u side 0) in *.
      assert (Hin : In u (listing side order t)) by (apply (listing_in g); auto; [split; auto|apply Hord|split; [lia|auto]]).
      assert (Hlt := tree_label_lt d (induced (listing side order t) g) (2 * b + t) (2 * kp) (index_of u (listing side order t)) (side_induced g b kp t Hg)).
      rewrite induced_length in Hlt. specialize (Hlt (proj1 (index_of_in _ _ Hin))). unfold s. rewrite <- E.
      apply (Nat.div_unique _ _ _ (tree_label split (e_order e) d (induced (listing side order t) g) (2 * b + t) (2 * kp) (index_of u (listing side order t)))); lia. }
  change (filter (fun u => nth u side (S s) =? s) order) with us.
  unfold label_weight. rewrite induced_length. rewrite <- (map_nth_seq 0 us) at 1. rewrite map_map. f_equal. apply map_ext_in. intros i Hi. apply in_seq in Hi.
  assert (Hu : In (nth i us 0) us) by (apply nth_In; lia). apply Hus in Hu. destruct Hu as [Hu Es].
  rewrite nth_map_seq by exact Hu. rewrite nth_map_seq by lia. rewrite !Nat.add_0_l. rewrite lg_weight_induced by lia.
  cbn [tree_label]. fold side order. rewrite Es. fold us. rewrite index_of_nth by (auto; lia).
  set (x := tree_label split (e_order e) d (induced us g) (2 * b + s) (2 * kp) i).
  pose proof (Nat.div_mod f (2 ^ S d) ltac:(lia)) as D. fold s in D.
  destruct (Nat.eqb_spec (s * 2 ^ S d + x) f), (Nat.eqb_spec x (f mod 2 ^ S d)); auto; lia.
Qed.

Lemma rb_weights (lim : nat -> Z) g0 : lg_ok g0 -> (forall g b s, sub_of split (e_order e) k g0 g b (k / 2) -> s < 2 -> (label_weight g (split g b (k / 2)) s <= lim (2 * b + s)%nat)%Z) ->
  forall d g b j f, 2 ^ j * 2 ^ S d = k -> lg_ok g -> sub_of split (e_order e) k g0 g b (2 ^ j) -> f < 2 ^ S d ->
  (label_weight g (map (tree_label split (e_order e) d g b (2 ^ j)) (seq 0 (length g))) f <= lim (b * 2 ^ S d + f)%nat)%Z.
Proof using All.
  intros Hg0 Hlast. induction d as [|d IH]; intros g b j f Ek Hg Hsub Hf.
  - assert (Ej : 2 ^ j = k / 2) by (apply (Nat.div_unique _ 2 _ 0); cbn [Nat.pow] in Ek; lia).
    cbn [tree_label]. destruct (Hbip g b (2 ^ j) Hg) as [_ [Ls Hs]]. rewrite <- Ls, map_nth_seq.
    specialize (Hlast g b f). rewrite <- Ej in Hlast. specialize (Hlast Hsub ltac:(cbn in Hf; lia)).
    change (2 ^ 1) with 2. now rewrite (Nat.mul_comm b).
  - pose proof (pow2_pos (S d)) as P. pose proof (pow2_pos j) as Pj. pose proof (Nat.pow_succ_r' 2 (S d)) as P2. rewrite tree_weight by auto.
    set (s := f / 2 ^ S d). set (us := listing (split g b (2 ^ j)) (e_order e g b (2 ^ j)) s).
    pose proof (Nat.div_mod f (2 ^ S d) ltac:(lia)) as D. fold s in D. pose proof (Nat.mod_upper_bound f (2 ^ S d) ltac:(lia)) as M.
    assert (Hs : s < 2) by (unfold s; apply Nat.div_lt_upper_bound; lia).
    rewrite <- Nat.pow_succ_r'. specialize (IH (induced us g) (2 * b + s) (S j) (f mod 2 ^ S d)).
    rewrite induced_length in IH. replace (b * 2 ^ S (S d) + f) with ((2 * b + s) * 2 ^ S d + f mod 2 ^ S d) by nia.
    apply IH; auto.
    + rewrite Nat.pow_succ_r'. nia.
    + apply side_induced; auto.
    + rewrite Nat.pow_succ_r'. apply sub_side; auto. pose proof (pow2_pos d). pose proof (Nat.pow_succ_r' 2 d). nia.
Qed.
End Tree.

(** ** Uncoarsening *)
Lemma project_ok part mp n kp : (forall x, In x mp -> x < n) -> length part = n -> (forall x, In x part -> x < kp) ->
  exists p, project part mp = Some p /\ length p = length mp /\ forall x, In x p -> x < kp.
Proof.
  intros Hm L Hl. unfold project. induction mp as [|a mp IH]; [exists []; cbn; repeat split; easy|].
  destruct IH as (p & E & Lp & H); [intros; apply Hm; right; auto|]. cbn [map all_some].
  rewrite (nth_error_nth' _ 0) by (rewrite L; apply Hm; left; auto). rewrite E. eexists. split; [reflexivity|]. split; [cbn; lia|].
  intros x [<-|Hx]; auto. apply Hl, nth_In. rewrite L. apply Hm. left; auto.
Qed.

Lemma multilevel_ok refine kp : (forall l g p, labelled g kp p -> labelled g kp (refine l g p)) ->
  forall lvs g p, hierarchy g lvs -> labelled g kp p ->
  exists p', multilevel refine lvs g p = Some p' /\ labelled (finest g lvs) kp p'.
Proof.
  intros Hr. induction lvs as [|lv rest IH]; intros g p Hl Hp; cbn [multilevel].
  - eexists. split; [reflexivity|]. now apply Hr.
  - destruct Hl as (L & Hm & Hl). destruct (Hr (length (lv :: rest)) g p Hp) as [L1 H1].
    destruct (project_ok (refine (length (lv :: rest)) g p) (lv_map lv) (length g) kp Hm L1 H1) as (q & Eq & Lq & Hq). rewrite Eq.
    destruct (IH (lv_g lv) q Hl) as (p' & E & H). { split; auto. lia. }
    exists p'. split; auto. replace (finest g (lv :: rest)) with (finest (lv_g lv) rest); auto.
    unfold finest. cbn [map]. symmetry. apply last_cons.
Qed.

Lemma split_ok e : rb_env_ok e -> forall g b kp, rb_bipartition e g b kp = Some (split_of e g b kp) /\ labelled g 2 (split_of e g b kp).
Proof.
  intros (H1 & H2 & H3 & _) g b kp. unfold split_of, rb_bipartition. destruct (H1 g b kp) as [Hh Hf].
  destruct (e_levels e g b kp) as [gc lvs]. cbn [fst snd] in *.
  destruct (multilevel_ok (e_refine e b kp) 2 (H3 b kp) lvs gc (e_pool e gc b kp) Hh (H2 gc b kp)) as (p & E & Hp).
  rewrite E. split; auto. now rewrite <- Hf.
Qed.

Lemma pow2_fuel d : d < S (2 ^ S d).
Proof. pose proof (Nat.pow_gt_lin_r 2 (S d) ltac:(lia)). lia. Qed.
Lemma is_pow2_nat L : is_power_of_2 (N.of_nat (2 ^ L)) = true.
Proof. apply is_power_of_2_spec. exists (N.of_nat L). apply pow_N_nat. Qed.

Lemma rb_labels_ok ub e g d : rb_env_ok e -> lg_ok g -> (N.of_nat (2 ^ S d) < 2 ^ 31)%N ->
  rb_partition ub e None (2 ^ S d) g = RbPartition (map (tree_label (split_of e) (e_order e) d g 0 1) (seq 0 (length g))) (2 ^ S d).
Proof.
  intros He Hg Hk. unfold rb_partition. rewrite is_pow2_nat. pose proof (split_ok e He) as Hs. destruct He as (_ & _ & _ & Ho & Hb).
  pose proof (rb_ok ub e (rb_bipartition e) (split_of e) (2 ^ S d) (fun g b kp _ => Hs g b kp) Ho Hb Hk d (S (2 ^ S d)) g 0 0) as E.
  change (2 ^ 0) with 1 in E. rewrite E; auto; [lia|apply pow2_fuel].
Qed.

Lemma rb_top_ok ub e top g d : rb_env_ok e -> lg_ok g -> (N.of_nat (2 ^ S d) < 2 ^ 31)%N ->
  (forall r p, top = Some r -> labelled g (2 ^ S d) p -> labelled g (2 ^ S d) (r g p)) ->
  exists labels, rb_partition ub e top (2 ^ S d) g = RbPartition labels (2 ^ S d) /\ labelled g (2 ^ S d) labels.
Proof.
  intros He Hg Hk Ht. pose proof (rb_labels_ok ub e g d He Hg Hk) as E. unfold rb_partition in *. rewrite is_pow2_nat in *.
  destruct (rb_recursive _ _ _ _ _ _ _ _) as [[p kp]|]; [|discriminate]. injection E as Ep ->.
  assert (L : labelled g (2 ^ S d) p).
  { rewrite Ep. split; [now rewrite map_length, seq_length|]. intros x Hx. apply in_map_iff in Hx. destruct Hx as (u & <- & Hu). apply in_seq in Hu.
    pose proof (split_ok e He) as Hs. destruct He as (_ & _ & _ & Ho & Hb).
    apply (tree_label_lt ub e (rb_bipartition e) (split_of e) (2 ^ S d) (fun g b kp _ => Hs g b kp) Ho Hb Hk); auto. lia. }
  eexists. split; [reflexivity|]. destruct top as [r|]; auto.
Qed.

Lemma rb_refused ub e top k g : (forall L, k <> 2 ^ L) -> rb_partition ub e top k g = RbThrow.
Proof.
  intros H. unfold rb_partition. destruct (is_power_of_2 (N.of_nat k)) eqn:E; auto. exfalso.
  apply is_power_of_2_spec in E. destruct E as (x & E). apply (H (N.to_nat x)). apply Nat2N.inj. rewrite pow_N_nat, N2Nat.id. exact E.
Qed.

Lemma tree_nested e : rb_env_ok e -> forall j d g b kp u, lg_ok g -> u < length g ->
  tree_label (split_of e) (e_order e) d g b kp u = tree_label (split_of e) (e_order e) (d + j) g b kp u / 2 ^ j.
Proof.
  intros He. pose proof (split_ok e He) as Hs. pose proof He as (_ & _ & _ & Ho & Hb).
  assert (K1 : (N.of_nat 1 < 2 ^ 31)%N) by (cbn; lia).
  intros j. induction d as [|d IH]; intros g b kp u Hg Hu.
  - destruct j as [|j]; [change (2 ^ 0) with 1; rewrite Nat.div_1_r; reflexivity|]. cbn [Nat.add tree_label].
    set (s := nth u (split_of e g b kp) 0). set (us := listing (split_of e g b kp) (e_order e g b kp) s).
    assert (Hin : In u us) by (apply (listing_in g); auto; apply Hs).
    assert (Hlt := tree_label_lt 0 e (rb_bipartition e) (split_of e) 1 (fun g b kp _ => Hs g b kp) Ho Hb K1 j (induced us g) (2 * b + s) (2 * kp) (index_of u us)).
    rewrite induced_length in Hlt. specialize (Hlt ltac:(apply (side_induced 0 e (rb_bipartition e) (split_of e) 1 (fun g b kp _ => Hs g b kp) Ho Hb K1); auto) (proj1 (index_of_in _ _ Hin))).
    apply (Nat.div_unique _ _ _ (tree_label (split_of e) (e_order e) j (induced us g) (2 * b + s) (2 * kp) (index_of u us))); lia.
  - change (S d + j) with (S (d + j)). cbn [tree_label].
    set (s := nth u (split_of e g b kp) 0). set (us := listing (split_of e g b kp) (e_order e g b kp) s).
    assert (Hin : In u us) by (apply (listing_in g); auto; apply Hs).
    assert (Hgs : lg_ok (induced us g)) by (apply (side_induced 0 e (rb_bipartition e) (split_of e) 1 (fun g b kp _ => Hs g b kp) Ho Hb K1); auto).
    rewrite IH; [|auto|rewrite induced_length; apply index_of_in; auto].
    replace (2 ^ S (d + j)) with (2 ^ S d * 2 ^ j) by (rewrite <- Nat.pow_add_r; f_equal; lia).
    rewrite Nat.mul_assoc, Nat.div_add_l; [reflexivity|]. pose proof (pow2_pos j). lia.
Qed.

Lemma rb_balanced ub e g d ls : rb_env_ok e -> lg_ok g -> length ls = 2 ^ S d -> (N.of_nat (2 ^ S d) < 2 ^ 31)%N ->
  (forall g' b m0 m1, sub_of (split_of e) (e_order e) (2 ^ S d) g g' b (2 ^ d) -> twoway_limits ub false ls b (2 ^ d) (2 ^ S d) = Some (m0, m1) ->
     (label_weight g' (split_of e g' b (2 ^ d)) 0 <= m0)%Z /\ (label_weight g' (split_of e g' b (2 ^ d)) 1 <= m1)%Z) ->
  exists labels, rb_partition ub e None (2 ^ S d) g = RbPartition labels (2 ^ S d) /\
    forall f, f < 2 ^ S d -> (label_weight g labels f <= nth f ls 0)%Z.
Proof.
  intros He Hg Hl Hk Hlast. eexists. split; [apply rb_labels_ok; auto|]. intros f Hf.
  pose proof (split_ok e He) as Hs. pose proof He as (_ & _ & _ & Ho & Hb).
  assert (ET : tree_sums (S d) ls = ls).
  { pose proof (kway_limits_pow2 ub ls (S d)) as A. pose proof (kway_limits_top ub ls) as B. rewrite Hl in *.
    rewrite B in A. assert (X : Some ls = Some (tree_sums (S d) ls)) by (apply A; auto). congruence. }
  assert (Eh : 2 ^ S d / 2 = 2 ^ d) by (rewrite Nat.pow_succ_r', Nat.mul_comm; apply Nat.div_mul; lia).
  pose proof (rb_weights ub e (rb_bipartition e) (split_of e) (2 ^ S d) (fun g b kp _ => Hs g b kp) Ho Hb Hk (fun f => nth f ls 0%Z) g Hg) as W.
  rewrite Eh in W. change (nth f ls 0%Z) with ((fun f => nth f ls 0%Z) (0 * 2 ^ S d + f)).
  refine (W _ d g 0 0 f _ Hg _ Hf); [|cbn [Nat.pow]; lia|constructor].
  intros g' b s Hsub Hs2.
  assert (Hb2 : b < 2 ^ d).
  { assert (S : forall g' b kp, sub_of (split_of e) (e_order e) (2 ^ S d) g g' b kp -> b < kp) by (induction 1; lia). eauto. }
  specialize (Hlast g' b (nth (2 * b) ls 0%Z) (nth (2 * b + 1) ls 0%Z) Hsub).
  destruct Hlast as [A0 A1].
  { pose proof (twoway_limits_ok ub ls d b) as T. rewrite Hl, ET in T. apply T; auto. rewrite Nat.pow_succ_r'. lia. }
  destruct s as [|[|]]; [now rewrite Nat.add_0_r|exact A1|lia].
Qed.

(** ** The k-way mode *)
Lemma full_memory_fits g k junk junkz : mem_fits g k (full_memory g k junk junkz).
Proof.
  unfold mem_fits, full_memory. cbn [sm_nodes sm_edges sm_nw sm_ew]. rewrite !map_length, !seq_length.
  split; [lia|]. split; [lia|]. split; intros H; [|lia].
  destruct (Nat.eqb_spec (length g) 0) as [E|]; [|lia].
  exfalso. destruct g; [|discriminate]. cbv in H. discriminate.
Qed.

Lemma kway_ok ub pool refine k factor threads choices junk junkz gc lvs :
  lg_ok gc -> hierarchy gc lvs -> 2 <= k -> (N.of_nat k < 2 ^ 31)%N -> (factor = 0 \/ exists j, 1 <= j /\ factor = 2 ^ j) ->
  labelled gc 2 (pool gc) -> (forall kp, choice_ok gc kp (choices kp)) -> (forall l g p, labelled g k p -> labelled g k (refine l g p)) ->
  exists init labels, kway_initial ub pool k factor threads choices junk junkz gc = Some init /\ refines (pool gc) init k /\
    kway_partition ub pool refine k factor threads choices junk junkz gc lvs = Some labels /\ labelled (finest gc lvs) k labels.
Proof.
  intros Hg Hh Hk2 Hk Hf [Lp Hp] Hc Hr. unfold kway_partition, kway_initial.
  destruct (extend_partition_ok ub gc k factor threads choices (full_memory gc k junk junkz) (pool gc) 1 k) as (mem & init & E & _ & R); auto.
  { split; [lia|]. split; [lia|]. auto. } { apply full_memory_fits. }
  change (2 ^ 1) with 2 in E. rewrite E. cbn [option_map snd].
  assert (Li : labelled gc k init) by (destruct R as (R1 & R2 & _); split; [lia|auto]).
  destruct (multilevel_ok refine k Hr lvs gc init Hh Li) as (labels & El & Ll).
  exists init, labels. auto.
Qed.
