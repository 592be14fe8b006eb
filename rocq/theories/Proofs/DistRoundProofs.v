(* The sequential round of the distributed balancer: reduction over all ranks, moves on the root. *)
From Coq Require Import Sorting.Sorted QArith.
From Verif Require Import Lib.Prelude Model.MpiModel Model.DistBalancerModel Spec.Schedules Spec.DistBalancerSpec Proofs.ReduceProofs Proofs.DistCombineProofs.
Open Scope nat_scope.

Section Reduce.
Variables bw mx : list Z.
Variable per_block k : nat.
Variable srt : list cand -> list cand.
Hypothesis Hsrt : forall l, Permutation (srt l) l.
Hypothesis Hbw : length bw = k.
Hypothesis Hmx : length mx = k.
Local Open Scope Z_scope.

Definition cand_ok (c : cand) : Prop := (c_from c < k)%nat /\ (c_to c < k)%nat /\ 0 <= c_w c.

Lemma combine_ok : forall lhs rhs, (forall c, In c (lhs ++ rhs) -> cand_ok c) -> sorted_from lhs -> sorted_from rhs ->
  exists out rest, combine_cands bw mx per_block srt k lhs rhs = Some out /\ compatible bw mx out /\ Permutation (out ++ rest) (lhs ++ rhs) /\ sorted_from out /\
    (forall maxw, 0 <= maxw -> (forall c, In c (lhs ++ rhs) -> c_w c <= maxw /\ nth (c_from c) mx 0 < nth (c_from c) bw 0) ->
       out_bounded bw mx maxw lhs -> out_bounded bw mx maxw rhs -> out_bounded bw mx maxw out).
Proof.
  intros lhs rhs HT Hl Hr. unfold combine_cands.
  destruct (merge_ok bw mx per_block k srt Hsrt Hbw Hmx (length lhs + length rhs) lhs rhs (repeat 0 k) []) as (out & rest & H1 & H2 & H3 & H4 & H5); try assumption; [lia| |].
  - split; [apply repeat_length|]. split; [|intros c []]. intros t Ht. rewrite nth_repeat. unfold into. cbn. lia.
  - exists out, rest. repeat split; assumption.
Qed.

(** All the candidates below a node of the reduction tree. *)
Definition tree_ok (x : nat -> list cand) (t : tree) (v : option (list cand)) : Prop :=
  exists out rest, v = Some out /\ Permutation (out ++ rest) (flat_map x (leaves t)) /\ sorted_from out /\
    (forall maxw, 0 <= maxw -> (forall r c, In r (leaves t) -> In c (x r) -> c_w c <= maxw /\ nth (c_from c) mx 0 < nth (c_from c) bw 0) ->
       (forall r, In r (leaves t) -> out_bounded bw mx maxw (x r)) -> out_bounded bw mx maxw out).
Definition root_ok (x : nat -> list cand) (rs : list nat) (v : option (list cand)) : Prop :=
  exists out rest, v = Some out /\ Permutation (out ++ rest) (flat_map x rs) /\ sorted_from out /\ compatible bw mx out /\
    (forall maxw, 0 <= maxw -> (forall r c, In r rs -> In c (x r) -> c_w c <= maxw /\ nth (c_from c) mx 0 < nth (c_from c) bw 0) ->
       (forall r, In r rs -> out_bounded bw mx maxw (x r)) -> out_bounded bw mx maxw out).

Lemma node_ok : forall x a b va vb, (forall r c, In r (leaves (Node a b)) -> In c (x r) -> cand_ok c) -> tree_ok x a va -> tree_ok x b vb ->
  root_ok x (leaves (Node a b)) (combine_opt bw mx per_block srt k va vb).
Proof.
  intros x a b va vb HT (oa & ra & -> & Pa & Sa & Oa) (ob & rb & -> & Pb & Sb & Ob). cbn [combine_opt leaves] in *.
  assert (Ia : forall c, In c oa -> exists r, In r (leaves a) /\ In c (x r)).
  { intros c Hc. apply in_flat_map. eapply Permutation_in; [exact Pa|]. apply in_app_iff. left. exact Hc. }
  assert (Ib : forall c, In c ob -> exists r, In r (leaves b) /\ In c (x r)).
  { intros c Hc. apply in_flat_map. eapply Permutation_in; [exact Pb|]. apply in_app_iff. left. exact Hc. }
  assert (Iab : forall c, In c (oa ++ ob) -> exists r, In r (leaves a ++ leaves b) /\ In c (x r)).
  { intros c Hc. apply in_app_iff in Hc. destruct Hc as [Hc|Hc]; [destruct (Ia c Hc) as (r & A & B)|destruct (Ib c Hc) as (r & A & B)]; exists r; (split; [apply in_app_iff; tauto|exact B]). }
  destruct (combine_ok oa ob) as (out & rest & E1 & E2 & E3 & E4 & E5); [|exact Sa|exact Sb|].
  { intros c Hc. destruct (Iab c Hc) as (r & A & B). exact (HT r c A B). }
  exists out, (rest ++ ra ++ rb). split; [exact E1|]. split; [|split; [exact E4|split; [exact E2|]]].
  - rewrite flat_map_app. eapply perm_trans; [|apply Permutation_app; [exact Pa|exact Pb]]. rewrite !app_assoc.
    eapply perm_trans; [apply Permutation_app_tail, Permutation_app_tail; exact E3|]. rewrite <- !app_assoc. apply Permutation_app_head.
    rewrite !app_assoc. apply Permutation_app_tail, Permutation_app_comm.
  - intros maxw Hm HB HO. apply E5; [exact Hm| | |].
    + intros c Hc. destruct (Iab c Hc) as (r & A & B). exact (HB r c A B).
    + apply Oa; [exact Hm| |]; intros r; [intros c Hr Hc; apply (HB r c); [apply in_app_iff; left|]; assumption|intros Hr; apply HO; apply in_app_iff; left; exact Hr].
    + apply Ob; [exact Hm| |]; intros r; [intros c Hr Hc; apply (HB r c); [apply in_app_iff; right|]; assumption|intros Hr; apply HO; apply in_app_iff; right; exact Hr].
Qed.

Lemma eval_ok : forall x t, (forall r c, In r (leaves t) -> In c (x r) -> cand_ok c) -> (forall r, In r (leaves t) -> sorted_from (x r)) ->
  tree_ok x t (eval (combine_opt bw mx per_block srt k) (fun r => Some (x r)) t).
Proof.
  intros x t. induction t as [r|a IHa b IHb]; intros HT HS.
  - exists (x r), []. cbn. rewrite !app_nil_r. split; [reflexivity|]. split; [apply Permutation_refl|]. split; [apply HS; left; reflexivity|].
    intros maxw _ _ HO. apply HO. left. reflexivity.
  - cbn [eval]. assert (X : root_ok x (leaves (Node a b)) (combine_opt bw mx per_block srt k (eval (combine_opt bw mx per_block srt k) (fun r => Some (x r)) a) (eval (combine_opt bw mx per_block srt k) (fun r => Some (x r)) b))).
    { apply node_ok; [exact HT| |].
      - apply IHa; intros r; [intros c Hr Hc; apply (HT r c); [apply in_app_iff; left|]; assumption|intros Hr; apply HS, in_app_iff; left; exact Hr].
      - apply IHb; intros r; [intros c Hr Hc; apply (HT r c); [apply in_app_iff; right|]; assumption|intros Hr; apply HS, in_app_iff; right; exact Hr]. }
    destruct X as (out & rest & H1 & H2 & H3 & H4 & H5). exists out, rest. repeat split; assumption.
Qed.

Theorem reduce_ok : forall (sy : nat -> nat -> bool) P x, (0 < P)%nat ->
  (forall r c, (r < P)%nat -> In c (x r) -> cand_ok c) -> (forall r, (r < P)%nat -> sorted_from (x r)) ->
  exists v, always_returns (map (fun r => reduce_candidates sy bw mx per_block srt k P r (x r)) (seq 0 P)) (fun r => if (r =? 0)%nat then Some v else None) /\
    root_ok x (seq 0 P) v.
Proof.
  intros sy P x HP HT HS.
  destruct (reduction_ok sy (combine_opt bw mx per_block srt k) (Some []) None P (fun r => Some (x r)) HP) as (v & R & R1 & R2).
  exists v. split; [exact R|].
  assert (HI : forall r, In r (seq 0 P) -> (r < P)%nat) by (intros r Hr; apply in_seq in Hr; lia).
  destruct (Nat.eq_dec P 1) as [E|E].
  - rewrite (R1 E). subst P. cbn [combine_opt seq].
    destruct (combine_ok (x 0%nat) []) as (out & rest & E1 & E2 & E3 & E4 & E5); [|apply HS; lia|constructor|].
    { intros c Hc. rewrite app_nil_r in Hc. apply (HT 0%nat); [lia|exact Hc]. }
    exists out, rest. cbn [flat_map]. split; [exact E1|]. split; [exact E3|]. split; [exact E4|]. split; [exact E2|].
    intros maxw Hm HB HO. apply E5; [exact Hm| | |].
    + intros c Hc. rewrite app_nil_r in Hc. apply (HB 0%nat); [left; reflexivity|exact Hc].
    + apply HO. left. reflexivity.
    + intros c [].
  - destruct R2 as (a & b & PL & ->); [lia|].
    assert (HL : forall r, In r (leaves (Node a b)) -> (r < P)%nat) by (intros r Hr; apply HI; eapply Permutation_in; eassumption).
    assert (X : root_ok x (leaves (Node a b)) (eval (combine_opt bw mx per_block srt k) (fun r => Some (x r)) (Node a b))).
    { cbn [eval]. apply node_ok.
      - intros r c Hr Hc. exact (HT r c (HL r Hr) Hc).
      - apply eval_ok; intros r; [intros c Hr Hc; apply (HT r c); [apply HL; cbn; apply in_app_iff; left|]; assumption|intros Hr; apply HS, HL; cbn; apply in_app_iff; left; exact Hr].
      - apply eval_ok; intros r; [intros c Hr Hc; apply (HT r c); [apply HL; cbn; apply in_app_iff; right|]; assumption|intros Hr; apply HS, HL; cbn; apply in_app_iff; right; exact Hr]. }
    destruct X as (out & rest & H1 & H2 & H3 & H4 & H5). exists out, rest. split; [exact H1|]. split; [|split; [exact H3|split; [exact H4|]]].
    + eapply perm_trans; [exact H2|]. apply Permutation_flat_map. exact PL.
    + intros maxw Hm HB HO. apply H5; [exact Hm| |]; intros r; [intros c Hr Hc; apply (HB r c); [eapply Permutation_in; [exact PL|exact Hr]|exact Hc]|intros Hr; apply HO; eapply Permutation_in; [exact PL|exact Hr]].
Qed.
End Reduce.

(** ** The moves on the root *)
Section Root.
Variable mx : list Z.
Variable k : nat.
Hypothesis Hmx : length mx = k.
Local Open Scope Z_scope.

Definition delta1 (c : cand) (b : nat) : Z := (if (c_to c =? b)%nat then c_w c else 0) - (if (c_from c =? b)%nat then c_w c else 0).
Lemma delta1_real : forall c b, real c -> delta1 c b = into [c] b - outof [c] b.
Proof.
  intros c b H. unfold delta1, into, outof, real in *. cbn [map zsum].
  destruct (Nat.eqb_spec (c_to c) b), (Nat.eqb_spec (c_from c) b); cbn [andb negb]; lia.
Qed.
Lemma move_ok : forall bw c, length bw = k -> (c_from c < k)%nat -> (c_to c < k)%nat ->
  exists bw', move_weight bw c = Some bw' /\ length bw' = k /\ forall b, (b < k)%nat -> nth b bw' 0 = nth b bw 0 + delta1 c b.
Proof.
  intros bw c Hl Hf Ht. unfold move_weight, delta1. destruct (Nat.eqb_spec (c_from c) (c_to c)) as [E|E].
  - exists bw. split; [reflexivity|]. split; [exact Hl|]. intros b _. rewrite E. destruct (c_to c =? b)%nat; lia.
  - rewrite (nth_error_nth' bw 0) by lia. rewrite (nth_error_nth' _ 0) by (rewrite upd_length; lia).
    eexists. split; [reflexivity|]. split; [rewrite !upd_length; exact Hl|]. intros b Hb. rewrite !upd_nth, !upd_length.
    destruct (Nat.ltb_spec (c_to c) (length bw)); [|lia]. destruct (Nat.ltb_spec (c_from c) (length bw)); [|lia]. rewrite !Bool.andb_true_r.
    destruct (Nat.eqb_spec (c_from c) (c_to c)); [contradiction|].
    destruct (Nat.eqb_spec (c_to c) b) as [E1|E1], (Nat.eqb_spec (c_from c) b) as [E2|E2]; subst; try contradiction; lia.
Qed.

Lemma into_cons : forall c l b, into (c :: l) b = into [c] b + into l b.
Proof. intros. unfold into. cbn [map zsum]. lia. Qed.
Lemma outof_cons : forall c l b, outof (c :: l) b = outof [c] b + outof l b.
Proof. intros. unfold outof. cbn [map zsum]. lia. Qed.

Lemma moves_ok : forall cs bw, length bw = k -> blocks_ok k cs -> (forall c, In c cs -> real c) ->
  exists bw', perform_moves cs bw = Some bw' /\ length bw' = k /\ forall b, (b < k)%nat -> nth b bw' 0 = nth b bw 0 + into cs b - outof cs b.
Proof.
  induction cs as [|c t IH]; intros bw Hl HB HR.
  - exists bw. split; [reflexivity|]. split; [exact Hl|]. intros b _. unfold into, outof. cbn. lia.
  - cbn [perform_moves]. destruct (HB c (or_introl eq_refl)) as [Hf Ht]. destruct (move_ok bw c Hl Hf Ht) as (b1 & -> & L1 & N1).
    destruct (IH b1 L1 (fun d Hd => HB d (or_intror Hd)) (fun d Hd => HR d (or_intror Hd))) as (b2 & -> & L2 & N2).
    exists b2. split; [reflexivity|]. split; [exact L2|]. intros b Hb. rewrite N2, N1, delta1_real by (try exact Hb; apply HR; left; reflexivity).
    rewrite (into_cons c t), (outof_cons c t). lia.
Qed.

Lemma next_block_ok : forall fuel bw from w cur b, length bw = k -> next_block fuel mx bw k from w cur = Some b ->
  (b < k)%nat /\ b <> from /\ nth b bw 0 + w <= nth b mx 0.
Proof.
  induction fuel as [|f IH]; intros bw from w cur b Hl E; [discriminate|]. cbn [next_block] in E.
  destruct (nth_error bw cur) as [x|] eqn:E1; [|discriminate]. destruct (nth_error mx cur) as [m|] eqn:E2; [|discriminate].
  destruct ((cur =? from)%nat || (m <? x + w))%bool eqn:T.
  - eapply IH; eassumption.
  - injection E as <-. apply Bool.orb_false_iff in T. destruct T as [T1 T2]. apply Nat.eqb_neq in T1. apply Z.ltb_ge in T2.
    rewrite (nth_error_nth _ _ 0 E1), (nth_error_nth _ _ 0 E2). split; [|split; assumption].
    rewrite <- Hl. apply nth_error_Some. rewrite E1. discriminate.
Qed.
Lemma next_block_some : forall d fuel bw from w cur b, length bw = k -> (cur < k)%nat -> (d < fuel)%nat -> (b = (cur + d) mod k)%nat ->
  b <> from -> nth b bw 0 + w <= nth b mx 0 -> exists b', next_block fuel mx bw k from w cur = Some b'.
Proof.
  induction d as [|d IH]; intros fuel bw from w cur b Hl Hc Hf Hb Hn Hw; (destruct fuel as [|f]; [lia|]); cbn [next_block];
    rewrite (nth_error_nth' bw 0), (nth_error_nth' mx 0) by lia; (destruct ((cur =? from)%nat || _)%bool eqn:T; [|eexists; reflexivity]).
  - exfalso. rewrite Nat.add_0_r, Nat.mod_small in Hb by lia. subst b. apply Bool.orb_true_iff in T. destruct T as [T|T]; [apply Nat.eqb_eq in T; contradiction|apply Z.ltb_lt in T; lia].
  - apply (IH f bw from w _ b); try assumption; [destruct (Nat.leb_spec k (S cur)); lia|lia|].
    subst b. destruct (Nat.leb_spec k (S cur)).
    + assert (cur = k - 1)%nat by lia. subst cur. replace (k - 1 + S d)%nat with (d + 1 * k)%nat by lia. rewrite Nat.mod_add by lia. reflexivity.
    + f_equal. lia.
Qed.
Lemma next_block_total : forall bw from w cur b, length bw = k -> (cur < k)%nat -> (b < k)%nat -> b <> from -> nth b bw 0 + w <= nth b mx 0 ->
  exists b', next_block k mx bw k from w cur = Some b'.
Proof.
  intros bw from w cur b Hl Hc Hb Hn Hw. destruct (Nat.le_gt_cases cur b).
  - apply (next_block_some (b - cur) k bw from w cur b); try assumption; [lia|]. replace (cur + (b - cur))%nat with b by lia. rewrite Nat.mod_small; lia.
  - apply (next_block_some (k + b - cur) k bw from w cur b); try assumption; [lia|]. replace (cur + (k + b - cur))%nat with (b + 1 * k)%nat by lia.
    rewrite Nat.mod_add, Nat.mod_small by lia. reflexivity.
Qed.

Definition is_fake (c : cand) : bool := (c_from c =? c_to c)%nat.

Lemma place_ok : forall fuel cs bw cur cs' bw', length bw = k -> blocks_ok k cs -> (forall c, In c cs -> 0 <= c_w c) ->
  place fuel mx k cs bw cur = Some (cs', bw') ->
  length bw' = k /\ Forall2 same_move cs cs' /\ (forall c, In c cs' -> real c) /\ blocks_ok k cs' /\
  forall b, (b < k)%nat -> nth b bw' 0 = nth b bw 0 + into cs' b - into cs b - outof (filter is_fake cs) b /\ nth b bw' 0 <= Z.max (nth b mx 0) (nth b bw 0).
Proof.
  intros fuel. induction cs as [|c t IH]; intros bw cur cs' bw' Hl HB HW E.
  - cbn [place] in E. injection E as <- <-. split; [exact Hl|]. split; [constructor|]. split; [intros c []|]. split; [intros c []|]. intros b Hb. unfold into, outof. cbn. lia.
  - destruct (HB c (or_introl eq_refl)) as [Hf Ht]. assert (Hw := HW c (or_introl eq_refl)). cbn [place] in E.
    assert (HB' : blocks_ok k t) by (intros d Hd; apply HB; right; exact Hd). assert (HW' : forall d, In d t -> 0 <= c_w d) by (intros d Hd; apply HW; right; exact Hd).
    destruct (Nat.eqb_spec (c_from c) (c_to c)) as [Ef|Ef].
    + destruct (next_block fuel mx bw k (c_from c) (c_w c) cur) as [b0|] eqn:En; [|discriminate].
      apply next_block_ok in En; [|exact Hl]. destruct En as (Hb0 & Hn & Hfit).
      set (c' := Cand (c_id c) (c_from c) b0 (c_w c) (c_gain c)) in *.
      destruct (move_ok bw c' Hl Hf Hb0) as (bw1 & Em & L1 & N1). rewrite Em in E.
      destruct (place fuel mx k t bw1 b0) as [[t' bw2]|] eqn:Ep; [|discriminate]. injection E as <- <-.
      destruct (IH bw1 b0 t' bw2 L1 HB' HW' Ep) as (A1 & A2 & A3 & A4 & A5).
      assert (Rc : real c') by (unfold real, c'; cbn; intros X; apply Hn; symmetry; exact X).
      split; [exact A1|]. split; [constructor; [repeat split; unfold c'; cbn; try reflexivity; intros Hr; destruct (Hr Ef)|exact A2]|].
      split; [intros d [<-|Hd]; [exact Rc|apply A3; exact Hd]|]. split; [intros d [<-|Hd]; [split; [exact Hf|exact Hb0]|apply A4; exact Hd]|].
      intros b Hb. destruct (A5 b Hb) as [B1 B2]. specialize (N1 b Hb). rewrite delta1_real in N1 by exact Rc.
      assert (I0 : into [c] b = 0).
      { unfold into. cbn [map zsum]. rewrite <- Ef. destruct (c_from c =? b)%nat; reflexivity. }
      assert (Fk : is_fake c = true) by (unfold is_fake; apply Nat.eqb_eq; exact Ef).
      cbn [filter]. rewrite Fk. rewrite (into_cons c' t'), (into_cons c t), (outof_cons c (filter is_fake t)), I0.
      assert (O1 : outof [c'] b = outof [c] b) by reflexivity. rewrite O1 in N1. split; [lia|].
      assert (Hc0 : nth b bw1 0 <= Z.max (nth b mx 0) (nth b bw 0)).
      { rewrite N1. unfold into, outof, c'. cbn [map zsum c_to c_from c_w]. destruct (Nat.eqb_spec b0 b) as [<-|]; destruct (c_from c =? _)%nat; cbn [andb negb]; lia. }
      lia.
    + destruct (place fuel mx k t bw cur) as [[t' bw2]|] eqn:Ep; [|discriminate]. injection E as <- <-.
      destruct (IH bw cur t' bw2 Hl HB' HW' Ep) as (A1 & A2 & A3 & A4 & A5).
      split; [exact A1|]. split; [constructor; [repeat split|exact A2]|].
      split; [intros d [<-|Hd]; [exact Ef|apply A3; exact Hd]|]. split; [intros d [<-|Hd]; [split; assumption|apply A4; exact Hd]|].
      intros b Hb. destruct (A5 b Hb) as [B1 B2]. assert (Fk : is_fake c = false) by (unfold is_fake; apply Nat.eqb_neq; exact Ef).
      cbn [filter]. rewrite Fk. rewrite (into_cons c t'), (into_cons c t). split; [lia|exact B2].
Qed.

Lemma into_filter : forall cs b, into (filter (fun c => negb (c_from c =? c_to c)%nat) cs) b = into cs b.
Proof.
  induction cs as [|c t IH]; intros b; [reflexivity|]. cbn [filter]. rewrite (into_cons c t). destruct (Nat.eqb_spec (c_from c) (c_to c)) as [E|E]; cbn [negb].
  - rewrite IH. unfold into at 2. cbn [map zsum]. rewrite <- E. destruct (c_from c =? b)%nat; cbn; lia.
  - rewrite into_cons, IH. reflexivity.
Qed.
Lemma outof_filter : forall cs b, outof (filter (fun c => negb (c_from c =? c_to c)%nat) cs) b = outof cs b - outof (filter is_fake cs) b.
Proof.
  induction cs as [|c t IH]; intros b; [reflexivity|]. cbn [filter]. rewrite (outof_cons c t). unfold is_fake at 1. destruct (c_from c =? c_to c)%nat; cbn [negb].
  - rewrite (outof_cons c (filter is_fake t)), IH. lia.
  - rewrite outof_cons, IH. lia.
Qed.
Lemma outof_nonneg : forall cs b, (forall c, In c cs -> 0 <= c_w c) -> 0 <= outof cs b.
Proof. intros cs b H. unfold outof. apply zsum_nonneg. intros x Hx. apply in_map_iff in Hx. destruct Hx as (c & <- & Hc). specialize (H c Hc). destruct (_ =? _)%nat; lia. Qed.
Lemma into_zero : forall cs b, (forall c, In c cs -> real c -> c_to c <> b) -> into cs b = 0.
Proof.
  intros cs b. induction cs as [|c t IH]; intros H; [reflexivity|]. rewrite into_cons, IH by (intros d Hd; apply H; right; exact Hd).
  unfold into. cbn [map zsum]. destruct (Nat.eqb_spec (c_to c) b) as [E|E]; cbn [andb]; [|lia]. destruct (Nat.eqb_spec (c_from c) b) as [E'|E']; cbn [negb]; [lia|].
  exfalso. apply (H c (or_introl eq_refl)); [unfold real; congruence|exact E].
Qed.

(** Either a block gets something, and then it stays below its limit, or it does not become heavier. *)
Lemma first_phase : forall cs bw, length bw = k -> blocks_ok k cs -> (forall c, In c cs -> 0 <= c_w c) -> compatible bw mx cs ->
  exists bw1, perform_moves (filter (fun c => negb (c_from c =? c_to c)%nat) cs) bw = Some bw1 /\ length bw1 = k /\
    forall b, (b < k)%nat -> nth b bw1 0 = nth b bw 0 + into cs b - outof cs b + outof (filter is_fake cs) b /\ nth b bw1 0 <= Z.max (nth b mx 0) (nth b bw 0).
Proof.
  intros cs bw Hl HB HW HC.
  destruct (moves_ok (filter (fun c => negb (c_from c =? c_to c)%nat) cs) bw Hl) as (bw1 & E & L & N).
  { intros c Hc. apply filter_In in Hc. apply HB, Hc. }
  { intros c Hc. apply filter_In in Hc. destruct Hc as [_ Hc]. apply Bool.negb_true_iff, Nat.eqb_neq in Hc. exact Hc. }
  exists bw1. split; [exact E|]. split; [exact L|]. intros b Hb. rewrite (N b Hb), into_filter, outof_filter. split; [lia|].
  assert (O : 0 <= outof cs b - outof (filter is_fake cs) b).
  { rewrite <- outof_filter. apply outof_nonneg. intros c Hc. apply filter_In in Hc. apply HW, Hc. }
  destruct (existsb (fun c => negb (c_from c =? c_to c)%nat && (c_to c =? b)%nat) cs) eqn:Ex.
  - apply existsb_exists in Ex. destruct Ex as (c & Hc & T). apply andb_true_iff in T. destruct T as [T1 T2]. apply Bool.negb_true_iff, Nat.eqb_neq in T1. apply Nat.eqb_eq in T2.
    specialize (HC c Hc T1). rewrite T2 in HC. lia.
  - rewrite into_zero; [lia|]. intros c Hc Hr Ht. assert (existsb (fun c => negb (c_from c =? c_to c)%nat && (c_to c =? b)%nat) cs = true); [|congruence].
    apply existsb_exists. exists c. split; [exact Hc|]. apply andb_true_iff. split; [apply Bool.negb_true_iff, Nat.eqb_neq; exact Hr|apply Nat.eqb_eq; exact Ht].
Qed.

Lemma same_outof : forall a a' b, Forall2 same_move a a' -> outof a' b = outof a b.
Proof. induction 1 as [|x y l l' (H1 & H2 & H3 & _) H IH]; [reflexivity|]. rewrite (outof_cons y), (outof_cons x), IH. unfold outof. cbn [map zsum]. rewrite H2, H3. reflexivity. Qed.

Theorem root_safe : forall fuel cs bw cs' bw', length bw = k -> blocks_ok k cs -> (forall c, In c cs -> 0 <= c_w c) -> compatible bw mx cs ->
  root_moves fuel mx k cs bw = Some (cs', bw') ->
  length bw' = k /\ Forall2 same_move cs cs' /\ (forall c, In c cs' -> real c) /\ blocks_ok k cs' /\ perform_moves cs' bw = Some bw' /\
  forall b, (b < k)%nat -> nth b bw' 0 = nth b bw 0 + into cs' b - outof cs' b /\ nth b bw' 0 <= Z.max (nth b mx 0) (nth b bw 0).
Proof.
  intros fuel cs bw cs' bw' Hl HB HW HC E. unfold root_moves in E. destruct (first_phase cs bw Hl HB HW HC) as (bw1 & E1 & L1 & N1). rewrite E1 in E.
  destruct (place_ok fuel cs bw1 0 cs' bw' L1 HB HW E) as (A1 & A2 & A3 & A4 & A5).
  assert (N : forall b, (b < k)%nat -> nth b bw' 0 = nth b bw 0 + into cs' b - outof cs' b /\ nth b bw' 0 <= Z.max (nth b mx 0) (nth b bw 0)).
  { intros b Hb. destruct (N1 b Hb) as [N2 N3]. destruct (A5 b Hb) as [A6 A7]. rewrite (same_outof cs cs' b A2). split; lia. }
  split; [exact A1|]. split; [exact A2|]. split; [exact A3|]. split; [exact A4|]. split; [|exact N].
  destruct (moves_ok cs' bw Hl A4 A3) as (bw2 & E2 & L2 & N2). rewrite E2. f_equal. apply (list_ext 0); [lia|].
  intros b Hb. rewrite L2 in Hb. rewrite (N2 b Hb). symmetry. apply (N b Hb).
Qed.

(** ** The search for a block ends *)
Lemma room : forall bw f w perfect maxw, length bw = k -> (f < k)%nat -> (2 <= k)%nat -> 1 <= maxw -> 0 <= w <= maxw ->
  (forall b, (b < k)%nat -> perfect + maxw - 1 <= nth b mx 0) -> zsum bw <= perfect * Z.of_nat k -> perfect + w <= nth f bw 0 ->
  exists b, (b < k)%nat /\ b <> f /\ nth b bw 0 + w <= nth b mx 0.
Proof.
  intros bw f w perfect maxw Hl Hf Hk Hm Hw HM HS HF.
  destruct (existsb (fun b => negb (b =? f)%nat && (nth b bw 0 + w <=? nth b mx 0)) (seq 0 k)) eqn:Ex.
  - apply existsb_exists in Ex. destruct Ex as (b & Hb & T). apply in_seq in Hb. apply andb_true_iff in T. destruct T as [T1 T2].
    exists b. split; [lia|]. split; [apply Nat.eqb_neq, Bool.negb_true_iff; exact T1|apply Z.leb_le; exact T2].
  - exfalso. assert (HA : forall b, (b < k)%nat -> b <> f -> perfect + maxw - w <= nth b bw 0).
    { intros b Hb Hn. destruct (Z.le_gt_cases (nth b bw 0 + w) (nth b mx 0)) as [H|H]; [|specialize (HM b Hb); lia]. exfalso.
      assert (existsb (fun b => negb (b =? f)%nat && (nth b bw 0 + w <=? nth b mx 0)) (seq 0 k) = true); [|congruence].
      apply existsb_exists. exists b. split; [apply in_seq; lia|]. apply andb_true_iff. split; [apply Bool.negb_true_iff, Nat.eqb_neq; exact Hn|apply Z.leb_le; exact H]. }
    assert (SL : sumn k (fun b => (perfect + maxw - w) + (if (b =? f)%nat then (2 * w - maxw) else 0)) <= zsum bw).
    { rewrite <- sumn_list, Hl. apply sumn_le. intros b Hb. destruct (Nat.eqb_spec b f) as [->|Hn]; [lia|]. specialize (HA b Hb Hn). lia. }
    rewrite sumn_add, sumn_const, sumn_indicator in SL by exact Hf.
    assert (2 <= Z.of_nat k) by lia. nia.
Qed.

Lemma zsum_move : forall bw c bw', length bw = k -> (c_from c < k)%nat -> (c_to c < k)%nat -> move_weight bw c = Some bw' -> zsum bw' = zsum bw.
Proof.
  intros bw c bw' Hl Hf Ht E. destruct (move_ok bw c Hl Hf Ht) as (b1 & E1 & L1 & N1). assert (b1 = bw') by congruence. subst b1.
  rewrite <- (sumn_list bw'), <- (sumn_list bw), L1, Hl. rewrite (sumn_ext k _ (fun i => nth i bw 0 + ((if (i =? c_to c)%nat then c_w c else 0) - (if (i =? c_from c)%nat then c_w c else 0)))).
  - rewrite sumn_add, sumn_sub, !sumn_indicator by assumption. lia.
  - intros i Hi. rewrite (N1 i Hi). unfold delta1. rewrite (Nat.eqb_sym (c_to c)), (Nat.eqb_sym (c_from c)). reflexivity.
Qed.

Lemma place_total : forall perfect maxw, (2 <= k)%nat -> 1 <= maxw -> (forall b, (b < k)%nat -> perfect + maxw - 1 <= nth b mx 0) ->
  forall cs bw cur, length bw = k -> (cur < k)%nat -> blocks_ok k cs -> (forall c, In c cs -> 0 <= c_w c <= maxw) -> zsum bw <= perfect * Z.of_nat k ->
  (forall c, In c (filter is_fake cs) -> nth (c_from c) mx 0 + 1 - maxw + outof (filter is_fake cs) (c_from c) <= nth (c_from c) bw 0) ->
  exists cs' bw', place k mx k cs bw cur = Some (cs', bw').
Proof.
  intros perfect maxw Hk Hm HM. induction cs as [|c t IH]; intros bw cur Hl Hc HB HW HS HP; [do 2 eexists; reflexivity|].
  destruct (HB c (or_introl eq_refl)) as [Hf Ht]. assert (Hw := HW c (or_introl eq_refl)).
  assert (HB' : blocks_ok k t) by (intros d Hd; apply HB; right; exact Hd). assert (HW' : forall d, In d t -> 0 <= c_w d <= maxw) by (intros d Hd; apply HW; right; exact Hd).
  cbn [place]. cbn [filter] in HP. destruct (Nat.eqb_spec (c_from c) (c_to c)) as [Ef|Ef].
  - assert (Fk : is_fake c = true) by (unfold is_fake; apply Nat.eqb_eq; exact Ef). rewrite Fk in HP. assert (HF := HP c (or_introl eq_refl)). rewrite outof_cons in HF.
    assert (O1 : outof [c] (c_from c) = c_w c) by (unfold outof; cbn [map zsum]; rewrite Nat.eqb_refl; lia).
    assert (O2 : 0 <= outof (filter is_fake t) (c_from c)) by (apply outof_nonneg; intros d Hd; apply filter_In in Hd; apply HW'; apply Hd).
    assert (HM' := HM (c_from c) Hf).
    destruct (room bw (c_from c) (c_w c) perfect maxw) as (b & B1 & B2 & B3); try assumption; [lia|].
    destruct (next_block_total bw (c_from c) (c_w c) cur b) as (b' & En); try assumption. rewrite En.
    apply next_block_ok in En; [|exact Hl]. destruct En as (Hb' & Hn & _).
    set (c' := Cand (c_id c) (c_from c) b' (c_w c) (c_gain c)).
    destruct (move_ok bw c' Hl Hf Hb') as (bw1 & Em & L1 & N1). rewrite Em.
    destruct (IH bw1 b') as (t' & bw2 & E2); try assumption.
    + rewrite (zsum_move bw c' bw1 Hl Hf Hb' Em). exact HS.
    + intros d Hd. assert (HPd := HP d (or_intror Hd)). rewrite outof_cons in HPd.
      assert (Hfd : (c_from d < k)%nat) by (apply filter_In in Hd; apply HB'; apply Hd). rewrite (N1 _ Hfd). unfold delta1, c'. cbn [c_from c_to c_w].
      unfold outof at 1 in HPd. cbn [map zsum] in HPd. destruct (c_from c =? c_from d)%nat, (b' =? c_from d)%nat; lia.
    + rewrite E2. do 2 eexists. reflexivity.
  - assert (Fk : is_fake c = false) by (unfold is_fake; apply Nat.eqb_neq; exact Ef). rewrite Fk in HP.
    destruct (IH bw cur) as (t' & bw2 & E2); try assumption. rewrite E2. do 2 eexists. reflexivity.
Qed.

Theorem root_returns : forall cs bw perfect maxw, length bw = k -> (2 <= k)%nat -> 1 <= maxw -> blocks_ok k cs -> (forall c, In c cs -> 0 <= c_w c <= maxw) ->
  compatible bw mx cs -> (forall b, (b < k)%nat -> perfect + maxw - 1 <= nth b mx 0) -> zsum bw <= perfect * Z.of_nat k -> out_bounded bw mx maxw cs ->
  exists cs' bw', root_moves k mx k cs bw = Some (cs', bw').
Proof.
  intros cs bw perfect maxw Hl Hk Hm HB HW HC HM HS HO. unfold root_moves. assert (HW0 : forall c, In c cs -> 0 <= c_w c) by (intros c Hc; apply HW; exact Hc).
  destruct (first_phase cs bw Hl HB HW0 HC) as (bw1 & E1 & L1 & N1). rewrite E1. apply (place_total perfect maxw Hk Hm HM); try assumption; [lia| |].
  - assert (HZ : forall l b, length b = k -> blocks_ok k l -> forall b', perform_moves l b = Some b' -> zsum b' = zsum b).
    { induction l as [|c t IH]; intros b Hb HBl b' E; [cbn in E; congruence|]. cbn [perform_moves] in E. destruct (HBl c (or_introl eq_refl)) as [Hf Ht].
      destruct (move_ok b c Hb Hf Ht) as (b1 & Em & Lb & _). rewrite Em in E. rewrite (IH b1 Lb (fun d Hd => HBl d (or_intror Hd)) b' E). apply (zsum_move b c b1 Hb Hf Ht Em). }
    rewrite (HZ _ bw Hl) with (2 := E1); [exact HS|]. intros c Hc. apply filter_In in Hc. apply HB, Hc.
  - intros c Hc. assert (Hc' : In c cs) by (apply filter_In in Hc; apply Hc). destruct (HB c Hc') as [Hf _]. destruct (N1 (c_from c) Hf) as [N2 _]. rewrite N2.
    assert (X := HO c Hc'). assert (0 <= into cs (c_from c)).
    { unfold into. apply zsum_nonneg. intros y Hy. apply in_map_iff in Hy. destruct Hy as (d & <- & Hd). specialize (HW0 d Hd). destruct (_ && _)%bool; lia. }
    lia.
Qed.
End Root.
