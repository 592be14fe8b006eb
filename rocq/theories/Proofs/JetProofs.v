(* The Jet refiner returns the best partition it has seen. *)
From Verif Require Import Lib.Prelude Spec.Graph Spec.Gain Model.BlockWeightModel Model.BalancerModel Model.JetModel
  Proofs.GraphFacts Proofs.GainBase Proofs.DeltaProofs Proofs.LpRefineProofs Proofs.BalancerTop Proofs.BalancerDone.
Local Open Scope Z_scope.

(** A loop in which every node writes its own entry does not depend on the order. *)
Lemma fold_upd_nth {A} (f : nat -> A) (d : A) ord : forall base, (forall u, In u ord -> (u < length base)%nat) ->
  length (fold_left (fun l u => upd u (f u) l) ord base) = length base /\
  forall v, nth v (fold_left (fun l u => upd u (f u) l) ord base) d = if in_dec Nat.eq_dec v ord then f v else nth v base d.
Proof.
  induction ord as [|u ord IH]; intros base H; [split; reflexivity|]. cbn [fold_left].
  destruct (IH (upd u (f u) base)) as (L & N); [intros v Iv; rewrite upd_length; apply H; right; exact Iv|]. rewrite upd_length in L. split; [exact L|].
  intros v. rewrite N. destruct (in_dec Nat.eq_dec v ord) as [I|I], (in_dec Nat.eq_dec v (u :: ord)) as [I'|I']; try reflexivity.
  - exfalso. apply I'. right. exact I.
  - destruct I' as [->|I']; [|contradiction]. apply upd_nth_same, H. left. reflexivity.
  - apply upd_nth_other. intros ->. apply I'. left. reflexivity.
Qed.
Lemma fold_upd_map {A} (f : nat -> A) (d : A) ord base n : Permutation ord (seq 0 n) -> length base = n ->
  fold_left (fun l u => upd u (f u) l) ord base = map f (seq 0 n).
Proof.
  intros P L. assert (Io : forall u, In u ord <-> (u < n)%nat).
  { intros u. split; intros H; [apply (Permutation_in _ P), in_seq in H; lia|apply (Permutation_in _ (Permutation_sym P)), in_seq; lia]. }
  destruct (fold_upd_nth f d ord base) as (L' & N); [intros u H; rewrite L; apply Io, H|]. apply (list_ext d); [rewrite L', map_length, seq_length; exact L|].
  intros i Hi. rewrite L', L in Hi. rewrite N, nth_map_seq by exact Hi. destruct (in_dec Nat.eq_dec i ord) as [_|C]; [reflexivity|]. exfalso. apply C, Io, Hi.
Qed.

Section Jet.
Variables (g : graph) (k : nat).
Notation n := (gn g).
Definition okm (m : mem) : Prop := exact_block_weights g (m_label m) (m_weight m) /\ length (m_weight m) = k.

Lemma set_block_ok u to m : okm m -> (u < n)%nat -> (to < k)%nat ->
  okm (set_block g u to m) /\ m_label (set_block g u to m) = upd u to (m_label m).
Proof.
  intros ((L & H & E) & Lk) Hu Ht. split; [|reflexivity]. unfold okm, set_block, add_weight. cbn [m_label m_weight]. rewrite !upd_length.
  assert (Hf : (nth u (m_label m) 0 < k)%nat) by (rewrite <- Lk; apply H; exact Hu).
  split; [|exact Lk]. split; [rewrite upd_length; exact L|]. rewrite !upd_length, Lk. split.
  - intros x Hx. rewrite upd_nth. destruct (_ && _)%bool; [exact Ht|rewrite <- Lk; apply H; exact Hx].
  - intros b Hb. rewrite (block_weight_ext g (fun x => nth x (upd u to (m_label m)) 0%nat) (relabel (label_of (m_label m)) u to)) by (intros x Hx; apply label_upd; lia).
    rewrite block_weight_relabel by exact Hu. change (block_weight g (label_of (m_label m)) b) with (block_weight g (fun u => nth u (m_label m) 0%nat) b). rewrite <- (E b) by lia. set (f := nth u (m_label m) 0%nat) in *. change (label_of (m_label m) u) with f.
    destruct (Nat.eq_dec b to) as [->|Nt].
    + rewrite upd_nth_same by (rewrite upd_length; lia). rewrite Nat.eqb_refl. destruct (Nat.eqb_spec f to) as [->|Nf]; [rewrite upd_nth_same by lia; lia|rewrite upd_nth_other by auto; lia].
    + rewrite upd_nth_other by auto. destruct (Nat.eqb_spec to b) as [->|_]; [contradiction|]. destruct (Nat.eqb_spec f b) as [->|Nf]; [rewrite upd_nth_same by lia; lia|rewrite upd_nth_other by auto; lia].
Qed.

(** set_block for some nodes, in any order. *)
Lemma set_blocks_ok (P : nat -> bool) (f : nat -> nat) ord : forall m, okm m -> (forall u, In u ord -> (u < n)%nat /\ (P u = true -> (f u < k)%nat)) -> NoDup ord ->
  let m' := fold_left (fun m u => if P u then set_block g u (f u) m else m) ord m in
  okm m' /\ forall v, nth v (m_label m') 0%nat = if in_dec Nat.eq_dec v ord then (if P v then f v else nth v (m_label m) 0%nat) else nth v (m_label m) 0%nat.
Proof.
  induction ord as [|u ord IH]; intros m Ok H ND m'; [split; [exact Ok|reflexivity]|]. inversion ND as [|? ? Nu ND']; subst. destruct (H u (or_introl eq_refl)) as (Hu & Hf).
  unfold m'. cbn [fold_left]. clear m'. assert (Hr : forall v, In v ord -> (v < n)%nat /\ (P v = true -> (f v < k)%nat)) by (intros v Iv; apply H; right; exact Iv).
  destruct (P u) eqn:Pu.
  - destruct (set_block_ok u (f u) m Ok Hu (Hf eq_refl)) as (Ok1 & El). destruct (IH _ Ok1 Hr ND') as (R1 & R2). split; [exact R1|]. intros v. rewrite R2, El.
    destruct (in_dec Nat.eq_dec v ord) as [I|I], (in_dec Nat.eq_dec v (u :: ord)) as [I'|I'].
    + destruct (P v); [reflexivity|]. apply upd_nth_other. intros ->. contradiction.
    + exfalso. apply I'. right. exact I.
    + destruct I' as [->|I']; [|contradiction]. rewrite Pu. apply upd_nth_same. destruct Ok as ((L & _) & _). lia.
    + apply upd_nth_other. intros ->. apply I'. left. reflexivity.
  - destruct (IH _ Ok Hr ND') as (R1 & R2). split; [exact R1|]. intros v. rewrite R2.
    destruct (in_dec Nat.eq_dec v ord) as [I|I], (in_dec Nat.eq_dec v (u :: ord)) as [I'|I']; try reflexivity.
    + exfalso. apply I'. right. exact I.
    + destruct I' as [->|I']; [|contradiction]. rewrite Pu. reflexivity.
Qed.

Lemma perm_nodes ord : Permutation ord (seq 0 n) -> NoDup ord /\ forall u, In u ord <-> (u < n)%nat.
Proof.
  intros P. split; [eapply Permutation_NoDup; [apply Permutation_sym; exact P|apply seq_NoDup]|].
  intros u. split; intros H; [apply (Permutation_in _ P), in_seq in H; lia|apply (Permutation_in _ (Permutation_sym P)), in_seq; lia].
Qed.

Lemma best_target_lt l u from gain to : best_target g k l u from = Some (gain, to) -> (to < k)%nat /\ to <> from /\ gain = jet_gain g l u from to.
Proof.
  unfold best_target. assert (Q : forall bs best, (forall b, In b bs -> (b < k)%nat) ->
    (forall x y, best = Some (x, y) -> (y < k)%nat /\ y <> from /\ x = jet_gain g l u from y) ->
    forall x y, fold_left (fun best to => if (to =? from)%nat then best else match best with Some (bg, _) => if bg <? jet_gain g l u from to then Some (jet_gain g l u from to, to) else best | None => Some (jet_gain g l u from to, to) end) bs best = Some (x, y) ->
    (y < k)%nat /\ y <> from /\ x = jet_gain g l u from y).
  { induction bs as [|b bs IH]; intros best Hb B x y; cbn [fold_left]; [apply B|]. apply IH; [intros b' I; apply Hb; right; exact I|].
    assert (Hk : (b < k)%nat) by (apply Hb; left; reflexivity).
    destruct (Nat.eqb_spec b from) as [_|N]; [exact B|]. destruct best as [[bg bt]|].
    - destruct (_ <? _); [|exact B]. intros ? ? E. injection E as <- <-. auto.
    - intros ? ? E. injection E as <- <-. auto. }
  intros E. apply (Q (seq 0 k) None) in E; [exact E| |discriminate]. intros b Ib. apply in_seq in Ib. lia.
Qed.
Lemma next_block_lt warm l lock u : (nth u l 0 < k)%nat -> (next_block g k warm l lock u < k)%nat.
Proof.
  intros H. unfold next_block. destruct (_ || _); [exact H|]. destruct (best_target g k l u (nth u l 0%nat)) as [[bg to]|] eqn:E; [|exact H].
  destruct (warm _ _); [|exact H]. apply best_target_lt in E. tauto.
Qed.

Definition jet_next warm j : list nat := map (next_block g k warm (m_label (j_mem j)) (j_lock j)) (seq 0 n).
Definition jet_lock warm j : list bool := map (keep_move g (m_label (j_mem j)) (jet_next warm j)) (seq 0 n).

(** The three loops, in any order. *)
Lemma moved_spec warm o1 o2 o3 j : okm (j_mem j) -> length (j_lock j) = n -> length (j_next j) = n ->
  Permutation o1 (seq 0 n) -> Permutation o2 (seq 0 n) -> Permutation o3 (seq 0 n) ->
  find_moves g k warm (m_label (j_mem j)) (j_lock j) o1 (j_next j) = jet_next warm j /\
  filter_moves g (m_label (j_mem j)) (jet_next warm j) o2 (j_lock j) = jet_lock warm j /\
  okm (moved g k warm o1 o2 o3 j) /\
  m_label (moved g k warm o1 o2 o3 j) = map (fun u => if nth u (jet_lock warm j) false then nth u (jet_next warm j) 0%nat else nth u (m_label (j_mem j)) 0%nat) (seq 0 n).
Proof.
  intros Ok Ll Ln P1 P2 P3. assert (F1 : find_moves g k warm (m_label (j_mem j)) (j_lock j) o1 (j_next j) = jet_next warm j) by (apply (fold_upd_map _ 0%nat); assumption).
  assert (F2 : filter_moves g (m_label (j_mem j)) (jet_next warm j) o2 (j_lock j) = jet_lock warm j) by (apply (fold_upd_map _ false); assumption).
  split; [exact F1|]. split; [exact F2|]. unfold moved. cbv zeta. rewrite F1, F2. unfold execute_moves.
  destruct (perm_nodes o3 P3) as (ND & Io).
  destruct (set_blocks_ok (fun u => nth u (jet_lock warm j) false) (fun u => nth u (jet_next warm j) 0%nat) o3 (j_mem j) Ok) as (R1 & R2); [|exact ND|].
  - intros u Iu. apply Io in Iu. split; [exact Iu|]. intros _. unfold jet_next. rewrite nth_map_seq by exact Iu. apply next_block_lt. destruct Ok as ((_ & H & _) & Lk). rewrite <- Lk. apply H. exact Iu.
  - split; [exact R1|]. destruct R1 as ((L & _) & _). apply (list_ext 0%nat); [rewrite map_length, seq_length; exact L|]. intros i Hi. rewrite L in Hi. rewrite R2, nth_map_seq by exact Hi.
    destruct (in_dec Nat.eq_dec i o3) as [_|C]; [reflexivity|]. exfalso. apply C, Io, Hi.
Qed.

Lemma ok_same m m' : okm m -> okm m' -> m_label m = m_label m' -> m = m'.
Proof.
  intros ((L & _ & E) & K) ((L' & _ & E') & K') El. destruct m as [l w], m' as [l' w']. cbn [m_label m_weight] in *. subst l'. f_equal.
  apply (list_ext 0); [congruence|]. intros b Hb. rewrite E, E' by lia. reflexivity.
Qed.
Lemma moved_any_order warm o1 o2 o3 o1' o2' o3' j : okm (j_mem j) -> length (j_lock j) = n -> length (j_next j) = n ->
  Permutation o1 (seq 0 n) -> Permutation o2 (seq 0 n) -> Permutation o3 (seq 0 n) ->
  Permutation o1' (seq 0 n) -> Permutation o2' (seq 0 n) -> Permutation o3' (seq 0 n) ->
  moved g k warm o1 o2 o3 j = moved g k warm o1' o2' o3' j.
Proof.
  intros Ok Ll Ln P1 P2 P3 P1' P2' P3'. destruct (moved_spec warm o1 o2 o3 j Ok Ll Ln P1 P2 P3) as (_ & _ & R & E).
  destruct (moved_spec warm o1' o2' o3' j Ok Ll Ln P1' P2' P3') as (_ & _ & R' & E'). apply ok_same; [exact R|exact R'|congruence].
Qed.

(** A node that an iteration has moved stays where the balancer left it in the next one. *)
Lemma locked_stays warm o1 o2 o3 j u : okm (j_mem j) -> length (j_lock j) = n -> length (j_next j) = n ->
  Permutation o1 (seq 0 n) -> Permutation o2 (seq 0 n) -> Permutation o3 (seq 0 n) -> (u < n)%nat -> nth u (j_lock j) false = true ->
  nth u (m_label (moved g k warm o1 o2 o3 j)) 0%nat = nth u (m_label (j_mem j)) 0%nat.
Proof.
  intros Ok Ll Ln P1 P2 P3 Hu Lu. destruct (moved_spec warm o1 o2 o3 j Ok Ll Ln P1 P2 P3) as (_ & _ & _ & E). rewrite E, nth_map_seq by exact Hu.
  assert (N : nth u (jet_next warm j) 0%nat = nth u (m_label (j_mem j)) 0%nat) by (unfold jet_next; rewrite nth_map_seq by exact Hu; unfold next_block; cbn [Nat.add]; rewrite Lu; reflexivity).
  cbn [Nat.add]. rewrite N. destruct (nth u (jet_lock warm j) false); reflexivity.
Qed.

Lemma moved_locks warm o1 o2 o3 m' warm' o1' o2' o3' j u : okm (j_mem j) -> length (j_lock j) = n -> length (j_next j) = n -> okm m' ->
  Permutation o1 (seq 0 n) -> Permutation o2 (seq 0 n) -> Permutation o3 (seq 0 n) ->
  Permutation o1' (seq 0 n) -> Permutation o2' (seq 0 n) -> Permutation o3' (seq 0 n) -> (u < n)%nat ->
  nth u (m_label (moved g k warm o1 o2 o3 j)) 0%nat <> nth u (m_label (j_mem j)) 0%nat ->
  nth u (m_label (moved g k warm' o1' o2' o3' (jet_step g k warm o1 o2 o3 m' j))) 0%nat = nth u (m_label m') 0%nat.
Proof.
  intros Ok Ll Ln Ok' P1 P2 P3 P1' P2' P3' Hu C. destruct (moved_spec warm o1 o2 o3 j Ok Ll Ln P1 P2 P3) as (F1 & F2 & _ & E).
  change (m_label m') with (m_label (j_mem (jet_step g k warm o1 o2 o3 m' j))).
  apply locked_stays; auto; unfold jet_step; cbn [j_mem j_lock j_next]; rewrite ?F1, ?F2; [unfold jet_lock; rewrite map_length, seq_length; reflexivity|unfold jet_next; rewrite map_length, seq_length; reflexivity|].
  rewrite E, nth_map_seq in C by exact Hu. cbn [Nat.add] in C. destruct (nth u (jet_lock warm j) false); [reflexivity|contradiction].
Qed.

(** What a move of a node means. *)
Lemma jet_conn_eq l u b : jet_conn g l u b = block_conn g (label_of l) u b.
Proof. reflexivity. Qed.
Lemma best_target_max l u from gain to : best_target g k l u from = Some (gain, to) -> forall b, (b < k)%nat -> b <> from -> jet_gain g l u from b <= gain.
Proof.
  unfold best_target. assert (Q : forall bs best x y,
    fold_left (fun best to => if (to =? from)%nat then best else match best with Some (bg, _) => if bg <? jet_gain g l u from to then Some (jet_gain g l u from to, to) else best | None => Some (jet_gain g l u from to, to) end) bs best = Some (x, y) ->
    (forall x0 y0, best = Some (x0, y0) -> x0 <= x) /\ forall b, In b bs -> b <> from -> jet_gain g l u from b <= x).
  { induction bs as [|b bs IH]; intros best x y; cbn [fold_left].
    - intros ->. split; [intros ? ? E; injection E as <- <-; lia|intros b []].
    - intros E. destruct (IH _ _ _ E) as (A & B). clear IH E. destruct (Nat.eqb_spec b from) as [->|N].
      + split; [exact A|]. intros b [<-|I] Nb; [contradiction|auto].
      + destruct best as [[bg bt]|].
        * destruct (Z.ltb_spec bg (jet_gain g l u from b)) as [Lt|Ge].
          -- specialize (A _ _ eq_refl). split; [intros ? ? E; injection E as <- <-; lia|]. intros b' [<-|I] Nb; auto.
          -- pose proof (A _ _ eq_refl). split; [exact A|]. intros b' [<-|I] Nb; [lia|auto].
        * specialize (A _ _ eq_refl). split; [discriminate|]. intros b' [<-|I] Nb; auto. }
  intros E b Hb N. apply (proj2 (Q _ _ _ _ E)); [apply in_seq; lia|exact N].
Qed.
Lemma moved_meaning warm o1 o2 o3 j u : okm (j_mem j) -> length (j_lock j) = n -> length (j_next j) = n ->
  Permutation o1 (seq 0 n) -> Permutation o2 (seq 0 n) -> Permutation o3 (seq 0 n) -> (u < n)%nat ->
  let p := label_of (m_label (j_mem j)) in
  let q := label_of (m_label (moved g k warm o1 o2 o3 j)) in
  q u <> p u ->
  (q u < k)%nat /\ nth u (j_lock j) false = false /\ block_conn g p u (p u) <> weighted_degree g u /\
  warm (block_conn g p u (q u) - block_conn g p u (p u)) (block_conn g p u (p u)) = true /\
  forall b, (b < k)%nat -> b <> p u -> block_conn g p u b <= block_conn g p u (q u).
Proof.
  intros Ok Ll Ln P1 P2 P3 Hu p q. destruct (moved_spec warm o1 o2 o3 j Ok Ll Ln P1 P2 P3) as (_ & _ & _ & E).
  assert (Eq : q u = if nth u (jet_lock warm j) false then nth u (jet_next warm j) 0%nat else p u) by (unfold q, label_of; rewrite E, nth_map_seq by exact Hu; reflexivity).
  rewrite Eq. destruct (nth u (jet_lock warm j) false); [|intros C; contradiction]. assert (En : nth u (jet_next warm j) 0%nat = next_block g k warm (m_label (j_mem j)) (j_lock j) u) by (unfold jet_next; rewrite nth_map_seq by exact Hu; reflexivity).
  rewrite En. clear E En. unfold next_block. cbv zeta. change (nth u (m_label (j_mem j)) 0%nat) with (p u). destruct (nth u (j_lock j) false) eqn:El; cbn [orb]; [intros C; contradiction|].
  unfold jet_border. rewrite Bool.negb_involutive. destruct (Z.eqb_spec (zsum (map snd (gadj g u))) (jet_conn g (m_label (j_mem j)) u (p u))) as [|Nb]; [intros C; contradiction|].
  destruct (best_target g k (m_label (j_mem j)) u (p u)) as [[bg to]|] eqn:Eb; [|intros C; contradiction]. destruct (warm _ _) eqn:Ew; [|intros C; contradiction]. intros _.
  pose proof (best_target_max _ _ _ _ _ Eb) as Mx. apply best_target_lt in Eb as (Hk & Nto & ->). split; [exact Hk|]. split; [reflexivity|]. split; [intros C; apply Nb; symmetry; exact C|]. split; [exact Ew|].
  intros b Hb Nbf. specialize (Mx b Hb Nbf). unfold jet_gain in Mx. rewrite !jet_conn_eq in Mx. unfold p in *. lia.
Qed.

Variables (lim perf : nat -> Z).
Hypothesis Hcl : closed_graph g.
Hypothesis Hun : undirected g.
Hypothesis Hvw : forall u, (u < n)%nat -> 0 <= gvw g u.
Hypothesis Hlim : forall b, (b < k)%nat -> 0 <= lim b.

Lemma jet_cut_eq l : jet_cut g l = cut_weight g (label_of l).
Proof.
  unfold jet_cut. change (zsum _) with (dcut g (label_of l)). rewrite dcut_cut by assumption. rewrite Z.mul_comm. apply Z.div_mul. lia.
Qed.

Definition balanced_labels (l : list nat) : Prop := forall b, (b < k)%nat -> block_weight g (label_of l) b <= lim b.
Lemma rebalanced_ok m m' : okm m -> rebalanced g k lim perf m m' -> okm m' /\ balanced_labels (m_label m').
Proof.
  intros (E & K) (T & order & es & s0 & s & P & I & R & F & ->).
  destruct (balancer_done g k lim perf Hcl Hvw Hlim T m order es s0 s E K P I R F) as (X & Y & B). split; [split; assumption|exact B].
Qed.

Variable l0 : list nat.
(** Invariant of the iterations: [h] are the partitions after the iterations so far. *)
Definition jinv (h : list (list nat)) (j : jst) : Prop :=
  okm (j_mem j) /\ length (j_lock j) = n /\ length (j_next j) = n /\
  (length (j_best j) = n /\ forall u, (u < n)%nat -> (nth u (j_best j) 0 < k)%nat) /\
  In (j_best j) (l0 :: h) /\ j_best_cut j = cut_weight g (label_of (j_best j)) /\
  (forall l, In l (l0 :: h) -> j_best_cut j <= cut_weight g (label_of l)) /\
  (forall l, In l h -> balanced_labels l) /\
  (j_last j = true -> m_label (j_mem j) = j_best j).

Lemma iteration_inv h j j' : jinv h j -> jet_iteration g k lim perf j j' -> jinv (m_label (j_mem j') :: h) j'.
Proof.
  intros (Ok & Ll & Ln & Hb & Ib & Ec & Bc & Bal & La) [warm o1 o2 o3 m' P1 P2 P3 RB].
  destruct (moved_spec warm o1 o2 o3 j Ok Ll Ln P1 P2 P3) as (F1 & F2 & Okm & _). destruct (rebalanced_ok _ _ Okm RB) as (Ok' & B').
  unfold jinv, jet_step. set (cut := jet_cut g (m_label m')). cbn [j_mem j_lock j_next j_best j_best_cut j_last]. assert (Ecut : cut = cut_weight g (label_of (m_label m'))) by (apply jet_cut_eq).
  split; [exact Ok'|]. rewrite F1, F2. split; [unfold jet_lock; rewrite map_length, seq_length; reflexivity|]. split; [unfold jet_next; rewrite map_length, seq_length; reflexivity|].
  destruct (Z.leb_spec cut (j_best_cut j)) as [C|C].
  - split; [destruct Ok' as ((L & H & _) & Kk); split; [exact L|intros u Hu; rewrite <- Kk; apply H; exact Hu]|]. split; [right; left; reflexivity|].
    split; [lia|]. split; [|split; [|reflexivity]].
    + intros l1 [<-|[<-|I]]; [pose proof (Bc l0 (or_introl eq_refl)); lia|lia|pose proof (Bc l1 (or_intror I)); lia].
    + intros l1 [<-|I]; [exact B'|apply Bal; exact I].
  - split; [exact Hb|]. split; [destruct Ib as [<-|Ib]; [left; reflexivity|right; right; exact Ib]|]. split; [lia|]. split; [|split; [|discriminate]].
    + intros l1 [<-|[<-|I]]; [pose proof (Bc l0 (or_introl eq_refl)); lia|lia|pose proof (Bc l1 (or_intror I)); lia].
    + intros l1 [<-|I]; [exact B'|apply Bal; exact I].
Qed.
Lemma iterations_inv h h' j j' : jinv h j -> jet_iterations g k lim perf j h' j' -> jinv (h' ++ h) j'.
Proof.
  intros J R. induction R as [j' I|h' j1 j2 R IH I]; [exact (iteration_inv h j j' J I)|exact (iteration_inv _ _ _ IH I)].
Qed.
Lemma rollback_inv h j ord : jinv h j -> Permutation ord (seq 0 n) -> jinv h (rollback g ord j) /\ m_label (j_mem (rollback g ord j)) = j_best (rollback g ord j).
Proof.
  intros J P. assert (J' := J). destruct J' as (Ok & Ll & Ln & Hb & Ib & Ec & Bc & Bal & La). unfold rollback. destruct (j_last j) eqn:El.
  - split; [exact J|apply La; reflexivity].
  - destruct (perm_nodes ord P) as (ND & Io). destruct (set_blocks_ok (fun _ => true) (fun u => nth u (j_best j) 0%nat) ord (j_mem j) Ok) as (R1 & R2); [|exact ND|].
    + intros u Iu. apply Io in Iu. split; [exact Iu|]. intros _. apply Hb. exact Iu.
    + cbn [j_mem j_best]. assert (E : m_label (fold_left (fun m u => set_block g u (nth u (j_best j) 0%nat) m) ord (j_mem j)) = j_best j).
      { destruct R1 as ((L & _) & _). apply (list_ext 0%nat); [rewrite L; symmetry; apply Hb|]. intros i Hi. rewrite L in Hi. rewrite R2.
        destruct (in_dec Nat.eq_dec i ord) as [_|C]; [reflexivity|]. exfalso. apply C, Io, Hi. }
      split; [|exact E]. unfold jinv. cbn [j_mem j_lock j_next j_best j_best_cut j_last]. repeat (split; [assumption|]). intros _. exact E.
Qed.
End Jet.

Theorem jet_ok g k lim perf : closed_graph g -> undirected g -> (forall u, (u < gn g)%nat -> 0 <= gvw g u) -> (forall b, (b < k)%nat -> 0 <= lim b) ->
  forall m h m', exact_block_weights g (m_label m) (m_weight m) -> length (m_weight m) = k -> jet_refine g k lim perf m h m' ->
  exact_block_weights g (m_label m') (m_weight m') /\ length (m_weight m') = k /\
  In (m_label m') (m_label m :: h) /\
  (forall l, In l (m_label m :: h) -> cut_weight g (label_of (m_label m')) <= cut_weight g (label_of l)) /\
  (forall l, In l h -> forall b, (b < k)%nat -> block_weight g (label_of l) b <= lim b).
Proof.
  intros Hcl Hun Hvw Hlim m h m' E K (j & R & ->).
  assert (Q : jinv g k lim (m_label m) h j /\ m_label (j_mem j) = j_best j).
  { induction R as [|h j h' j' ord R IH I P].
    - split; [|reflexivity]. unfold jinv, jet_init. cbn [j_mem j_lock j_next j_best j_best_cut j_last]. split; [split; assumption|]. rewrite !repeat_length.
      split; [reflexivity|]. split; [reflexivity|]. destruct E as (L & H & E). split; [split; [exact L|intros u Hu; rewrite <- K; apply H; exact Hu]|]. split; [left; reflexivity|].
      rewrite (jet_cut_eq g k lim) by assumption. split; [reflexivity|]. split; [intros l [<-|[]]; lia|]. split; [intros l []|reflexivity].
    - destruct IH as (IH & _). apply rollback_inv; try assumption. eapply iterations_inv; eassumption. }
  destruct Q as ((Ok & _ & _ & _ & Ib & Ec & Bc & Bal & _) & Eb). rewrite Eb. destruct Ok as (Ok & Kk). rewrite Eb in Ok. split; [exact Ok|]. split; [exact Kk|]. split; [exact Ib|].
  split; [|exact Bal]. intros l I. rewrite <- Ec. apply Bc. exact I.
Qed.
