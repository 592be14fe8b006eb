(* Independent border sets: the result of a rank does not depend on the schedule; the results of all ranks together are independent. *)
From Verif Require Import Lib.Prelude Model.GridModel Model.DistGraphModel Model.RearrangeModel Model.HemModel Model.BorderSetModel Spec.Graph Spec.DistGraphSpec Spec.ReplicateSpec Spec.RearrangeSpec Spec.ColoringSpec Spec.BorderSetSpec
  Proofs.HemFacts Proofs.HemExamples.

Section Rank.
Variables (d : dcsr) (blk : list nat) (sc : nat -> Z) (top : Z).
Notation n := (dn d).
Notation N := (dn d + dghost_n d).
Hypothesis Hsc : forall g, (0 <= sc g < top)%Z.
Hypothesis Hrow : forall u v w, u < n -> In (v, w) (row d u) -> v < N.
(** The score that a neighbour has when it is compared. *)
Definition value (v : nat) : Z := if dis_ghost d v then sc (glob d v) else if on_border d blk v then sc (glob d v) else top.
Definition beats (u : nat) (e : nat * Z) : Prop := (sc (glob d u) < value (fst e))%Z.
Definition sinv (s : scan) : Prop :=
  (length (sn_score s) = N /\ length (sn_next s) = n /\ NoDup (sn_out s)) /\
  (forall v, v < n -> nth v (sn_score s) 0%Z = value v) /\ (forall v, n <= v < N -> nth v (sn_score s) 0%Z = (-1)%Z \/ nth v (sn_score s) 0%Z = value v) /\
  (forall u i, nth u (sn_next s) None = Some i -> u < n /\ on_border d blk u = true /\ ~ In u (sn_out s) /\ i <= length (row d u) /\ forall e, In e (firstn i (row d u)) -> beats u e) /\
  (forall u, In u (sn_out s) -> u < n /\ on_border d blk u = true /\ forall e, In e (row d u) -> beats u e) /\
  (forall u, u < n -> on_border d blk u = true -> nth u (sn_next s) None = None -> In u (sn_out s) \/ exists e, In e (row d u) /\ ~ beats u e).
Lemma own_value v : v < n -> value v = if on_border d blk v then sc (glob d v) else top.
Proof. intros H. unfold value, dis_ghost. destruct (Nat.leb_spec n v); [lia|reflexivity]. Qed.
Lemma start_inv : sinv (scan_start d blk sc top).
Proof.
  assert (S0 : forall v, v < N -> nth v (map (first_score d blk sc top) (seq 0 N)) 0%Z = first_score d blk sc top v) by (intros v Hv; rewrite nth_map_seq by exact Hv; reflexivity).
  assert (S1 : forall v, v < n -> first_score d blk sc top v = value v) by (intros v Hv; rewrite own_value by exact Hv; unfold first_score, dis_ghost; destruct (Nat.leb_spec n v); [lia|reflexivity]).
  assert (X : forall u, u < n -> nth u (sn_next (scan_start d blk sc top)) None = if on_border d blk u then Some 0 else None).
  { intros u Hu. unfold scan_start. cbn [sn_next]. rewrite nth_map_seq by exact Hu. cbn [Nat.add]. rewrite S0, S1, own_value by lia. destruct (on_border d blk u); [|rewrite Z.eqb_refl; reflexivity].
    destruct (Z.eqb_spec (sc (glob d u)) top) as [E|E]; [specialize (Hsc (glob d u)); lia|reflexivity]. }
  unfold sinv. split; [unfold scan_start; cbn [sn_score sn_next sn_out]; rewrite !map_length, !seq_length; split; [reflexivity|]; split; [reflexivity|constructor]|]. split; [|split; [|split; [|split]]].
  - intros v Hv. unfold scan_start. cbn [sn_score]. rewrite S0 by lia. exact (S1 v Hv).
  - intros v Hv. left. unfold scan_start. cbn [sn_score]. rewrite S0 by lia. unfold first_score, dis_ghost. destruct (Nat.leb_spec n v); [reflexivity|lia].
  - intros u i Hu. destruct (Nat.lt_ge_cases u n) as [L|L]; [|rewrite nth_overflow in Hu by (unfold scan_start; cbn [sn_next]; rewrite map_length, seq_length; exact L); discriminate]. rewrite X in Hu by exact L. destruct (on_border d blk u) eqn:E; [|discriminate]. injection Hu as <-.
    split; [exact L|]. split; [reflexivity|]. split; [intros []|]. split; [lia|intros e []].
  - intros u [].
  - intros u Hu Hb Hn. rewrite X, Hb in Hn by exact Hu. discriminate.
Qed.
Lemma snoc_nodup (l : list nat) x : NoDup l -> ~ In x l -> NoDup (l ++ [x]).
Proof. intros H1 H2. apply NoDup_rev in H1. apply (NoDup_cons x) in H1; [|rewrite <- in_rev; exact H2]. apply NoDup_rev in H1. cbn [rev] in H1. rewrite rev_involutive in H1. exact H1. Qed.
Lemma firstn_snoc {X} (l : list X) : forall i x, nth_error l i = Some x -> firstn (S i) l = firstn i l ++ [x].
Proof. induction l as [|y l IH]; intros [|i] x H; try discriminate; [injection H as <-; reflexivity|]. cbn [nth_error] in H. cbn [firstn app]. f_equal. exact (IH i x H). Qed.
Lemma step_inv s u : sinv s -> sinv (scan_step d sc s u).
Proof.
  intros ((L1 & L2 & ND) & A & B & C & D & E). unfold scan_step. destruct (nth u (sn_next s) None) as [i|] eqn:Hu; [|exact (conj (conj L1 (conj L2 ND)) (conj A (conj B (conj C (conj D E)))))].
  destruct (C u i Hu) as (Un & Ub & Uo & Ui & Uf).
  destruct (nth_error (row d u) i) as [[v w]|] eqn:Ev.
  - assert (Hin : In (v, w) (row d u)) by (apply nth_error_In in Ev; exact Ev). pose proof (Hrow u v w Un Hin) as Hv.
    set (score := if (nth v (sn_score s) 0 <? 0)%Z then upd v (sc (glob d v)) (sn_score s) else sn_score s).
    assert (V0 : forall x, (0 <= value x)%Z) by (intros x; unfold value; pose proof (Hsc (glob d x)); destruct (dis_ghost d x), (on_border d blk x); lia).
    assert (Q : (length score = N) /\ (forall x, x < n -> nth x score 0%Z = value x) /\ (forall x, n <= x < N -> nth x score 0%Z = (-1)%Z \/ nth x score 0%Z = value x) /\ nth v score 0%Z = value v).
    { unfold score. destruct (Z.ltb_spec (nth v (sn_score s) 0%Z) 0) as [Neg|Pos].
      - assert (Gv : n <= v) by (destruct (Nat.lt_ge_cases v n) as [L|L]; [rewrite (A v L) in Neg; specialize (V0 v); lia|exact L]).
        assert (Vv : value v = sc (glob d v)) by (unfold value, dis_ghost; destruct (Nat.leb_spec n v); [reflexivity|lia]).
        split; [rewrite upd_length; exact L1|]. split; [intros x Hx; rewrite upd_nth_other by lia; exact (A x Hx)|]. split; [|rewrite upd_nth_same by lia; symmetry; exact Vv].
        intros x Hx. destruct (Nat.eq_dec x v) as [->|Ne]; [right; rewrite upd_nth_same by lia; symmetry; exact Vv|rewrite upd_nth_other by congruence; exact (B x Hx)].
      - split; [exact L1|]. split; [exact A|]. split; [exact B|]. destruct (Nat.lt_ge_cases v n) as [L|L]; [exact (A v L)|]. destruct (B v ltac:(lia)) as [E1|E1]; [rewrite E1 in Pos; lia|exact E1]. }
    destruct Q as (Q1 & Q2 & Q3 & Q4). assert (Vu : nth u score 0%Z = sc (glob d u)) by (rewrite Q2, own_value, Ub by exact Un; reflexivity). rewrite Q4, Vu.
    destruct (Z.leb_spec (value v) (sc (glob d u))) as [Le|Gt]; unfold sinv; cbn [sn_score sn_next sn_out]; rewrite upd_length; (split; [auto|]); (split; [exact Q2|]); (split; [exact Q3|]); (split; [|split; [exact D|]]).
    + intros x j Hx. destruct (Nat.eq_dec x u) as [->|Ne]; [rewrite upd_nth_same in Hx by lia; discriminate|]. rewrite upd_nth_other in Hx by congruence. exact (C x j Hx).
    + intros x Hx Hb Hn. destruct (Nat.eq_dec x u) as [->|Ne]; [right; exists (v, w); split; [exact Hin|unfold beats; cbn [fst]; lia]|]. rewrite upd_nth_other in Hn by congruence. exact (E x Hx Hb Hn).
    + intros x j Hx. destruct (Nat.eq_dec x u) as [->|Ne]; [|rewrite upd_nth_other in Hx by congruence; exact (C x j Hx)]. rewrite upd_nth_same in Hx by lia. injection Hx as <-. split; [exact Un|]. split; [exact Ub|]. split; [exact Uo|].
      split; [pose proof (proj1 (nth_error_Some (row d u) i) ltac:(rewrite Ev; discriminate)); lia|]. intros e He. rewrite (firstn_snoc _ _ _ Ev) in He. apply in_app_or in He. destruct He as [He|[<-|[]]]; [exact (Uf e He)|unfold beats; cbn [fst]; lia].
    + intros x Hx Hb Hn. destruct (Nat.eq_dec x u) as [->|Ne]; [rewrite upd_nth_same in Hn by lia; discriminate|]. rewrite upd_nth_other in Hn by congruence. exact (E x Hx Hb Hn).
  - apply nth_error_None in Ev. assert (Uall : forall e, In e (row d u) -> beats u e) by (intros e He; apply Uf; rewrite firstn_all2 by exact Ev; exact He).
    unfold sinv. cbn [sn_score sn_next sn_out]. rewrite upd_length. split; [split; [exact L1|split; [exact L2|exact (snoc_nodup _ _ ND Uo)]]|]. split; [exact A|]. split; [exact B|]. split; [|split].
    + intros x j Hx. destruct (Nat.eq_dec x u) as [->|Ne]; [rewrite upd_nth_same in Hx by lia; discriminate|]. rewrite upd_nth_other in Hx by congruence. destruct (C x j Hx) as (C1 & C2 & C3 & C4). split; [exact C1|]. split; [exact C2|]. split; [|exact C4]. intros Hi. apply in_app_or in Hi. destruct Hi as [Hi|[Hi|[]]]; [exact (C3 Hi)|congruence].
    + intros x Hx. apply in_app_or in Hx. destruct Hx as [Hx|[<-|[]]]; [exact (D x Hx)|auto].
    + intros x Hx Hb Hn. destruct (Nat.eq_dec x u) as [->|Ne]; [left; apply in_or_app; right; left; reflexivity|]. rewrite upd_nth_other in Hn by congruence. destruct (E x Hx Hb Hn) as [H|H]; [left; apply in_or_app; left; exact H|right; exact H].
Qed.
Lemma run_inv : forall sched s, sinv s -> sinv (fold_left (scan_step d sc) sched s).
Proof. induction sched as [|u l IH]; intros s I; [exact I|]. cbn [fold_left]. apply IH, step_inv, I. Qed.
Theorem rank_result out : border_set d blk sc top out -> NoDup out /\ forall u, In u out <-> u < n /\ on_border d blk u = true /\ forall e, In e (row d u) -> beats u e.
Proof.
  intros (sched & Hdone & <-). destruct (run_inv sched _ start_inv) as ((_ & _ & ND) & _ & _ & _ & D & E). split; [exact ND|].
  intros u. split; [exact (D u)|]. intros (H1 & H2 & H3). destruct (E u H1 H2 (Hdone u)) as [H|(e & He & Hb)]; [exact H|exfalso; exact (Hb (H3 e He))].
Qed.
End Rank.

(** Some schedule ends all loops. *)
Section Ends.
Variables (d : dcsr) (sc : nat -> Z).
Lemma step_next s u x : u < length (sn_next s) -> x <> u -> nth x (sn_next (scan_step d sc s u)) None = nth x (sn_next s) None.
Proof.
  intros Hu Hx. unfold scan_step. destruct (nth u (sn_next s) None) as [i|]; [|reflexivity]. destruct (nth_error (row d u) i) as [[v w]|]; [|cbn [sn_next]; apply upd_nth_other; congruence].
  cbv zeta. match goal with |- context [if ?b then _ else _] => destruct b end; match goal with |- context [if ?b then _ else _] => destruct b | _ => idtac end; cbn [sn_next]; apply upd_nth_other; congruence.
Qed.
Lemma step_len s u : length (sn_next (scan_step d sc s u)) = length (sn_next s).
Proof.
  unfold scan_step. destruct (nth u (sn_next s) None) as [i|]; [|reflexivity]. destruct (nth_error (row d u) i) as [[v w]|]; [|cbn [sn_next]; apply upd_length].
  cbv zeta. match goal with |- context [if ?b then _ else _] => destruct b end; match goal with |- context [if ?b then _ else _] => destruct b | _ => idtac end; cbn [sn_next]; apply upd_length.
Qed.
Lemma step_at s u i : u < length (sn_next s) -> nth u (sn_next s) None = Some i ->
  nth u (sn_next (scan_step d sc s u)) None = None \/ (i < length (row d u) /\ nth u (sn_next (scan_step d sc s u)) None = Some (S i)).
Proof.
  intros Hu E. unfold scan_step. rewrite E. destruct (nth_error (row d u) i) as [[v w]|] eqn:Ev; [|left; cbn [sn_next]; apply upd_nth_same; exact Hu].
  assert (L : i < length (row d u)) by (apply nth_error_Some; rewrite Ev; discriminate).
  cbv zeta. match goal with |- context [(?a <=? ?b)%Z] => destruct (a <=? b)%Z end; cbn [sn_next]; rewrite upd_nth_same by exact Hu; auto.
Qed.
Lemma finish_one u : forall m s, u < length (sn_next s) -> (forall i, nth u (sn_next s) None = Some i -> length (row d u) < i + m) -> exists sched,
  let t := fold_left (scan_step d sc) sched s in length (sn_next t) = length (sn_next s) /\ nth u (sn_next t) None = None /\ forall x, x <> u -> nth x (sn_next t) None = nth x (sn_next s) None.
Proof.
  induction m as [|m IH]; intros s Hu Hm; (destruct (nth u (sn_next s) None) as [i|] eqn:E; [|exists []; cbn; auto]); specialize (Hm i eq_refl).
  - destruct (step_at s u i Hu E) as [A|[A _]]; [|lia]. exists [u]. cbn. split; [apply step_len|]. split; [exact A|]. intros x Hx. apply step_next; assumption.
  - destruct (IH (scan_step d sc s u)) as (sched & A & B & C); [rewrite step_len; exact Hu|intros j Hj; destruct (step_at s u i Hu E) as [A|[_ A]]; rewrite A in Hj; [discriminate|injection Hj as <-; lia]|].
    exists (u :: sched). cbn. rewrite step_len in A. split; [exact A|]. split; [exact B|]. intros x Hx. rewrite (C x Hx). apply step_next; assumption.
Qed.
Lemma finish_all : forall l s, (forall u, In u l -> u < length (sn_next s)) -> exists sched,
  let t := fold_left (scan_step d sc) sched s in length (sn_next t) = length (sn_next s) /\ (forall u, In u l -> nth u (sn_next t) None = None) /\ forall x, nth x (sn_next s) None = None -> nth x (sn_next t) None = None.
Proof.
  induction l as [|u l IH]; intros s H; [exists []; cbn; intuition|]. destruct (finish_one u (S (length (row d u))) s) as (s1 & A & B & C); [apply H; left; reflexivity|intros i _; lia|].
  destruct (IH (fold_left (scan_step d sc) s1 s)) as (s2 & A' & B' & C'); [intros x Hx; rewrite A; apply H; right; exact Hx|]. exists (s1 ++ s2). cbv zeta. rewrite fold_left_app. split; [lia|]. split.
  - intros x [<-|Hx]; [apply C'; exact B|exact (B' x Hx)].
  - intros x Hx. apply C'. destruct (Nat.eq_dec x u) as [->|N]; [exact B|rewrite C by exact N; exact Hx].
Qed.
End Ends.
Theorem border_set_exists d blk sc top : exists out, border_set d blk sc top out.
Proof.
  destruct (finish_all d sc (seq 0 (dn d)) (scan_start d blk sc top)) as (sched & A & B & _); [intros u Hu; apply in_seq in Hu; unfold scan_start; cbn [sn_next]; rewrite map_length, seq_length; lia|].
  eexists. exists sched. split; [|reflexivity]. intros u. destruct (Nat.lt_ge_cases u (dn d)) as [L|L]; [apply B, in_seq; lia|]. apply nth_overflow. rewrite A. unfold scan_start. cbn [sn_next]. rewrite map_length, seq_length. exact L.
Qed.

Section System.
Variables (P : nat) (G : graph) (dist edist : list nat) (d : nat -> dcsr).
Hypothesis HDs : distributed P G dist edist d.
Hypothesis HC : closed_graph G.
Hypothesis HS : symmetric_adjacency G.
Variables (block : nat -> nat) (blk : nat -> list nat).
Hypothesis HB : held_by P d block blk.
Notation from r := (nth r dist 0).
Notation own := (find_owner dist).
Lemma held_at r l : r < P -> l < tot d r -> nth l (blk r) 0 = block (glob (d r) l).
Proof. intros Hr Hl. destruct (HB r Hr) as [_ H]. apply nth_error_nth, H. exact (f_l2g P G dist edist d HDs r l Hr Hl). Qed.
Lemma border_at r u : r < P -> u < dn (d r) -> (on_border (d r) (blk r) u = true <-> border_node G block (from r + u)).
Proof.
  intros Hr Hu. assert (Bu : nth u (blk r) 0 = block (from r + u)) by (rewrite held_at by (unfold tot; lia); rewrite (f_own P G dist edist d HDs r u Hr Hu); reflexivity).
  unfold on_border. rewrite existsb_exists. split.
  - intros ([v w] & Hin & Hne). cbn [fst] in Hne. destruct (f_row P G dist edist d HDs r u v w Hr Hu Hin) as [L Hg]. split; [exact (proj1 (f_at P G dist edist d HDs r u Hr Hu))|].
    exists (glob (d r) v), w. split; [exact Hg|]. rewrite (held_at r v Hr L), Bu in Hne. destruct (Nat.eqb_spec (block (from r + u)) (block (glob (d r) v))); [discriminate|congruence].
  - intros (_ & g & w & Hin & Hne). destruct (f_row_of P G dist edist d HDs r u g w Hr Hu Hin) as (v & L & Eg & Hv). exists (v, w). split; [exact Hv|]. cbn [fst]. rewrite (held_at r v Hr L), Bu, Eg.
    destruct (Nat.eqb_spec (block (from r + u)) (block g)); [congruence|reflexivity].
Qed.
Theorem border_nodes_exact r : r < P -> NoDup (border_nodes (d r) (blk r)) /\ forall u, In u (border_nodes (d r) (blk r)) <-> u < dn (d r) /\ border_node G block (from r + u).
Proof.
  intros Hr. split; [apply NoDup_filter, seq_NoDup|]. intros u. unfold border_nodes. rewrite filter_In, in_seq. split; intros [A B]; (split; [lia|]); apply (border_at r u Hr); try lia; exact B.
Qed.
Variables (sc : nat -> Z) (top : Z) (out : nat -> list nat).
Hypothesis Hsc : forall g, (0 <= sc g < top)%Z.
Hypothesis Hout : forall r, r < P -> border_set (d r) (blk r) sc top (out r).
Theorem rank_exact r : r < P -> NoDup (out r) /\ forall u, In u (out r) <-> u < dn (d r) /\ border_node G block (from r + u) /\
  forall v w, In (v, w) (gadj G (from r + u)) -> own v <> r \/ border_node G block v -> (sc (from r + u)%nat < sc v)%Z.
Proof.
  intros Hr. destruct (rank_result (d r) (blk r) sc top Hsc (fun u v w Hu Hin => proj1 (f_row P G dist edist d HDs r u v w Hr Hu Hin)) (out r) (Hout r Hr)) as [ND H]. split; [exact ND|].
  intros u. rewrite (H u). clear H.
  assert (VAL : forall v, v < tot d r -> (own (glob (d r) v) <> r \/ border_node G block (glob (d r) v) -> value (d r) (blk r) sc top v = sc (glob (d r) v)) /\
    (~ (own (glob (d r) v) <> r \/ border_node G block (glob (d r) v)) -> value (d r) (blk r) sc top v = top)).
  { intros v Hv. unfold value. destruct (f_glob P G dist edist d HDs HC r v Hr Hv) as [_ Gh]. rewrite Gh. destruct (Nat.eqb_spec (own (glob (d r) v)) r) as [E|E]; cbn [negb]; [|split; [reflexivity|tauto]].
    assert (L : v < dn (d r)) by (apply Nat.leb_gt; exact Gh).
    pose proof (border_at r v Hr L) as Q. rewrite <- (f_own P G dist edist d HDs r v Hr L) in Q. destruct (on_border (d r) (blk r) v); split; intros X; try reflexivity.
    - exfalso. apply X. right. apply Q. reflexivity.
    - exfalso. destruct X as [X|X]; [exact (X E)|]. apply Q in X. discriminate. }
  split; intros (A & B & C); (split; [exact A|]).
  - split; [apply (border_at r u Hr A); exact B|]. intros g w Hin Hg. destruct (f_row_of P G dist edist d HDs r u g w Hr A Hin) as (v & L & Eg & Hv). specialize (C (v, w) Hv). unfold beats in C. cbn [fst] in C.
    rewrite <- Eg in Hg. rewrite (proj1 (VAL v L) Hg), (f_own P G dist edist d HDs r u Hr A), Eg in C. exact C.
  - split; [apply (border_at r u Hr A); exact B|]. intros [v w] Hin. destruct (f_row P G dist edist d HDs r u v w Hr A Hin) as [L Hg]. unfold beats. cbn [fst]. rewrite (f_own P G dist edist d HDs r u Hr A).
    destruct (VAL v L) as [V1 V2]. destruct (Nat.eq_dec (own (glob (d r) v)) r) as [E|E].
    + assert (Lv : v < dn (d r)) by (destruct (f_glob P G dist edist d HDs HC r v Hr L) as [_ Gh]; rewrite E, Nat.eqb_refl in Gh; apply Nat.leb_gt; exact Gh).
      destruct (on_border (d r) (blk r) v) eqn:Eb.
      * apply (border_at r v Hr Lv) in Eb. rewrite <- (f_own P G dist edist d HDs r v Hr Lv) in Eb. rewrite (V1 (or_intror Eb)). exact (C _ w Hg (or_intror Eb)).
      * unfold value, dis_ghost. destruct (Nat.leb_spec (dn (d r)) v); [lia|]. rewrite Eb. apply Hsc.
    + rewrite (V1 (or_introl E)). exact (C _ w Hg (or_introl E)).
Qed.
Notation picked := (picked P dist out).
Lemma picked_iff g : picked g <-> border_node G block g /\ forall v w, In (v, w) (gadj G g) -> own v <> own g \/ border_node G block v -> (sc g < sc v)%Z.
Proof.
  split.
  - intros (r & u & Hr & Hu & ->). apply (proj2 (rank_exact r Hr) u) in Hu. destruct Hu as (A & B & C). rewrite (proj2 (f_at P G dist edist d HDs r u Hr A)). auto.
  - intros [A B]. destruct (f_node P G dist edist d HDs g (proj1 A)) as (N1 & N2 & N3). exists (own g), (g - from (own g)). split; [exact N1|]. split; [|lia]. apply (proj2 (rank_exact _ N1)). rewrite N3. auto.
Qed.
Theorem picked_independent : independent G picked.
Proof.
  intros u v w Hu Hv Hin. apply picked_iff in Hu. apply picked_iff in Hv. destruct Hu as [Bu Fu], Hv as [Bv Fv]. destruct (HS u v w (proj1 Bu) Hin) as [w' Hw].
  pose proof (Fu v w Hin (or_intror Bv)). pose proof (Fv u w' Hw (or_intror Bu)). lia.
Qed.
Lemma argmin (f : nat -> Z) : forall l, l <> [] -> exists x, In x l /\ forall y, In y l -> (f x <= f y)%Z.
Proof.
  induction l as [|x l IH]; [congruence|]. intros _. destruct l as [|y l]; [exists x; split; [left; reflexivity|intros y [<-|[]]; lia]|].
  destruct IH as (m & M1 & M2); [discriminate|]. destruct (Z.le_gt_cases (f x) (f m)) as [L|L].
  - exists x. split; [left; reflexivity|]. intros z [<-|Hz]; [lia|specialize (M2 z Hz); lia].
  - exists m. split; [right; exact M1|]. intros z [<-|Hz]; [lia|exact (M2 z Hz)].
Qed.
Theorem picked_some : no_self_loops G -> (forall u v, u < gn G -> v < gn G -> sc u = sc v -> u = v) ->
  (forall u v w, border_node G block u -> In (v, w) (gadj G u) -> own v <> own u -> border_node G block v) -> forall u, border_node G block u -> exists g, picked g.
Proof.
  intros HL HI HX u Hu. set (f := fun g => on_border (d (own g)) (blk (own g)) (g - from (own g))).
  assert (F : forall g, g < gn G -> (f g = true <-> border_node G block g)) by (intros g Hg; destruct (f_node P G dist edist d HDs g Hg) as (N1 & N2 & N3); unfold f; rewrite (border_at _ _ N1 N2), N3; reflexivity).
  destruct (argmin sc (filter f (seq 0 (gn G)))) as (m & M1 & M2).
  { intros E. assert (Q : In u (filter f (seq 0 (gn G)))) by (apply filter_In; split; [apply in_seq; pose proof (proj1 Hu); lia|apply F; [exact (proj1 Hu)|exact Hu]]). rewrite E in Q. destruct Q. }
  apply filter_In in M1. destruct M1 as [M0 M1]. apply in_seq in M0. apply F in M1; [|lia]. exists m. apply picked_iff. split; [exact M1|]. intros v w Hin Hv.
  assert (Bv : border_node G block v) by (destruct Hv as [Hv|Hv]; [exact (HX m v w M1 Hin Hv)|exact Hv]).
  assert (Q : In v (filter f (seq 0 (gn G)))) by (apply filter_In; split; [apply in_seq; pose proof (proj1 Bv); lia|apply F; [exact (proj1 Bv)|exact Bv]]). specialize (M2 v Q).
  assert (N : sc m <> sc v) by (intros E; apply (HL m v w (proj1 M1) Hin); symmetry; apply HI; [exact (proj1 M1)|exact (proj1 Bv)|exact E]). lia.
Qed.
End System.

(** Node 1 is not on the border, but keeps node 2 out. *)
Definition b_block (u : nat) : nat := match u with 0 => 0 | _ => 1 end.
Definition b_blk (r : nat) : list nat := nth r [[0; 1]; [1; 1]; [1; 0; 1]] [].
Definition b_low (u : nat) : Z := (2 - Z.of_nat (min u 2))%Z.
Definition b_score (u : nat) : Z := nth u [2; 0; 1]%Z 3%Z.
Lemma b_held : held_by 3 m_dcsr b_block b_blk.
Proof.
  intros r Hr. do 3 (destruct r as [|r]; [split; [vm_compute; reflexivity|]; intros l g Hl; do 4 (destruct l as [|l]; [vm_compute in Hl; first [discriminate|injection Hl as <-; vm_compute; reflexivity]|]); vm_compute in Hl; discriminate|]). lia.
Qed.
Lemma b_score_range g : (0 <= b_score g < 9)%Z.
Proof. do 3 (destruct g as [|g]; [cbn; lia|]). destruct g; cbn; lia. Qed.
Lemma b_low_range g : (0 <= b_low g < 9)%Z.
Proof. unfold b_low. lia. Qed.
Lemma b_outcome r : r < 3 -> border_set (m_dcsr r) (b_blk r) b_score 9 [].
Proof. intros Hr. exists [0; 0; 0]. do 3 (destruct r as [|r]; [split; [intros [|[|u]]; vm_compute; reflexivity|vm_compute; reflexivity]|]). lia. Qed.
Lemma b_outcome_low r : r < 3 -> border_set (m_dcsr r) (b_blk r) b_low 9 (nth r [[]; []; [0]] []).
Proof. intros Hr. exists [0; 0; 0]. do 3 (destruct r as [|r]; [split; [intros [|[|u]]; vm_compute; reflexivity|vm_compute; reflexivity]|]). lia. Qed.
Lemma b_border : border_node m_graph b_block 0 /\ border_node m_graph b_block 2.
Proof. split; (split; [cbn; lia|]); [exists 2, 1%Z|exists 0, 1%Z]; split; cbn; auto; discriminate. Qed.
Lemma b_inj u v : u < gn m_graph -> v < gn m_graph -> b_score u = b_score v -> u = v.
Proof. intros Hu Hv. cbn in Hu, Hv. do 3 (destruct u as [|u]; [do 3 (destruct v as [|v]; [cbn; intros; first [reflexivity|discriminate]|]); lia|]). lia. Qed.
(** All nodes are on the border. *)
Definition c_block (u : nat) : nat := u.
Definition c_blk (r : nat) : list nat := nth r [[0; 2]; [1; 2]; [2; 0; 1]] [].
Lemma c_held : held_by 3 m_dcsr c_block c_blk.
Proof.
  intros r Hr. do 3 (destruct r as [|r]; [split; [vm_compute; reflexivity|]; intros l g Hl; do 4 (destruct l as [|l]; [vm_compute in Hl; first [discriminate|injection Hl as <-; vm_compute; reflexivity]|]); vm_compute in Hl; discriminate|]). lia.
Qed.
Lemma c_outcome r : r < 3 -> border_set (m_dcsr r) (c_blk r) b_score 9 (nth r [[]; [0]; []] []).
Proof. intros Hr. exists [0; 0; 0]. do 3 (destruct r as [|r]; [split; [intros [|[|u]]; vm_compute; reflexivity|vm_compute; reflexivity]|]). lia. Qed.
Lemma c_all v : v < 3 -> border_node m_graph c_block v.
Proof. intros Hv. do 3 (destruct v as [|v]; [split; [cbn; lia|]; cbn; do 2 eexists; split; [left; reflexivity|discriminate]|]). lia. Qed.
Lemma c_border u v w : border_node m_graph c_block u -> In (v, w) (gadj m_graph u) -> find_owner m_dist v <> find_owner m_dist u -> border_node m_graph c_block v.
Proof. intros [Hu _] Hin _. apply c_all. exact (m_closed u v w Hu Hin). Qed.
Lemma c_node : border_node m_graph c_block 2.
Proof. apply c_all. lia. Qed.
Theorem empty_set : exists P G dist edist d block blk sc top out,
  distributed P G dist edist d /\ closed_graph G /\ symmetric_adjacency G /\ no_self_loops G /\ held_by P d block blk /\ (forall g, (0 <= sc g < top)%Z) /\
  (forall u v, u < gn G -> v < gn G -> sc u = sc v -> u = v) /\ (forall r, r < P -> border_set (d r) (blk r) sc top (out r)) /\ (exists u, border_node G block u) /\ forall r, r < P -> out r = [].
Proof.
  exists 3, m_graph, m_dist, m_edist, m_dcsr, b_block, b_blk, b_score, 9%Z, (fun _ => []). split; [exact m_distributed|]. split; [exact m_closed|]. split; [exact m_symmetric|]. split; [exact m_loops|]. split; [exact b_held|].
  split; [exact b_score_range|]. split; [|split; [exact b_outcome|split; [exists 0; exact (proj1 b_border)|reflexivity]]].
  exact b_inj.
Qed.
