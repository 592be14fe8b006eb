(* Initial bipartitions of concrete graphs. *)
From Verif Require Import Lib.Prelude Spec.Graph Spec.InitialSpec Model.InitialFmModel Model.InitialFlatModel Proofs.GraphFacts Proofs.Decide
  Proofs.InitialFmProofs Proofs.InitialFlatTop.

Definition of_lists (adj : list (list (nat * Z))) (vw : list Z) : graph :=
  mkGraph (length adj) (fun u => nth u adj []) (fun u => nth u vw 0%Z).

Definition check_nonneg (g : graph) : bool := forallb (fun u => forallb (fun e => (0 <=? snd e)%Z) (gadj g u)) (seq 0 (gn g)).
Lemma check_nonneg_ok g : check_nonneg g = true -> nonneg_edges g.
Proof.
  intros H u v w Hu Hi. pose proof (forallb_seq_lt _ _ H u Hu) as K. rewrite forallb_forall in K. apply Z.leb_le. apply (K _ Hi).
Qed.
Definition check_loopfree (g : graph) : bool := forallb (fun u => forallb (fun e => negb (fst e =? u)) (gadj g u)) (seq 0 (gn g)).
Lemma check_loopfree_ok g : check_loopfree g = true -> loop_free g.
Proof.
  intros H u w Hu Hi. pose proof (forallb_seq_lt _ _ H u Hu) as K. rewrite forallb_forall in K. specialize (K _ Hi). cbn in K.
  rewrite Nat.eqb_refl in K. discriminate.
Qed.
Definition check_bip (g : graph) (lab : list nat) (bw : list Z) : bool :=
  (length bw =? 2) && (length lab =? gn g) && forallb (fun u => nth u lab 0 <? length bw) (seq 0 (gn g)) &&
  forallb (fun b => (nth b bw 0 =? block_weight g (fun u => nth u lab 0%nat) b)%Z) (seq 0 2).
Lemma check_bip_ok g lab bw : check_bip g lab bw = true -> bipartition g lab bw.
Proof.
  unfold check_bip. rewrite !andb_true_iff. intros [[[H1 H2] H3] H4]. apply Nat.eqb_eq in H1, H2. split; auto. split; auto. split.
  - intros u Hu. apply Nat.ltb_lt. apply (forallb_seq_lt _ _ H3). exact Hu.
  - intros b Hb. apply Z.eqb_eq. apply (forallb_seq_lt _ _ H4). lia.
Qed.

Lemma walk_app g p q : forall u x v, walk g u p x -> walk g x q v -> walk g u (p ++ q) v.
Proof. induction p as [|y p IH]; cbn [walk app]; intros u x v; [intros ->; auto|]. intros [E W] H. split; [exact E|]. apply (IH y x v W H). Qed.

(** A path of four nodes with edge weights 5, 1, 5. *)
Definition path4 : graph := of_lists [[(1, 5%Z)]; [(0, 5%Z); (2, 1%Z)]; [(1, 1%Z); (3, 5%Z)]; [(2, 5%Z)]] [1; 1; 1; 1]%Z.
Definition limit2 (b : nat) : Z := 3.
Definition perfect2 (b : nat) : Z := 2.
Definition in_order : rchoice := mkRC [0] [seq 0 64] (fun _ => mkChoice false true 0).

Lemma path4_closed : closed_graph path4. Proof. apply check_closed_ok. reflexivity. Qed.
Lemma path4_undirected : undirected path4. Proof. apply check_undirected_ok. reflexivity. Qed.
Lemma in_order_legal : legal_order 4 (rc_chunks in_order) (rc_perms in_order).
Proof.
  unfold in_order. cbn [rc_chunks rc_perms]. split; [apply Permutation_refl|]. split; [reflexivity|]. intros p [<-|[]]. apply Permutation_refl.
Qed.

Lemma fm_example :
  closed_graph path4 /\ undirected path4 /\ nonneg_edges path4 /\ loop_free path4 /\ bipartition path4 [0; 1; 0; 1] [2; 2]%Z /\
  legal_order 4 (rc_chunks in_order) (rc_perms in_order) /\
  cut_of path4 [0; 1; 0; 1] = 11%Z /\
  fm_refine path4 limit2 perfect2 3 (fun _ => in_order) (fun _ => false) [0; 1; 0; 1] [2; 2]%Z = Some ([0; 0; 0; 1], [3; 1]%Z, true) /\
  cut_of path4 [0; 0; 0; 1] = 5%Z.
Proof.
  split; [exact path4_closed|]. split; [exact path4_undirected|]. split; [apply check_nonneg_ok; reflexivity|].
  split; [apply check_loopfree_ok; reflexivity|]. split; [apply check_bip_ok; reflexivity|]. split; [exact in_order_legal|].
  split; [reflexivity|]. split; [vm_compute; reflexivity|reflexivity].
Qed.

(** A triangle with edge weights 10 and a node that is attached to it by an edge of weight 1. *)
Definition kite : graph :=
  of_lists [[(1, 10%Z); (2, 10%Z)]; [(0, 10%Z); (2, 10%Z)]; [(0, 10%Z); (1, 10%Z); (3, 1%Z)]; [(2, 1%Z)]] [1; 1; 1; 1]%Z.
Definition limit_kite (b : nat) : Z := 2.
Lemma kite_labels lab bw : bipartition kite lab bw -> (cut_of kite lab <= 1)%Z -> (0 < overload limit_kite kite lab)%Z.
Proof.
  intros (L2 & L & B & _). rewrite L2 in B. cbn in L.
  destruct lab as [|a [|b [|c [|d [|? ?]]]]]; try discriminate L.
  pose proof (B 0 ltac:(cbn; lia)) as Ba. pose proof (B 1 ltac:(cbn; lia)) as Bb. pose proof (B 2 ltac:(cbn; lia)) as Bc.
  pose proof (B 3 ltac:(cbn; lia)) as Bd. cbn [nth] in *. clear B L.
  assert (Ha : a = 0 \/ a = 1) by lia. assert (Hb : b = 0 \/ b = 1) by lia. assert (Hc : c = 0 \/ c = 1) by lia. assert (Hd : d = 0 \/ d = 1) by lia.
  clear Ba Bb Bc Bd L2 bw.
  destruct Ha as [-> | ->], Hb as [-> | ->], Hc as [-> | ->], Hd as [-> | ->]; vm_compute; intros K; auto; try (destruct (K eq_refl)).
Qed.

Lemma fm_unbalanced :
  exists g limit perfect lab bw, closed_graph g /\ undirected g /\ nonneg_edges g /\ loop_free g /\ bipartition g lab bw /\
    (0 < overload limit g lab)%Z /\ overload limit g (upd 0 1 lab) = 0%Z /\
    forall iters rcs abt, (forall i, legal_order (gn g) (rc_chunks (rcs i)) (rc_perms (rcs i))) ->
      exists lab' bw' improved, fm_refine g limit perfect iters rcs abt lab bw = Some (lab', bw', improved) /\ (0 < overload limit g lab')%Z.
Proof.
  assert (Hcl : closed_graph kite) by (apply check_closed_ok; reflexivity).
  assert (Hu : undirected kite) by (apply check_undirected_ok; reflexivity).
  assert (Hnn : nonneg_edges kite) by (apply check_nonneg_ok; reflexivity).
  assert (Hl : loop_free kite) by (apply check_loopfree_ok; reflexivity).
  assert (Hb : bipartition kite [0; 0; 0; 1] [3; 1]%Z) by (apply check_bip_ok; reflexivity).
  exists kite, limit_kite, limit_kite, [0; 0; 0; 1], [3; 1]%Z.
  split; [exact Hcl|]. split; [exact Hu|]. split; [exact Hnn|]. split; [exact Hl|]. split; [exact Hb|].
  split; [reflexivity|]. split; [reflexivity|]. intros iters rcs abt Ho.
  destruct (refine_ok kite limit_kite limit_kite Hcl Hu Hnn Hl iters rcs abt [0; 0; 0; 1] [3; 1]%Z Hb Ho) as (lab' & bw' & i & E & B & _ & C & _).
  exists lab', bw', i. split; [exact E|]. apply (kite_labels lab' bw' B). destruct C as [-> | C]; [|change (cut_of kite [0; 0; 0; 1]) with 1%Z in C; lia].
  change (cut_of kite [0; 0; 0; 1]) with 1%Z. lia.
Qed.

(** Greedy graph growing on the path: the first start node is 0, the second one is 3. *)
Definition ends (i : nat) : (nat -> nat) * nat := (fun _ => 3 * i, 0).
Lemma growing_example : flat_bipartition path4 limit2 perfect2 (AGgg ends) = Some ([1; 0; 0; 1], [2; 2]%Z).
Proof. vm_compute. reflexivity. Qed.

Lemma growing_disconnected :
  exists g limit perfect rnd lab bw, closed_graph g /\ undirected g /\
    (forall u v, u < gn g -> v < gn g -> exists p, walk g u p v) /\
    flat_bipartition g limit perfect (AGgg rnd) = Some (lab, bw) /\
    exists u, u < gn g /\ nth u lab 0 = 1 /\ (exists u', u' < gn g /\ u' <> u /\ nth u' lab 0 = 1) /\
      forall v w, In (v, w) (gadj g u) -> nth v lab 0 = 0.
Proof.
  exists path4, limit2, perfect2, ends, [1; 0; 0; 1], [2; 2]%Z.
  split; [exact path4_closed|]. split; [exact path4_undirected|]. split.
  - intros u v Hu Hv. cbn in Hu, Hv.
    assert (W : forall x, x < 4 -> (exists p, walk path4 0 p x) /\ exists p, walk path4 x p 0).
    { intros [|[|[|[|x]]]] Hx; [| | | |lia]; split.
      - exists []. reflexivity.
      - exists []. reflexivity.
      - exists [1]. cbn. split; [exists 5%Z; cbn; auto|reflexivity].
      - exists [0]. cbn. split; [exists 5%Z; cbn; auto|reflexivity].
      - exists [1; 2]. cbn. split; [exists 5%Z; cbn; auto|split; [exists 1%Z; cbn; auto|reflexivity]].
      - exists [1; 0]. cbn. split; [exists 1%Z; cbn; auto|split; [exists 5%Z; cbn; auto|reflexivity]].
      - exists [1; 2; 3]. cbn. split; [exists 5%Z; cbn; auto|split; [exists 1%Z; cbn; auto|split; [exists 5%Z; cbn; auto|reflexivity]]].
      - exists [2; 1; 0]. cbn. split; [exists 5%Z; cbn; auto|split; [exists 1%Z; cbn; auto|split; [exists 5%Z; cbn; auto|reflexivity]]]. }
    destruct (W u Hu) as [_ [p Hp]]. destruct (W v Hv) as [[q Hq] _]. exists (p ++ q). apply (walk_app path4 p q u 0 v Hp Hq).
  - split; [exact growing_example|]. exists 0. split; [cbn; lia|]. split; [reflexivity|].
    split; [exists 3; split; [cbn; lia|]; split; [lia|reflexivity]|]. intros v w [H|[]]. injection H as <- _. reflexivity.
Qed.

Lemma bfs_example : flat_bipartition path4 limit2 perfect2 (ABfs alternating 1 (fun _ => (2, true))) = Some ([1; 0; 0; 0], [3; 1]%Z).
Proof. vm_compute. reflexivity. Qed.
Lemma random_example : flat_bipartition path4 limit2 perfect2 (ARandom (fun _ => true)) = Some ([1; 0; 1; 0], [2; 2]%Z).
Proof. vm_compute. reflexivity. Qed.
