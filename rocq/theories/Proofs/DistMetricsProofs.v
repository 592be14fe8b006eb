(* The distributed metrics report the cut, the block weights and the totals of the whole graph. *)
From Verif Require Import Lib.Prelude Model.GridModel Model.DistGraphModel Model.DistMetricsModel Spec.Graph Spec.DistGraphSpec
  Proofs.GridBase Proofs.GraphFacts Proofs.DistViewProofs.

Lemma zsum_seq_split (h : nat -> Z) a n : zsum (map (fun u => h (a + u)) (seq 0 n)) = (sumn (a + n) h - sumn a h)%Z.
Proof.
  induction n as [|n IH]; [rewrite Nat.add_0_r; cbn [seq map zsum]; lia|]. rewrite seq_S, map_app, zsum_app, IH. cbn [map zsum Nat.add].
  rewrite Nat.add_succ_r, sumn_S. lia.
Qed.
Lemma rank_sums P N dist (h : nat -> Z) : distribution P N dist ->
  zsum (map (fun r => zsum (map (fun u => h (nth r dist 0 + u)) (seq 0 (nth (S r) dist 0 - nth r dist 0)))) (seq 0 P)) = sumn N h.
Proof.
  intros (L & Z0 & ZP & M).
  assert (E : forall q, q <= P -> zsum (map (fun r => zsum (map (fun u => h (nth r dist 0 + u)) (seq 0 (nth (S r) dist 0 - nth r dist 0)))) (seq 0 q)) = sumn (nth q dist 0) h).
  { induction q as [|q IH]; intros Hq; [rewrite Z0; reflexivity|]. rewrite seq_S, map_app, zsum_app, IH by lia. cbn [map zsum Nat.add].
    rewrite zsum_seq_split. specialize (M q Hq). replace (nth q dist 0 + (nth (S q) dist 0 - nth q dist 0)) with (nth (S q) dist 0) by lia. lia. }
  rewrite E by lia. rewrite ZP. reflexivity.
Qed.
Lemma combine_maps {A B C} (f : A -> B) (g : A -> C) l : combine (map f l) (map g l) = map (fun x => (f x, g x)) l.
Proof. induction l as [|a t IH]; cbn [map combine]; [reflexivity|]. rewrite IH. reflexivity. Qed.
Lemma traverse_of_map {A B C} (f : B -> option C) (g : A -> B) l : traverse f (map g l) = traverse (fun x => f (g x)) l.
Proof. induction l as [|a t IH]; cbn [map traverse]; [reflexivity|]. rewrite IH. reflexivity. Qed.

Lemma firstn_of_nth {A} (l : list A) n (h : nat -> A) : (forall u, u < n -> nth_error l u = Some (h u)) -> firstn n l = map h (seq 0 n).
Proof.
  revert l h. induction n as [|n IH]; intros l h H; [reflexivity|]. pose proof (H 0 ltac:(lia)) as H0. destruct l as [|a t]; [discriminate|]. injection H0 as ->.
  cbn [firstn seq map]. f_equal. rewrite <- seq_shift, map_map. apply IH. intros u Hu. exact (H (S u) ltac:(lia)).
Qed.
Lemma fold_max_spec (l : list Z) x : (x <= fold_left Z.max l x)%Z /\ (forall y, In y l -> (y <= fold_left Z.max l x)%Z) /\ (fold_left Z.max l x = x \/ In (fold_left Z.max l x) l).
Proof.
  revert x. induction l as [|a t IH]; intros x; cbn [fold_left].
  - split; [lia|]. split; [intros y []|left; reflexivity].
  - destruct (IH (Z.max x a)) as (A & B & C). split; [lia|]. split.
    + intros y [<-|Hy]; [lia|exact (B y Hy)].
    + destruct C as [C|C]; [|right; right; exact C]. destruct (Z.max_spec x a) as [[_ E]|[_ E]]; rewrite E in *; [right; left; symmetry; exact C|left; exact C].
Qed.
Lemma traverse_some {A B} (f : A -> option B) l : (forall x, In x l -> exists y, f x = Some y) -> exists r, traverse f l = Some r /\
  (forall y, In y r <-> exists x, In x l /\ f x = Some y).
Proof.
  induction l as [|a t IH]; intros H; cbn [traverse].
  - exists []. split; [reflexivity|]. intros y. split; [intros []|intros [x [[] _]]].
  - destruct (H a (or_introl eq_refl)) as [y Ey]. destruct IH as (r & E & N); [intros x Hx; apply H; right; exact Hx|]. rewrite Ey, E. cbn [bind].
    exists (y :: r). split; [reflexivity|]. intros z. cbn [In]. split.
    + intros [<-|Hz]; [exists a; auto|]. apply N in Hz. destruct Hz as [x [A1 A2]]. exists x. auto.
    + intros [x [[<-|Hx] F]]; [left; congruence|right; apply N; exists x; auto].
Qed.

Section Metrics.
Variables (P : nat) (G : graph) (dist : list nat).
Hypothesis HD : distribution P (gn G) dist.
Variable d : nat -> dcsr.
Hypothesis HV : forall r, r < P ->
  local_view G dist r (dn (d r)) (dghost_n (d r)) (dlocal_to_global (d r)) (dglobal_to_local (d r)) (dghost_owner (d r)) (dcontains (d r)) (dadj (d r)).
Variables (parts : nat -> list nat) (part : nat -> nat).
Hypothesis HP : forall r l g, r < P -> dlocal_to_global (d r) l = Some g -> nth_error (parts r) l = Some (part g).

Let ds := map d (seq 0 P).
Let ps := map parts (seq 0 P).

Lemma node_term_ok r u : r < P -> u < dn (d r) ->
  node_term (d r) (parts r) u = Some (zsum (map (fun e => if part (nth r dist 0 + u) =? part (fst e) then 0%Z else snd e) (gadj G (nth r dist 0 + u)))).
Proof.
  intros Hr Hu. destruct (HV r Hr) as (_ & V2 & _ & _ & _ & _ & _ & V8). unfold node_term. rewrite (HP r u _ Hr (V2 u Hu)). cbn [bind].
  destruct (V8 u Hu) as (nbs & -> & E). cbn [bind]. set (g := nth r dist 0 + u) in *.
  assert (T : traverse (edge_term (parts r) (part g)) nbs = Some (map (fun e => if part g =? part (fst e) then 0%Z else snd e) (gadj G g))).
  { revert E. generalize (gadj G g) as l. induction nbs as [|[v w] t IH]; intros [|[y x] l] E; cbn [map traverse] in *; try discriminate; [reflexivity|].
    cbn [fst snd] in E. injection E as E1 E2 E3. unfold edge_term at 1. cbn [fst snd]. rewrite (HP r v y Hr E1). cbn [bind]. rewrite (IH l E3). cbn [bind fst snd]. rewrite E2. reflexivity. }
  rewrite T. reflexivity.
Qed.

Theorem dist_cut_ok : closed_graph G -> undirected G -> dist_edge_cut ds ps = Some (cut_weight G part).
Proof.
  intros HC HU. unfold dist_edge_cut, ds, ps. rewrite combine_maps, traverse_of_map.
  rewrite (traverse_ok _ (fun r => zsum (map (fun u => zsum (map (fun e => if part (nth r dist 0 + u) =? part (fst e) then 0%Z else snd e) (gadj G (nth r dist 0 + u)))) (seq 0 (nth (S r) dist 0 - nth r dist 0))))).
  - cbn [bind]. rewrite (rank_sums P (gn G) dist (fun g => zsum (map (fun e => if part g =? part (fst e) then 0%Z else snd e) (gadj G g))) HD).
    pose proof (dcut_cut G part HC HU) as D. unfold dcut in D. rewrite D. f_equal. rewrite Z.mul_comm. apply Z.quot_mul. lia.
  - intros r Hr. apply in_seq in Hr. cbn [fst snd]. unfold local_edge_cut.
    rewrite (traverse_ok _ (fun u => zsum (map (fun e => if part (nth r dist 0 + u) =? part (fst e) then 0%Z else snd e) (gadj G (nth r dist 0 + u))))).
    + cbn [bind]. destruct (HV r ltac:(lia)) as (-> & _). reflexivity.
    + intros u Hu. apply in_seq in Hu. apply node_term_ok; lia.
Qed.
Theorem reported_cut_ok bits : closed_graph G -> undirected G -> (0 < bits)%Z ->
  reported_cut bits ds ps = Some (narrow bits (cut_weight G part)) /\
  ((0 <= cut_weight G part < 2 ^ (bits - 1))%Z -> reported_cut bits ds ps = Some (cut_weight G part)).
Proof.
  intros HC HU Hb. unfold reported_cut. rewrite (dist_cut_ok HC HU). cbn [bind]. split; [reflexivity|]. intros H.
  rewrite narrow_fits by (try exact Hb; lia). reflexivity.
Qed.

Theorem written_ok r : r < P -> written_partition (d r) (parts r) = Some (map (fun u => part (nth r dist 0 + u)) (seq 0 (nth (S r) dist 0 - nth r dist 0))).
Proof.
  intros Hr. unfold written_partition. destruct (HV r Hr) as (Vn & V2 & _). rewrite <- Vn. apply traverse_ok. intros u Hu. apply in_seq in Hu. apply HP; [exact Hr|]. apply V2. lia.
Qed.

Hypothesis HN : forall r u, r < P -> u < dn (d r) -> dnode_weight (dc_nw (d r)) u = Some (gvw G (nth r dist 0 + u)).

Lemma add_block_weights_ok r k us bw : r < P -> (forall u, In u us -> u < dn (d r)) -> length bw = k -> (forall g, g < gn G -> part g < k) ->
  exists bw', add_block_weights (d r) (parts r) us bw = Some bw' /\ length bw' = k /\
    forall b, nth b bw' 0%Z = Z.add (nth b bw 0%Z) (if Nat.ltb b k then zsum (map (fun u => if Nat.eqb (part (nth r dist 0 + u)) b then gvw G (nth r dist 0 + u) else 0%Z) us) else 0%Z).
Proof.
  intros Hr Hus Hl Hk. destruct (HV r Hr) as (Vn & V2 & _). revert bw Hl Hus. induction us as [|u t IH]; intros bw Hl Hus; cbn [add_block_weights].
  - exists bw. split; [reflexivity|]. split; [exact Hl|]. intros b. cbn [map zsum]. destruct (Nat.ltb b k); lia.
  - assert (Hu : u < dn (d r)) by (apply Hus; left; reflexivity). rewrite (HP r u _ Hr (V2 u Hu)). cbn [bind]. rewrite (HN r u Hr Hu). cbn [bind].
    assert (Hp : part (nth r dist 0 + u) < k) by (apply Hk, (owns_lt P (gn G) dist HD r); [exact Hr|unfold owns; lia]).
    rewrite (nth_error_nth' bw 0%Z) by lia. cbn [bind].
    destruct (IH (upd (part (nth r dist 0 + u)) (Z.add (nth (part (nth r dist 0 + u)) bw 0%Z) (gvw G (nth r dist 0 + u))) bw)) as (bw' & E & L & N); [rewrite upd_length; exact Hl|intros x Hx; apply Hus; right; exact Hx|].
    exists bw'. split; [exact E|]. split; [exact L|]. intros b. rewrite N, upd_nth. cbn [map zsum]. rewrite (proj2 (Nat.ltb_lt _ (length bw))) by lia. rewrite andb_true_r.
    destruct (Nat.eqb_spec (part (nth r dist 0 + u)) b) as [Eb|Hne].
    + rewrite Eb in *. rewrite (proj2 (Nat.ltb_lt b k)) by exact Hp. lia.
    + destruct (Nat.ltb b k); lia.
Qed.
Theorem dist_block_weights_ok k : (forall g, g < gn G -> part g < k) ->
  exists bw, dist_block_weights k ds ps = Some bw /\ length bw = k /\ forall b, b < k -> nth b bw 0%Z = block_weight G part b.
Proof.
  intros Hk. unfold dist_block_weights, ds, ps. rewrite combine_maps, traverse_of_map.
  set (row := fun r => match local_block_weights (d r) (parts r) k with Some x => x | None => [] end).
  assert (R : forall r, r < P -> local_block_weights (d r) (parts r) k = Some (row r) /\
     forall b, b < k -> nth b (row r) 0%Z = zsum (map (fun u => if Nat.eqb (part (nth r dist 0 + u)) b then gvw G (nth r dist 0 + u) else 0%Z) (seq 0 (nth (S r) dist 0 - nth r dist 0)))).
  { intros r Hr. destruct (add_block_weights_ok r k (seq 0 (dn (d r))) (repeat 0%Z k)) as (bw & E & _ & N); [exact Hr|intros u Hu; apply in_seq in Hu; lia|apply repeat_length|exact Hk|].
    assert (Er : local_block_weights (d r) (parts r) k = Some bw) by exact E. unfold row. rewrite Er. split; [reflexivity|]. intros b Hb. rewrite N.
    rewrite (proj2 (Nat.ltb_lt b k)) by exact Hb. rewrite nth_repeat. destruct (HV r Hr) as (-> & _). lia. }
  rewrite (traverse_ok _ row).
  - cbn [bind]. eexists. split; [reflexivity|]. split; [rewrite map_length, seq_length; reflexivity|]. intros b Hb. rewrite nth_map_seq by exact Hb. rewrite map_map.
    unfold block_weight. rewrite <- (rank_sums P (gn G) dist _ HD). apply zsum_map_ext. intros r Hr. apply in_seq in Hr. apply R; lia.
  - intros r Hr. apply in_seq in Hr. cbn [fst snd]. apply R. lia.
Qed.

Lemma own_weights r : r < P -> dc_nw (d r) <> [] -> firstn (dn (d r)) (dc_nw (d r)) = map (fun u => gvw G (nth r dist 0 + u)) (seq 0 (dn (d r))).
Proof using HD HV HN.
  clear HP ps parts part.
  intros Hr Hne. apply firstn_of_nth. intros u Hu. pose proof (HN r u Hr Hu) as E. unfold dnode_weight in E. destruct (dc_nw (d r)); [congruence|exact E].
Qed.

Theorem total_weight_ok bits : (forall r, r < P -> dc_nw (d r) = [] \/ Z.lt (zsum (map (fun u => gvw G (nth r dist 0 + u)) (seq 0 (dn (d r))))) (2 ^ (bits - 1))%Z) ->
  global_total (local_total_node_weight bits) ds = Some (total_weight G).
Proof using HD HV HN.
  clear HP ps parts part.
  intros Hf. unfold global_total, ds. rewrite traverse_of_map.
  rewrite (traverse_ok _ (fun r => zsum (map (fun u => gvw G (nth r dist 0 + u)) (seq 0 (nth (S r) dist 0 - nth r dist 0))))).
  - cbn [bind]. rewrite (rank_sums P (gn G) dist (gvw G) HD). reflexivity.
  - intros r Hr. apply in_seq in Hr. destruct (HV r ltac:(lia)) as (Vn & _). rewrite <- Vn. unfold local_total_node_weight. destruct (nil_dec (dc_nw (d r))) as [E|E].
    + rewrite E. f_equal. assert (W : forall u, In u (seq 0 (dn (d r))) -> gvw G (nth r dist 0 + u) = 1%Z).
      { intros u Hu. apply in_seq in Hu. pose proof (HN r u ltac:(lia) ltac:(lia)) as W. rewrite E in W. cbn [dnode_weight] in W. congruence. }
      rewrite (map_ext_in _ (fun _ => 1%Z) _ W). clear. generalize 0 as a. induction (dn (d r)) as [|n IH]; intros a; [reflexivity|]. cbn [seq map zsum]. rewrite <- IH. lia.
    + destruct (Hf r ltac:(lia)) as [C|F]; [congruence|]. rewrite <- (own_weights r) in F |- * by (try exact E; lia).
      destruct (dc_nw (d r)) as [|x l] eqn:El; [congruence|]. unfold accumulate. rewrite (proj2 (Z.ltb_lt _ _)) by exact F. reflexivity.
Qed.

(** All node weights are positive and there is a node. *)
Theorem max_weight_ok : 0 < gn G -> (forall g, g < gn G -> (1 <= gvw G g)%Z) -> (forall r, r < P -> dc_nw (d r) <> [] -> 0 < dn (d r)) ->
  exists m, global_max local_max_node_weight ds = Some m /\ (forall g, g < gn G -> (gvw G g <= m)%Z) /\ exists g, g < gn G /\ gvw G g = m.
Proof using HD HV HN.
  clear HP ps parts part.
  intros Hn Hpos Hne.
  assert (Loc : forall r, r < P -> exists m, local_max_node_weight (d r) = Some m /\ (forall u, u < dn (d r) -> Z.le (gvw G (nth r dist 0 + u)) m) /\
            (m = 1%Z \/ exists u, u < dn (d r) /\ gvw G (nth r dist 0 + u) = m)).
  { intros r Hr. unfold local_max_node_weight. destruct (nil_dec (dc_nw (d r))) as [E|E].
    - rewrite E. exists 1%Z. split; [reflexivity|]. split; [|left; reflexivity]. intros u Hu. pose proof (HN r u Hr Hu) as W. rewrite E in W. cbn [dnode_weight] in W. injection W as <-. lia.
    - pose proof (Hne r Hr E) as Hd. pose proof (own_weights r Hr E) as W. destruct (dc_nw (d r)) as [|x0 l0]; [congruence|]. rewrite W.
      destruct (dn (d r)) as [|n]; [lia|]. cbn [seq map]. eexists. split; [reflexivity|].
      destruct (fold_max_spec (map (fun u => gvw G (nth r dist 0 + u)) (seq 1 n)) (gvw G (nth r dist 0 + 0))) as (A & B & C). split.
      + intros [|u] Hu; [exact A|]. apply B, in_map_iff. exists (S u). split; [reflexivity|]. apply in_seq. lia.
      + right. destruct C as [C|C]; [exists 0; split; [lia|symmetry; exact C]|]. apply in_map_iff in C. destruct C as [u [C1 C2]]. apply in_seq in C2. exists u. split; [lia|exact C1]. }
  unfold global_max, ds. rewrite traverse_of_map.
  destruct (traverse_some (fun r => local_max_node_weight (d r)) (seq 0 P)) as (ms & E & N); [intros r Hr; apply in_seq in Hr; destruct (Loc r ltac:(lia)) as (m & E & _); exists m; exact E|].
  rewrite E. cbn [bind].
  assert (Own : forall g, g < gn G -> exists r, r < P /\ owns dist r g) by (intros g Hg; exists (find_owner dist g); exact (find_owner_owns P (gn G) dist g HD Hg)).
  assert (OwnD : forall r g, r < P -> owns dist r g -> g - nth r dist 0 < dn (d r) /\ nth r dist 0 + (g - nth r dist 0) = g).
  { intros r g Hr [O1 O2]. destruct (HV r Hr) as (Vn & _). lia. }
  assert (Ge : forall g, g < gn G -> exists m, In m ms /\ (gvw G g <= m)%Z).
  { intros g Hg. destruct (Own g Hg) as (r & Hr & O). destruct (OwnD r g Hr O) as [D1 D2]. destruct (Loc r Hr) as (m & Em & B & _). exists m. split; [|specialize (B _ D1); rewrite D2 in B; exact B].
    apply N. exists r. split; [apply in_seq; lia|exact Em]. }
  destruct ms as [|x t]; [destruct (Ge 0 Hn) as [m [[] _]]|].
  destruct (fold_max_spec t x) as (A & B & C). set (m := fold_left Z.max t x) in *. exists m. split; [reflexivity|].
  assert (Ub : forall y, In y (x :: t) -> (y <= m)%Z) by (intros y [<-|Hy]; [exact A|exact (B y Hy)]).
  assert (Up : forall g, g < gn G -> (gvw G g <= m)%Z) by (intros g Hg; destruct (Ge g Hg) as (y & Hy & Ly); specialize (Ub y Hy); lia).
  split; [exact Up|].
  assert (Hm : In m (x :: t)) by (destruct C as [->|C]; [left; reflexivity|right; exact C]).
  apply N in Hm. destruct Hm as (r & Hr & Em). apply in_seq in Hr. destruct (Loc r ltac:(lia)) as (m' & Em' & _ & M). assert (m' = m) by congruence. subst m'.
  destruct M as [M|(u & Hu & M)].
  - exists 0. split; [exact Hn|]. pose proof (Up 0 Hn). pose proof (Hpos 0 Hn). lia.
  - exists (nth r dist 0 + u). split; [|exact M]. apply (owns_lt P (gn G) dist HD r); [lia|]. destruct (HV r ltac:(lia)) as (Vn & _). unfold owns. lia.
Qed.
End Metrics.

Lemma feasible_ok bw mx : length bw = length mx -> (is_feasible bw mx = true <-> forall b, b < length bw -> (nth b bw 0 <= nth b mx 0)%Z).
Proof.
  unfold is_feasible, num_imbalanced_blocks. rewrite Nat.eqb_eq. revert mx. induction bw as [|x t IH]; intros [|y l] H; cbn [length] in H; try lia.
  - split; [intros _ b Hb; cbn [length] in Hb; lia|reflexivity].
  - specialize (IH l ltac:(lia)). cbn [combine filter fst snd]. destruct (Z.ltb_spec y x) as [L|L].
    + split; [intros C; cbn [length] in C; discriminate|]. intros A. specialize (A 0 ltac:(cbn [length]; lia)). cbn [nth] in A. lia.
    + rewrite IH. split; intros A b Hb; cbn [length] in *.
      * destruct b as [|b]; cbn [nth]; [exact L|]. apply A. lia.
      * exact (A (S b) ltac:(lia)).
Qed.
