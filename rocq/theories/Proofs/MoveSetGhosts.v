(* Move sets: the adjacency of the ghosts is exact. *)
From Coq Require Import Sorting.Sorted.
From Verif Require Import Lib.Prelude Model.DistGraphModel Model.HemModel Model.MoveSetModel Spec.MoveSetSpec Proofs.MoveSetMoves.

Lemma prefix_nth {X} (x : X) l : forall m, m <= length l -> map (fun i => nth i l x) (seq 0 m) = firstn m l.
Proof.
  induction l as [|a l IH]; intros [|m] H; try reflexivity; cbn [length] in H; [lia|]. cbn [seq map firstn nth]. f_equal. rewrite <- seq_shift, map_map. apply IH. lia.
Qed.
Lemma weight_to_app p a b : weight_to p (a ++ b) = (weight_to p a + weight_to p b)%Z.
Proof. rewrite !weight_to_pick, map_app, zsum_app. reflexivity. Qed.
Lemma slice_weight p l a b : a <= b -> b <= length l ->
  weight_to p (map (fun i => nth i l (0, 0%Z)) (seq a (b - a))) = (weight_to p (firstn b l) - weight_to p (firstn a l))%Z.
Proof.
  intros Hab Hb. rewrite <- !(prefix_nth (0, 0%Z)) by lia. replace b with (a + (b - a)) at 2 by lia. rewrite seq_app, map_app, weight_to_app. cbn [Nat.add]. lia.
Qed.
Section Sorted.
Notation T := (nat * (Z * nat))%type.
Definition below (p : nat) (l : list T) : list T := filter (fun t => fst t <? p) l.
Lemma below_firstn p (l : list T) : StronglySorted (fun x y => fst x <= fst y) l -> firstn (length (below p l)) l = below p l.
Proof.
  induction 1 as [|t l S IH F]; [reflexivity|]. unfold below in *. cbn [filter]. destruct (Nat.ltb_spec (fst t) p); [cbn [length firstn]; rewrite IH; reflexivity|].
  assert (E : filter (fun t : T => fst t <? p) l = []); [|rewrite E; reflexivity]. clear IH S. induction F as [|y l Hy F IH]; [reflexivity|]. cbn [filter]. destruct (Nat.ltb_spec (fst y) p); [lia|exact IH].
Qed.
Lemma below_length p (l : list T) : length (below p l) <= length l.
Proof. unfold below. induction l as [|t l IH]; cbn [filter length]; [lia|]. destruct (fst t <? p); cbn [length]; lia. Qed.
Lemma below_all p (l : list T) : (forall t, In t l -> fst t < p) -> below p l = l.
Proof. unfold below. induction l as [|t l IH]; intros H; [reflexivity|]. cbn [filter]. destruct (Nat.ltb_spec (fst t) p) as [|Ge]; [f_equal; apply IH; intros; apply H; right; assumption|]. specialize (H t (or_introl eq_refl)). lia. Qed.
Lemma below_none p (l : list T) : (forall t, In t l -> p <= fst t) -> below p l = [].
Proof. unfold below. induction l as [|t l IH]; intros H; [reflexivity|]. cbn [filter]. destruct (Nat.ltb_spec (fst t) p) as [Lt|]; [specialize (H t (or_introl eq_refl)); lia|apply IH; intros; apply H; right; assumption]. Qed.
Lemma below_app p a b : below p (a ++ b) = below p a ++ below p b. Proof. apply filter_app. Qed.
Lemma fill_nth to size : forall m prev l, m = to - prev -> to < length l -> forall p, nth p (fold_left (fun l p => upd (S p) size l) (seq prev m) l) 0 = if (prev <? p) && (p <=? to) then size else nth p l 0.
Proof.
  induction m as [|m IH]; intros prev l E L p.
  - cbn [seq fold_left]. destruct (Nat.ltb_spec prev p), (Nat.leb_spec p to); try reflexivity. lia.
  - cbn [seq fold_left]. rewrite IH by (try rewrite upd_length; lia). destruct (Nat.ltb_spec (S prev) p), (Nat.leb_spec p to), (Nat.ltb_spec prev p); cbn [andb]; try lia; try reflexivity; try (apply upd_nth_other; lia).
    assert (p = S prev) by lia. subst p. apply upd_nth_same. lia.
Qed.
Lemma fill_length size ps : forall l : list nat, length (fold_left (fun l p => upd (S p) size l) ps l) = length l.
Proof. induction ps as [|p ps IH]; intros l; [reflexivity|]. cbn [fold_left]. rewrite IH. apply upd_length. Qed.
Variables (G S0 : nat) (ts : list T).
Hypothesis Hsort : StronglySorted (fun x y => fst x <= fst y) ts.
Hypothesis Hrange : forall t, In t ts -> fst t < G.
Definition edge_of (t : T) : nat * Z := (snd (snd t), fst (snd t)).
Definition ginv (done : list T) (s : (list nat * nat) * list (nat * Z)) : Prop :=
  length (fst (fst s)) = G + 1 /\ snd s = repeat (0, 0%Z) S0 ++ map edge_of done /\ snd (fst s) <= G /\ (forall t, In t done -> fst t <= snd (fst s)) /\
  nth 0 (fst (fst s)) 0 = 0 /\ (forall p, 1 <= p <= snd (fst s) -> nth p (fst (fst s)) 0 = S0 + length (below p ts)).
Lemma fill_inv done rest s to : ts = done ++ rest -> ginv done s -> snd (fst s) <= to -> to <= G -> (forall t, In t rest -> to <= fst t) -> ginv done (fill to (length (snd s)) (fst s), snd s).
Proof.
  intros E (A & B & C & D & F & H) Hto HG Hrest. unfold ginv, fill. cbn [fst snd]. rewrite fill_length. split; [exact A|]. split; [exact B|]. split; [lia|]. split; [intros t Ht; specialize (D t Ht); lia|]. split.
  - rewrite (fill_nth to) by lia. destruct (Nat.ltb_spec (snd (fst s)) 0); [lia|]. exact F.
  - intros p Hp. rewrite (fill_nth to) by lia. destruct (Nat.ltb_spec (snd (fst s)) p); cbn [andb]; [|apply H; lia]. destruct (Nat.leb_spec p to); [|lia].
    rewrite B, app_length, repeat_length, map_length, E, below_app, below_all, below_none, app_nil_r; [reflexivity|..]; [intros t Ht; specialize (Hrest t Ht); lia|intros t Ht; specialize (D t Ht); lia].
Qed.
Lemma steps_inv rest : forall done s, ts = done ++ rest -> ginv done s -> (forall t, In t rest -> snd (fst s) <= fst t) -> StronglySorted (fun x y => fst x <= fst y) rest -> ginv ts (fold_left ghost_step rest s).
Proof.
  induction rest as [|t rest IH]; intros done s E I Hr SS; [rewrite app_nil_r in E; subst; exact I|]. cbn [fold_left]. inversion SS as [|? ? SS' F]; subst. rewrite Forall_forall in F. apply (IH (done ++ [t])); [rewrite <- app_assoc; exact E| | |exact SS'].
  - pose proof (Hr t (or_introl eq_refl)) as Ht. assert (HtG : fst t < G) by (apply Hrange; rewrite E; apply in_or_app; right; left; reflexivity).
    assert (I' : ginv done (fill (fst t) (length (snd s)) (fst s), snd s)) by (apply (fill_inv done (t :: rest)); auto; [lia|]; intros t' [<-|Ht']; [lia|exact (F t' Ht')]).
    unfold ghost_step. destruct I' as (A & B & C & D & P & Q). unfold ginv. cbn [fst snd] in *. split; [exact A|]. split; [rewrite B, map_app, <- app_assoc; reflexivity|]. split; [exact C|]. split; [|split; [exact P|exact Q]].
    intros t' Ht'. apply in_app_or in Ht'. destruct Ht' as [Ht'|[<-|[]]]; [exact (D t' Ht')|unfold fill; cbn [snd]; lia].
  - intros t' Ht'. unfold ghost_step, fill. cbn [fst snd]. pose proof (Hr t (or_introl eq_refl)). specialize (F t' Ht'). lia.
Qed.
End Sorted.

Section Ghosts.
Variables (d : dcsr) (k : nat).
Notation n := (dn d).
Notation gn := (dghost_n d).
Notation adj := (row d).
Hypothesis HG : rank_graph n gn adj.
Lemma ghost_facts ts junk : StronglySorted (fun x y => fst x <= fst y) ts -> (forall t, In t ts -> fst t < gn) -> length junk = gn + 1 ->
  snd (ghost_arrays d ts junk) = repeat (0, 0%Z) (length ts) ++ map edge_of ts /\ nth 0 (fst (ghost_arrays d ts junk)) 0 = 0 /\
  forall p, 1 <= p <= gn -> nth p (fst (ghost_arrays d ts junk)) 0 = length ts + length (below p ts).
Proof.
  intros SS R L. set (s0 := ((upd 0 0 junk, 0), repeat (0, 0%Z) (length ts))).
  assert (I0 : ginv gn (length ts) ts [] s0).
  { unfold ginv, s0. cbn [fst snd map]. rewrite upd_length, app_nil_r. split; [exact L|]. split; [reflexivity|]. split; [lia|]. split; [intros t []|]. split; [apply upd_nth_same; lia|]. intros p Hp. lia. }
  assert (I1 : ginv gn (length ts) ts ts (fold_left ghost_step ts s0)) by (apply (steps_inv gn (length ts) ts R ts [] s0); [reflexivity|exact I0|intros; cbn; lia|exact SS]).
  assert (I2 : ginv gn (length ts) ts ts (fill gn (length (snd (fold_left ghost_step ts s0))) (fst (fold_left ghost_step ts s0)), snd (fold_left ghost_step ts s0))).
  { apply (fill_inv gn (length ts) ts R ts []); [rewrite app_nil_r; reflexivity|exact I1| |lia|intros t []]. exact (proj1 (proj2 (proj2 I1))). }
  destruct I2 as (A & B & C & D & E & F). unfold ghost_arrays. fold s0. cbn [fst snd] in *. split; [exact B|]. split; [exact E|]. intros p Hp. apply F. unfold fill. cbn [snd]. lia.
Qed.
Definition share (g c : nat) (t : nat * (Z * nat)) : Z := if (fst t =? g) && (snd (snd t) =? c) then fst (snd t) else 0%Z.
Lemma range_weight ts junk s g c : StronglySorted (fun x y => fst x <= fst y) ts -> (forall t, In t ts -> fst t < gn) -> length junk = gn + 1 ->
  ms_gidx s = fst (ghost_arrays d ts junk) -> ms_gedge s = snd (ghost_arrays d ts junk) -> g < gn -> weight_to (Nat.eqb c) (range s g) = zsum (map (share g c) ts).
Proof.
  intros SS R L E1 E2 Hg. destruct (ghost_facts ts junk SS R L) as (A & B & C). unfold range. rewrite E1, E2, A.
  set (l := repeat (0, 0%Z) (length ts) ++ map edge_of ts).
  assert (Ll : length l = length ts + length ts) by (unfold l; rewrite app_length, repeat_length, map_length; reflexivity).
  assert (Z0 : forall m, weight_to (Nat.eqb c) (repeat (0, 0%Z) m) = 0%Z). { intros m. rewrite weight_to_pick. induction m as [|m IH]; [reflexivity|]. cbn [repeat map zsum]. rewrite IH. unfold pick. cbn [fst snd]. destruct (c =? 0); reflexivity. }
  assert (W : forall p, weight_to (Nat.eqb c) (firstn (length ts + length (below p ts)) l) = weight_to (Nat.eqb c) (map edge_of (below p ts))).
  { intros p. unfold l. rewrite firstn_app, repeat_length. replace (length ts + length (below p ts) - length ts) with (length (below p ts)) by lia. rewrite firstn_all2 by (rewrite repeat_length; lia). rewrite weight_to_app, Z0, firstn_map, below_firstn by exact SS. lia. }
  assert (D : weight_to (Nat.eqb c) (map edge_of (below (S g) ts)) = (weight_to (Nat.eqb c) (map edge_of (below g ts)) + zsum (map (share g c) ts))%Z).
  { rewrite !weight_to_pick. unfold below. clear. induction ts as [|t l IH]; [reflexivity|]. cbn [filter map zsum]. unfold share, edge_of, pick in *. destruct (Nat.ltb_spec (fst t) (S g)), (Nat.ltb_spec (fst t) g), (Nat.eqb_spec (fst t) g); try lia; cbn [map zsum fst snd andb] in *; rewrite IH; rewrite ?(Nat.eqb_sym c); lia. }
  assert (Hb : length (below g ts) <= length (below (S g) ts)).
  { unfold below. clear. induction ts as [|t l IH]; [cbn; lia|]. cbn [filter]. destruct (Nat.ltb_spec (fst t) g), (Nat.ltb_spec (fst t) (S g)); cbn [length]; lia. }
  pose proof (below_length (S g) ts).
  rewrite (C (S g)) by lia. destruct g as [|g].
  - rewrite B. rewrite slice_weight by lia. rewrite W. cbn [firstn]. rewrite D. replace (below 0 ts) with (@nil (nat * (Z * nat))) by (symmetry; apply below_none; intros; lia). rewrite !weight_to_pick. cbn [map zsum]. lia.
  - rewrite (C (S g)) by lia. rewrite slice_weight by lia. rewrite !W, D. lia.
Qed.
(** The edges of one set, aggregated. *)
Lemma touch_inv es : (forall v w, In (v, w) es -> v < n + gn /\ (0 < w)%Z) -> let s := fold_left (touch d) es ([], repeat 0%Z gn) in
  length (snd s) = gn /\ NoDup (fst s) /\ (forall g, In g (fst s) -> g < gn) /\ (forall g, g < gn -> nth g (snd s) 0%Z = weight_to (Nat.eqb (n + g)) es /\ (0 <= nth g (snd s) 0)%Z /\ (nth g (snd s) 0%Z <> 0%Z -> In g (fst s)) /\ (In g (fst s) -> nth g (snd s) 0%Z <> 0%Z)).
Proof.
  induction es as [|[v w] es IH] using rev_ind; intros H; cbv zeta in *.
  - cbn [fold_left fst snd]. rewrite repeat_length. split; [reflexivity|]. split; [constructor|]. split; [intros g []|]. intros g Hg. rewrite nth_repeat. split; [reflexivity|]. split; [lia|]. split; [congruence|intros []].
  - rewrite fold_left_app. cbn [fold_left]. specialize (IH ltac:(intros v' w' H'; apply H, in_or_app; left; exact H')). set (s := fold_left (touch d) es ([], repeat 0%Z gn)) in *. destruct IH as (A & B & C & D).
    destruct (H v w ltac:(apply in_or_app; right; left; reflexivity)) as [Hv Hw]. unfold touch, dis_ghost. cbn [fst snd]. destruct (Nat.leb_spec n v) as [Gv|Ov]; cbn [fst snd].
    + assert (Hg : v - n < gn) by lia. destruct (D (v - n) Hg) as (D1 & D2 & D3 & D4).
      split; [unfold add_to; rewrite upd_length; exact A|]. split; [|split].
      * destruct (Z.eqb_spec (nth (v - n) (snd s) 0%Z) 0) as [E|E]; [|exact B]. apply NoDup_rev in B. apply (NoDup_cons (v - n)) in B; [|intros Hin; apply in_rev in Hin; apply D4 in Hin; contradiction]. apply NoDup_rev in B. cbn [rev] in B. rewrite rev_involutive in B. exact B.
      * intros g Hin. destruct (nth (v - n) (snd s) 0 =? 0)%Z; [apply in_app_or in Hin; destruct Hin as [Hin|[<-|[]]]|]; auto.
      * intros g Hg'. rewrite weight_to_app, (weight_to_pick _ [_]). cbn [map zsum]. unfold pick. cbn [fst snd]. destruct (D g Hg') as (E1 & E2 & E3 & E4). unfold add_to. cbn [fst snd].
        destruct (Nat.eqb_spec (n + g) v) as [Ev|Ev].
        { assert (g = v - n) by lia. subst g. rewrite upd_nth_same by lia. split; [lia|]. split; [lia|]. split; [|intros _; lia]. intros _. destruct (Z.eqb_spec (nth (v - n) (snd s) 0%Z) 0); [apply in_or_app; right; left; reflexivity|auto]. }
        { rewrite upd_nth_other by lia. split; [lia|]. split; [lia|]. split.
          - intros E. destruct (nth (v - n) (snd s) 0 =? 0)%Z; [apply in_or_app; left|]; auto.
          - intros Hin. apply E4. destruct (nth (v - n) (snd s) 0 =? 0)%Z; [|exact Hin]. apply in_app_or in Hin. destruct Hin as [Hin|[Hin|[]]]; [exact Hin|lia]. }
    + split; [exact A|]. split; [exact B|]. split; [exact C|]. intros g Hg. rewrite weight_to_app, (weight_to_pick _ [_]). cbn [map zsum]. unfold pick. cbn [fst snd]. destruct (Nat.eqb_spec (n + g) v); [lia|]. destruct (D g Hg) as (E1 & E2 & E3 & E4). split; [lia|]. auto.
Qed.
Lemma single_sum (f : nat -> Z) g : forall l, NoDup l -> zsum (map (fun x => if x =? g then f x else 0%Z) l) = if existsb (Nat.eqb g) l then f g else 0%Z.
Proof.
  induction l as [|x l IH]; intros N; [reflexivity|]. inversion N; subst. cbn [map zsum existsb]. rewrite (IH H2), (Nat.eqb_sym g x). destruct (Nat.eqb_spec x g) as [->|]; cbn [orb]; [|lia].
  destruct (existsb (Nat.eqb g) l) eqn:E; [apply mem_in in E; contradiction|lia].
Qed.
Lemma set_share nodes c g c' : (forall u, In u nodes -> u < n) -> g < gn -> zsum (map (share g c) (set_triples d nodes c')) = if c' =? c then weight_to (Nat.eqb (n + g)) (flat_map adj nodes) else 0%Z.
Proof.
  intros Hn Hg. unfold set_triples. set (es := flat_map adj nodes). destruct (touch_inv es) as (A & B & C & D).
  { intros v w Hin. apply in_flat_map in Hin. destruct Hin as (u & Hu & Hin). destruct (rg_known _ _ _ HG u v w (Hn u Hu) Hin) as (P & Q & _). auto. }
  set (s := fold_left (touch d) es ([], repeat 0%Z gn)) in *. rewrite map_map. unfold share. cbn [fst snd]. destruct (c' =? c).
  - rewrite (zsum_map_ext _ (fun x => if x =? g then nth x (snd s) 0%Z else 0%Z)) by (intros x _; rewrite andb_true_r; reflexivity). rewrite (single_sum (fun x => nth x (snd s) 0%Z)) by exact B. destruct (D g Hg) as (D1 & D2 & D3 & D4).
    destruct (existsb (Nat.eqb g) (fst s)) eqn:E; [exact D1|]. rewrite <- D1. destruct (Z.eq_dec (nth g (snd s) 0%Z) 0) as [E0|E0]; [congruence|]. apply D3, mem_in in E0. congruence.
  - rewrite (zsum_map_ext _ (fun x => 0%Z)) by (intros x _; rewrite andb_false_r; reflexivity). apply zsum_map_0.
Qed.
Definition as_sets (b : building) : sets := Sets (bu_of b) (bu_nodes b) (bu_idx b) (bu_conn b) [] [].
Lemma triples_share b c g : (forall c' u, c' < num_sets (as_sets b) -> In u (nodes_of (as_sets b) c') -> u < n) -> g < gn -> c < num_sets (as_sets b) ->
  zsum (map (share g c) (triples d b)) = weight_to (Nat.eqb (n + g)) (flat_map adj (nodes_of (as_sets b) c)).
Proof.
  intros Hn Hg Hc. unfold triples. fold (as_sets b). change (length (bu_idx b) - 1) with (num_sets (as_sets b)).
  assert (E : forall l, (forall x, In x l -> x < num_sets (as_sets b)) -> zsum (map (share g c) (flat_map (fun c' => set_triples d (nodes_of (as_sets b) c') c') l)) = zsum (map (fun c' => if c' =? c then weight_to (Nat.eqb (n + g)) (flat_map adj (nodes_of (as_sets b) c')) else 0%Z) l)).
  { induction l as [|x l IH]; intros Hl; [reflexivity|]. cbn [flat_map map zsum]. rewrite map_app, zsum_app, IH by (intros; apply Hl; right; assumption). rewrite set_share; [reflexivity| |exact Hg]. intros u. apply Hn, Hl. left. reflexivity. }
  rewrite E by (intros x Hx; apply in_seq in Hx; lia). rewrite single_sum by apply seq_NoDup. rewrite (proj2 (mem_in c _)); [reflexivity|]. apply in_seq. lia.
Qed.
Lemma triples_range b t : (forall c' u, c' < num_sets (as_sets b) -> In u (nodes_of (as_sets b) c') -> u < n) -> In t (triples d b) -> fst t < gn.
Proof.
  intros Hn Ht. unfold triples in Ht. apply in_flat_map in Ht. destruct Ht as (c & Hc & Ht). apply in_seq in Hc. fold (as_sets b) in Ht. unfold set_triples in Ht. apply in_map_iff in Ht. destruct Ht as (g & <- & Hin).
  destruct (touch_inv (flat_map adj (nodes_of (as_sets b) c))) as (A & B & C & D); [|exact (C g Hin)].
  intros v w Hi. apply in_flat_map in Hi. destruct Hi as (u & Hu & Hi). apply Hn in Hu; [|unfold num_sets; cbn [ms_idx as_sets]; lia]. destruct (rg_known _ _ _ HG u v w Hu Hi) as (P & Q & _). auto.
Qed.
Theorem constructed_good b s blk : constructed d b s -> (forall c' u, c' < num_sets (as_sets b) -> In u (nodes_of (as_sets b) c') -> u < n) ->
  consistent n k adj (fun u => nth u blk 0) (sets_of (as_sets b)) (fun u => nth u (bu_of b) None) (conn k (as_sets b)) -> num_sets (as_sets b) * k <= length (bu_conn b) -> length blk = n + gn -> (forall v, v < n + gn -> nth v blk 0 < k) ->
  good d k s blk.
Proof.
  intros (ts & junk & HP & HS & HJ & ->) Hn HC HL HB HK. constructor; [exact HC|exact HL|exact HB|exact HK|]. intros g c Hg Hc.
  rewrite (range_weight ts junk _ g c HS); [|intros t Ht; apply (triples_range b t Hn), (Permutation_in _ HP Ht)|exact HJ|reflexivity|reflexivity|exact Hg].
  rewrite (zsum_perm _ _ (Permutation_map (share g c) HP)). exact (triples_share b c g Hn Hg Hc).
Qed.
End Ghosts.
