(* Move sets: moving sets and ghosts keeps the connections exact. *)
From Coq Require Import Sorting.Sorted.
From Verif Require Import Lib.Prelude Model.DistGraphModel Model.HemModel Model.MoveSetModel Spec.MoveSetSpec.

Definition ind (b : bool) : Z := if b then 1%Z else 0%Z.
Definition pick (p : nat -> bool) (e : nat * Z) : Z := if p (fst e) then snd e else 0%Z.
Lemma weight_to_pick p es : weight_to p es = zsum (map (pick p) es).
Proof. unfold weight_to, pick. induction es as [|e es IH]; [reflexivity|]. cbn [filter map zsum]. destruct (p (fst e)); cbn [map zsum]; rewrite IH; reflexivity. Qed.
Lemma weight_to_flat p (adj : nat -> list (nat * Z)) l : zsum (map (fun u => weight_to p (adj u)) l) = weight_to p (flat_map adj l).
Proof. rewrite weight_to_pick. induction l as [|u l IH]; [reflexivity|]. cbn [map zsum flat_map]. rewrite map_app, zsum_app, <- IH, weight_to_pick. reflexivity. Qed.
Lemma weight_to_members (A : list nat) es : NoDup A -> weight_to (fun v => existsb (Nat.eqb v) A) es = zsum (map (fun a => weight_to (Nat.eqb a) es) A).
Proof.
  intros N. induction es as [|e es IH].
  - clear N. rewrite weight_to_pick. cbn [map zsum]. induction A as [|a A IH]; [reflexivity|]. cbn [map zsum]. rewrite <- IH. reflexivity.
  - rewrite weight_to_pick in *. cbn [map zsum]. rewrite IH. rewrite (zsum_map_ext (fun a => weight_to (Nat.eqb a) (e :: es)) (fun a => (pick (Nat.eqb a) e + weight_to (Nat.eqb a) es)%Z)) by (intros a _; rewrite !weight_to_pick; reflexivity).
    rewrite zsum_map_add. f_equal. clear IH. unfold pick. induction A as [|a A IH]; [reflexivity|]. inversion N; subst. cbn [existsb map zsum]. rewrite <- (IH H2). rewrite (Nat.eqb_sym a).
    destruct (Nat.eqb_spec (fst e) a) as [->|Ne]; cbn [orb]; [|lia]. destruct (existsb (Nat.eqb a) A) eqn:E; [|lia]. apply existsb_exists in E. destruct E as (x & Hx & Ex). apply Nat.eqb_eq in Ex. subst x. contradiction.
Qed.
Lemma add_all_length ups : forall l, length (add_all ups l) = length l.
Proof. induction ups as [|x ups IH]; intros l; [reflexivity|]. cbn [add_all fold_left]. fold (add_all ups (add_to l x)). rewrite IH. apply upd_length. Qed.
Lemma add_all_nth ups : forall l i, i < length l -> nth i (add_all ups l) 0%Z = (nth i l 0 + weight_to (Nat.eqb i) ups)%Z.
Proof.
  induction ups as [|x ups IH]; intros l i Hi; [rewrite weight_to_pick; cbn; lia|]. cbn [add_all fold_left]. fold (add_all ups (add_to l x)). rewrite IH by (unfold add_to; rewrite upd_length; exact Hi).
  rewrite !weight_to_pick. cbn [map zsum]. unfold add_to, pick at 2. destruct (Nat.eqb_spec i (fst x)) as [->|Ne]; [rewrite upd_nth_same by exact Hi; lia|rewrite upd_nth_other by congruence; lia].
Qed.
Lemma weight_to_ups p (f : nat * Z -> list (nat * Z)) es : weight_to p (flat_map f es) = zsum (map (fun e => weight_to p (f e)) es).
Proof. rewrite weight_to_pick. induction es as [|e es IH]; [reflexivity|]. cbn [flat_map map zsum]. rewrite map_app, zsum_app, IH, <- weight_to_pick. reflexivity. Qed.
Lemma flat_map_twice {A B C} (f : B -> list C) (g : A -> list B) l : flat_map (fun u => flat_map f (g u)) l = flat_map f (flat_map g l).
Proof. induction l as [|x l IH]; [reflexivity|]. cbn [flat_map]. rewrite flat_map_app, IH. reflexivity. Qed.
Lemma cell_eq k c b c' b' : b < k -> b' < k -> c * k + b = c' * k + b' -> c = c' /\ b = b'.
Proof. intros H H' E. assert (c = c') by nia. subst. split; [reflexivity|lia]. Qed.
Lemma cell_eqb k c b c' b' : b < k -> b' < k -> (c * k + b =? c' * k + b') = (c =? c') && (b =? b').
Proof.
  intros H H'. destruct (Nat.eqb_spec (c * k + b) (c' * k + b')) as [E|E].
  - destruct (cell_eq k c b c' b' H H' E) as [-> ->]. rewrite !Nat.eqb_refl. reflexivity.
  - destruct (Nat.eqb_spec c c'), (Nat.eqb_spec b b'); subst; try reflexivity. contradiction.
Qed.
Lemma two_ups k i b c from to w : i < i + 1 -> b < k -> from < k -> to < k ->
  weight_to (Nat.eqb (i * k + b)) [(c * k + from, (- w)%Z); (c * k + to, w)] = (ind (Nat.eqb i c) * (ind (Nat.eqb b to) - ind (Nat.eqb b from)) * w)%Z.
Proof.
  intros _ Hb Hf Ht. rewrite weight_to_pick. cbn [map zsum]. unfold pick. cbn [fst snd]. rewrite !cell_eqb by assumption. unfold ind. destruct (i =? c), (b =? from), (b =? to); cbn [andb]; lia.
Qed.

Section Moves.
Variables (d : dcsr) (k : nat).
Notation n := (dn d).
Notation gn := (dghost_n d).
Notation adj := (row d).
Hypothesis HG : rank_graph n gn adj.
Lemma Hghost v : dis_ghost d v = (n <=? v). Proof. reflexivity. Qed.
Definition sets_of (s : sets) : list (list nat) := map (nodes_of s) (seq 0 (num_sets s)).
Definition range (s : sets) (g : nat) : list (nat * Z) := map (fun i => nth i (ms_gedge s) (0, 0%Z)) (seq (nth g (ms_gidx s) 0) (nth (S g) (ms_gidx s) 0 - nth g (ms_gidx s) 0)).
Record good (s : sets) (blk : list nat) : Prop := {
  go_con : consistent n k adj (fun u => nth u blk 0) (sets_of s) (fun u => nth u (ms_of s) None) (conn k s);
  go_conn : num_sets s * k <= length (ms_conn s);
  go_blk : length blk = n + gn;
  go_k : forall v, v < n + gn -> nth v blk 0 < k;
  go_ghost : forall g c, g < gn -> c < num_sets s -> weight_to (Nat.eqb c) (range s g) = weight_to (Nat.eqb (n + g)) (flat_map adj (nodes_of s c))
}.
Lemma sets_nth s c : c < num_sets s -> nth c (sets_of s) [] = nodes_of s c.
Proof. intros H. unfold sets_of. rewrite (nth_indep _ [] (nodes_of s 0)) by (rewrite map_length, seq_length; exact H). rewrite map_nth, seq_nth by exact H. reflexivity. Qed.
Lemma sets_len s : length (sets_of s) = num_sets s. Proof. unfold sets_of. rewrite map_length, seq_length. reflexivity. Qed.
Lemma sets_in s l : In l (sets_of s) <-> exists c, c < num_sets s /\ l = nodes_of s c.
Proof. unfold sets_of. rewrite in_map_iff. split; [intros (c & <- & Hc); apply in_seq in Hc; exists c; split; [lia|reflexivity]|intros (c & Hc & ->); exists c; split; [reflexivity|apply in_seq; lia]]. Qed.
Lemma mem_in v l : existsb (Nat.eqb v) l = true <-> In v l.
Proof. rewrite existsb_exists. split; [intros (x & Hx & E); apply Nat.eqb_eq in E; subst; exact Hx|intros H; exists v; split; [exact H|apply Nat.eqb_refl]]. Qed.
Lemma members s blk c u : good s blk -> c < num_sets s -> (In u (nodes_of s c) <-> u < n /\ nth u (ms_of s) None = Some c).
Proof. intros Gd Hc. pose proof (co_of _ _ _ _ _ _ _ (go_con _ _ Gd) c u) as H. rewrite sets_len in H. specialize (H Hc). rewrite sets_nth in H by exact Hc. exact H. Qed.
Lemma own_edges s blk c v w : good s blk -> c < num_sets s -> In (v, w) (flat_map adj (nodes_of s c)) -> v < n + gn.
Proof. intros Gd Hc Hin. apply in_flat_map in Hin. destruct Hin as (u & Hu & Hin). apply (members s blk c u Gd Hc) in Hu. exact (proj1 (rg_known _ _ _ HG u v w (proj1 Hu) Hin)). Qed.
Lemma exact_conn s blk c b : good s blk -> c < num_sets s -> b < k -> conn k s c b = weight_to (fun v => negb (existsb (Nat.eqb v) (nodes_of s c)) && (nth v blk 0 =? b)) (flat_map adj (nodes_of s c)).
Proof. intros Gd Hc Hb. rewrite (co_conn _ _ _ _ _ _ _ (go_con _ _ Gd) c b) by (rewrite ?sets_len; assumption). rewrite sets_nth by exact Hc. apply weight_to_flat. Qed.
(** A new partition and new connections. *)
Lemma rebuild s s' blk blk' : good s blk -> ms_of s' = ms_of s -> ms_nodes s' = ms_nodes s -> ms_idx s' = ms_idx s -> ms_gidx s' = ms_gidx s -> ms_gedge s' = ms_gedge s -> length (ms_conn s') = length (ms_conn s) ->
  length blk' = length blk -> (forall v, v < n + gn -> nth v blk' 0 < k) -> (forall c u v, c < num_sets s -> In u (nodes_of s c) -> In v (nodes_of s c) -> nth u blk' 0 = nth v blk' 0) ->
  (forall c b, c < num_sets s -> b < k -> conn k s' c b = weight_to (fun v => negb (existsb (Nat.eqb v) (nodes_of s c)) && (nth v blk' 0 =? b)) (flat_map adj (nodes_of s c))) -> good s' blk'.
Proof.
  intros Gd E1 E2 E3 E4 E5 E6 L K B C. destruct s as [a1 a2 a3 a4 a5 a6], s' as [b1 b2 b3 b4 b5 b6]. cbn [ms_of ms_nodes ms_idx ms_conn ms_gidx ms_gedge] in *. subst.
  set (s := Sets a1 a2 a3 a4 a5 a6) in *. set (s' := Sets a1 a2 a3 b4 a5 a6). destruct Gd as [[C1 C2 C3 C4 C5 C6] G2 G3 G4 G5].
  assert (Es : sets_of s' = sets_of s) by reflexivity. assert (En : forall c, nodes_of s' c = nodes_of s c) by reflexivity. assert (Em : num_sets s' = num_sets s) by reflexivity.
  constructor; [constructor|..].
  - exact C1. - exact C2. - exact C3. - exact C4.
  - intros l u v Hl Hu Hv. rewrite Es in Hl. apply sets_in in Hl. destruct Hl as (c & Hc & ->). exact (B c u v Hc Hu Hv).
  - intros c b Hc Hb. rewrite Es in *. rewrite sets_len in Hc. rewrite sets_nth by exact Hc. rewrite weight_to_flat. exact (C c b Hc Hb).
  - rewrite Em. unfold s' at 1. cbn [ms_conn]. rewrite E6. exact G2.
  - lia. - exact K. - exact G5.
Qed.
Lemma set_blocks_nth us to : forall blk v, (forall u, In u us -> u < length blk) -> nth v (fold_left (fun l u => upd u to l) us blk) 0 = if existsb (Nat.eqb v) us then to else nth v blk 0.
Proof.
  induction us as [|u us IH]; intros blk v H; [reflexivity|]. cbn [fold_left existsb]. rewrite IH by (intros x Hx; rewrite upd_length; apply H; right; exact Hx).
  destruct (existsb (Nat.eqb v) us); [rewrite orb_true_r; reflexivity|]. rewrite orb_false_r. destruct (Nat.eqb_spec v u) as [->|Ne]; [apply upd_nth_same; apply H; left; reflexivity|apply upd_nth_other; congruence].
Qed.
Lemma set_blocks_length us to : forall blk : list nat, length (fold_left (fun l u => upd u to l) us blk) = length blk.
Proof. induction us as [|u us IH]; intros blk; [reflexivity|]. cbn [fold_left]. rewrite IH. apply upd_length. Qed.

Lemma zsum_scale {X} c (f : X -> Z) l : zsum (map (fun e => c * f e)%Z l) = (c * zsum (map f l))%Z. Proof. apply zsum_map_mul. Qed.
Lemma weight_diff p q c m es : (forall v w, In (v, w) es -> (ind (p v) - ind (q v))%Z = (c * ind (m v))%Z) -> (weight_to p es = weight_to q es + c * weight_to m es)%Z.
Proof.
  intros H. rewrite !weight_to_pick. induction es as [|[v w] es IH]; cbn [map zsum]; [lia|]. rewrite IH by (intros; eapply H; right; eassumption). specialize (H v w (or_introl eq_refl)). unfold pick. cbn [fst snd].
  assert (E : ((if p v then w else 0) = (if q v then w else 0) + c * (if m v then w else 0))%Z); [|lia]. unfold ind in H. destruct (p v), (q v), (m v); nia.
Qed.
Lemma between A B : NoDup A -> NoDup B -> (forall u, In u A -> u < n) -> (forall u, In u B -> u < n) ->
  weight_to (fun v => existsb (Nat.eqb v) B) (flat_map adj A) = weight_to (fun v => existsb (Nat.eqb v) A) (flat_map adj B).
Proof.
  intros NA NB HA HB. rewrite <- !weight_to_flat. rewrite (zsum_map_ext _ (fun u => zsum (map (fun b => weight_to (Nat.eqb b) (adj u)) B))) by (intros u _; apply weight_to_members; exact NB).
  rewrite (zsum_map_ext (fun u => weight_to (fun v => existsb (Nat.eqb v) A) (adj u)) (fun u => zsum (map (fun a => weight_to (Nat.eqb a) (adj u)) A))) by (intros u _; apply weight_to_members; exact NA).
  rewrite zsum_swap. apply zsum_map_ext. intros b Hb. apply zsum_map_ext. intros a Ha. exact (rg_both _ _ _ HG a b (HA a Ha) (HB b Hb)).
Qed.
Lemma block_of_set s blk c u : good s blk -> c < num_sets s -> In u (nodes_of s c) -> nth u blk 0 = block_of s blk c.
Proof.
  intros Gd Hc Hu. unfold block_of. destruct (co_block _ _ _ _ _ _ _ (go_con _ _ Gd) (nodes_of s c) u (nth (nth c (ms_idx s) 0) (ms_nodes s) 0)); [apply sets_in; exists c; auto|exact Hu| |reflexivity].
  unfold nodes_of in *. destruct (nth (S c) (ms_idx s) 0 - nth c (ms_idx s) 0) as [|m]; [destruct Hu|]. left. reflexivity.
Qed.
Lemma set_good s blk c to : good s blk -> c < num_sets s -> to < k -> good (fst (perform d k (s, blk) (OwnSet c to))) (snd (perform d k (s, blk) (OwnSet c to))).
Proof.
  intros Gd Hc Ht. cbn [perform fst snd]. set (from := block_of s blk c).
  assert (Hin : forall u, In u (nodes_of s c) -> u < n) by (intros u Hu; apply (members s blk c u Gd Hc) in Hu; apply Hu).
  assert (Hne : nodes_of s c <> []) by (apply (co_nonempty _ _ _ _ _ _ _ (go_con _ _ Gd)), sets_in; exists c; auto).
  assert (Hf : from < k). { destruct (nodes_of s c) as [|u l] eqn:E; [contradiction|]. assert (Hu : In u (nodes_of s c)) by (rewrite E; left; reflexivity). unfold from. rewrite <- (block_of_set s blk c u Gd Hc Hu). apply (go_k _ _ Gd). specialize (Hin u ltac:(left; reflexivity)). lia. }
  assert (Hb : forall u, In u (nodes_of s c) -> u < length blk) by (intros u Hu; rewrite (go_blk _ _ Gd); specialize (Hin u Hu); lia).
  assert (ND : forall c', c' < num_sets s -> NoDup (nodes_of s c')) by (intros c' Hc'; apply (co_nodup _ _ _ _ _ _ _ (go_con _ _ Gd)), sets_in; exists c'; auto).
  apply (rebuild s (move_set d k s c from to) blk); try reflexivity; [exact Gd|apply add_all_length|apply set_blocks_length|..].
  - intros v Hv. rewrite set_blocks_nth by exact Hb. destruct (existsb _ _); [exact Ht|exact (go_k _ _ Gd v Hv)].
  - intros c' u v Hc' Hu Hv. rewrite !set_blocks_nth by exact Hb. destruct (Nat.eq_dec c' c) as [->|Ne].
    + rewrite (proj2 (mem_in u _) Hu), (proj2 (mem_in v _) Hv). reflexivity.
    + assert (D : forall x, In x (nodes_of s c') -> existsb (Nat.eqb x) (nodes_of s c) = false).
      { intros x Hx. destruct (existsb _ _) eqn:E; [|reflexivity]. apply mem_in in E. apply (members s blk c x Gd Hc) in E. apply (members s blk c' x Gd Hc') in Hx. destruct E as [_ E], Hx as [_ E']. rewrite E in E'. injection E' as E'. congruence. }
      rewrite (D u Hu), (D v Hv). rewrite (block_of_set s blk c' u Gd Hc' Hu), (block_of_set s blk c' v Gd Hc' Hv). reflexivity.
  - intros i b Hi Hbk. unfold conn, move_set. cbn [ms_conn]. rewrite add_all_nth by (pose proof (go_conn _ _ Gd); nia). fold (conn k s i b). rewrite (exact_conn s blk i b Gd Hi Hbk).
    rewrite flat_map_twice, weight_to_ups.
    rewrite (weight_diff (fun v => negb (existsb (Nat.eqb v) (nodes_of s i)) && (nth v (fold_left (fun l u => upd u to l) (nodes_of s c) blk) 0 =? b)) (fun v => negb (existsb (Nat.eqb v) (nodes_of s i)) && (nth v blk 0 =? b))
      ((1 - ind (Nat.eqb i c)) * (ind (Nat.eqb b to) - ind (Nat.eqb b from)))%Z (fun v => existsb (Nat.eqb v) (nodes_of s c))).
    + f_equal. rewrite (zsum_map_ext _ (fun e => ((1 - ind (Nat.eqb i c)) * (ind (Nat.eqb b to) - ind (Nat.eqb b from))) * pick (fun v => existsb (Nat.eqb v) (nodes_of s i)) e)%Z).
      * rewrite zsum_scale. f_equal. rewrite <- weight_to_pick. apply between; auto. intros u Hu. apply (members s blk i u Gd Hi) in Hu. apply Hu.
      * intros [v w] Hin'. pose proof (own_edges s blk c v w Gd Hc Hin') as Hv. cbn [fst snd]. unfold pick. cbn [fst snd]. rewrite Hghost.
        destruct (Nat.leb_spec n v) as [Gv|Ov].
        { destruct (existsb (Nat.eqb v) (nodes_of s i)) eqn:E; [apply mem_in in E; apply (members s blk i v Gd Hi) in E; lia|]. rewrite weight_to_pick. cbn. lia. }
        destruct (nth v (ms_of s) None) as [c'|] eqn:Ev.
        -- assert (Em : existsb (Nat.eqb v) (nodes_of s i) = (i =? c')).
           { destruct (existsb (Nat.eqb v) (nodes_of s i)) eqn:E; symmetry.
             - apply mem_in in E. apply (members s blk i v Gd Hi) in E. destruct E as [_ E]. apply Nat.eqb_eq. congruence.
             - apply Nat.eqb_neq. intros ->. assert (In v (nodes_of s c')) by (apply (members s blk c' v Gd Hi); auto). apply mem_in in H. congruence. }
           rewrite Em. destruct (Nat.eqb_spec c' c) as [->|Ne].
           ++ rewrite weight_to_pick. cbn [map zsum]. destruct (i =? c); cbn [ind]; lia.
           ++ rewrite two_ups by (auto; lia). destruct (Nat.eqb_spec i c') as [->|]; cbn [ind]; [|lia]. destruct (Nat.eqb_spec c' c); [contradiction|]. cbn [ind]. lia.
        -- destruct (existsb (Nat.eqb v) (nodes_of s i)) eqn:E; [apply mem_in in E; apply (members s blk i v Gd Hi) in E; destruct E; congruence|]. rewrite weight_to_pick. cbn. lia.
    + intros v w Hin'. rewrite set_blocks_nth by exact Hb. destruct (existsb (Nat.eqb v) (nodes_of s c)) eqn:Ec; [|cbn [ind]; lia].
      apply mem_in in Ec. assert (Ev : nth v blk 0 = from) by exact (block_of_set s blk c v Gd Hc Ec). rewrite Ev. cbn [ind]. rewrite (Nat.eqb_sym to b), (Nat.eqb_sym from b).
      destruct (Nat.eqb_spec i c) as [->|Ne].
      * rewrite (proj2 (mem_in v _) Ec). cbn. lia.
      * destruct (existsb (Nat.eqb v) (nodes_of s i)) eqn:E; [|cbn [negb andb ind]; lia]. apply mem_in in E. apply (members s blk i v Gd Hi) in E. apply (members s blk c v Gd Hc) in Ec. destruct E, Ec. congruence.
Qed.
Lemma ghost_good s blk g to : good s blk -> n <= g < n + gn -> to < k -> good (fst (perform d k (s, blk) (Ghost g to))) (snd (perform d k (s, blk) (Ghost g to))).
Proof.
  intros Gd Hg Ht. cbn [perform fst snd]. set (from := nth g blk 0). assert (Hf : from < k) by (apply (go_k _ _ Gd); lia).
  assert (Hown : forall c u, c < num_sets s -> In u (nodes_of s c) -> u < n) by (intros c u Hc Hu; apply (members s blk c u Gd Hc) in Hu; apply Hu).
  assert (Nt : forall v, nth v (upd g to blk) 0 = if v =? g then to else nth v blk 0).
  { intros v. destruct (Nat.eqb_spec v g) as [->|Ne]; [apply upd_nth_same; rewrite (go_blk _ _ Gd); lia|apply upd_nth_other; congruence]. }
  apply (rebuild s (move_ghost d k s g from to) blk); try reflexivity; [exact Gd|apply add_all_length|apply upd_length|..].
  - intros v Hv. rewrite Nt. destruct (v =? g); [exact Ht|exact (go_k _ _ Gd v Hv)].
  - intros c u v Hc Hu Hv. rewrite !Nt. pose proof (Hown c u Hc Hu). pose proof (Hown c v Hc Hv). destruct (Nat.eqb_spec u g), (Nat.eqb_spec v g); try lia. rewrite (block_of_set s blk c u Gd Hc Hu), (block_of_set s blk c v Gd Hc Hv). reflexivity.
  - intros i b Hi Hbk. unfold conn, move_ghost. cbn [ms_conn]. rewrite add_all_nth by (pose proof (go_conn _ _ Gd); nia). fold (conn k s i b). rewrite (exact_conn s blk i b Gd Hi Hbk). fold (range s (g - n)).
    rewrite (weight_diff (fun v => negb (existsb (Nat.eqb v) (nodes_of s i)) && (nth v (upd g to blk) 0 =? b)) (fun v => negb (existsb (Nat.eqb v) (nodes_of s i)) && (nth v blk 0 =? b)) (ind (Nat.eqb b to) - ind (Nat.eqb b from))%Z (Nat.eqb (n + (g - n)))).
    + f_equal. rewrite <- (go_ghost _ _ Gd (g - n) i) by lia. rewrite weight_to_ups. rewrite (zsum_map_ext _ (fun e => (ind (Nat.eqb b to) - ind (Nat.eqb b from)) * pick (Nat.eqb i) e)%Z); [rewrite zsum_scale, <- weight_to_pick; reflexivity|].
      intros [c w] _. cbn [fst snd]. rewrite two_ups by (auto; lia). unfold pick. cbn [fst snd]. destruct (i =? c); cbn [ind]; lia.
    + intros v w Hin. rewrite Nt. replace (n + (g - n)) with g by lia. rewrite (Nat.eqb_sym g v). destruct (Nat.eqb_spec v g) as [->|Ne]; [|cbn [ind]; lia].
      destruct (existsb (Nat.eqb g) (nodes_of s i)) eqn:E; [apply mem_in in E; specialize (Hown i g Hi E); lia|]. cbn [negb andb]. fold from. rewrite (Nat.eqb_sym to b), (Nat.eqb_sym from b). cbn [ind]. lia.
Qed.
Definition allowed (s : sets) (m : move) : Prop := match m with OwnSet c to => c < num_sets s /\ to < k | Ghost g to => n <= g < n + gn /\ to < k end.
Theorem moves_good ms : forall s blk, good s blk -> (forall m, In m ms -> allowed s m) -> let r := perform_all d k ms (s, blk) in good (fst r) (snd r) /\ sets_of (fst r) = sets_of s.
Proof.
  induction ms as [|m ms IH]; intros s blk Gd Hm; cbv zeta; [split; [exact Gd|reflexivity]|]. cbn [perform_all fold_left].
  assert (G1 : good (fst (perform d k (s, blk) m)) (snd (perform d k (s, blk) m))).
  { specialize (Hm m (or_introl eq_refl)). destruct m as [c to|g to]; destruct Hm; [apply set_good|apply ghost_good]; assumption. }
  assert (E1 : sets_of (fst (perform d k (s, blk) m)) = sets_of s) by (destruct m; reflexivity).
  destruct (perform d k (s, blk) m) as [s1 blk1] eqn:E. cbn [fst snd] in *. specialize (IH s1 blk1 G1). cbv zeta in IH. destruct IH as [A B].
  - intros m' Hm'. specialize (Hm m' (or_intror Hm')). assert (Hn : num_sets s1 = num_sets s) by (rewrite <- !sets_len, E1; reflexivity). destruct m'; cbn [allowed] in *; rewrite ?Hn; exact Hm.
  - split; [exact A|]. unfold perform_all in *. rewrite B. exact E1.
Qed.
End Moves.
