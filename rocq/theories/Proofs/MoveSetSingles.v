(* Move sets: singleton sets are consistent; gains. *)
From Coq Require Import Sorting.Sorted.
From Verif Require Import Lib.Prelude Model.DistGraphModel Model.HemModel Model.MoveSetModel Spec.MoveSetSpec Proofs.MoveSetMoves Proofs.MoveSetGhosts.

Section Singles.
Variables (d : dcsr) (k : nat) (over : nat -> bool) (blk : list nat).
Notation n := (dn d).
Notation gn := (dghost_n d).
Notation adj := (row d).
Hypothesis HG : rank_graph n gn adj.
Hypothesis HB : length blk = n + gn.
Hypothesis HK : forall v, v < n + gn -> nth v blk 0 < k.
Definition sinv (m : nat) (s : building) : Prop :=
  length (bu_of s) = m /\ length (bu_nodes s) = bu_next s /\ bu_idx s = seq 0 (bu_next s) /\ length (bu_conn s) = bu_next s * k /\
  (forall u c, nth u (bu_of s) None = Some c -> c < bu_next s /\ nth c (bu_nodes s) 0 = u) /\
  (forall c, c < bu_next s -> nth c (bu_nodes s) 0 < m /\ nth (nth c (bu_nodes s) 0) (bu_of s) None = Some c) /\
  (forall u, u < m -> (nth u (bu_of s) None <> None <-> over (nth u blk 0) = true)) /\
  (forall c b, c < bu_next s -> b < k -> nth (c * k + b) (bu_conn s) 0%Z = weight_to (fun v => nth v blk 0 =? b) (adj (nth c (bu_nodes s) 0))).
Lemma conn_row c b es : b < k -> (forall v w, In (v, w) es -> nth v blk 0 < k) -> forall c', weight_to (Nat.eqb (c * k + b)) (map (fun e : nat * Z => (c' * k + nth (fst e) blk 0, snd e)) es) = if c =? c' then weight_to (fun v => nth v blk 0 =? b) es else 0%Z.
Proof.
  intros Hb He c'. rewrite !weight_to_pick, map_map. unfold pick. cbn [fst snd]. destruct (Nat.eqb_spec c c') as [<-|Ne].
  - apply zsum_map_ext. intros [v w] Hin. cbn [fst snd]. rewrite cell_eqb by (auto; exact (He v w Hin)). rewrite Nat.eqb_refl. cbn [andb]. rewrite (Nat.eqb_sym b). reflexivity.
  - rewrite (zsum_map_ext _ (fun _ => 0%Z)); [apply zsum_map_0|]. intros [v w] Hin. cbn [fst snd]. rewrite cell_eqb by (auto; exact (He v w Hin)). apply Nat.eqb_neq in Ne. rewrite Ne. reflexivity.
Qed.
Lemma sinv_all m : m <= n -> sinv m (fold_left (singleton_step d k over blk) (seq 0 m) (Building [] [] [] [] 0)).
Proof.
  induction m as [|m IH]; intros Hm.
  - unfold sinv. cbn. repeat split; try reflexivity; intros; try lia; destruct u; discriminate.
  - rewrite seq_S, fold_left_app. cbn [fold_left Nat.add]. specialize (IH ltac:(lia)). set (s := fold_left _ (seq 0 m) _) in *. destruct IH as (A & B & C & D & E & F & G & H). unfold singleton_step.
    destruct (over (nth m blk 0)) eqn:Eo; unfold sinv; cbn [bu_of bu_nodes bu_idx bu_conn bu_next].
    + assert (Hn : forall c, c < bu_next s -> nth c (bu_nodes s ++ [m]) 0 = nth c (bu_nodes s) 0) by (intros c Hc; apply app_nth1; lia).
      assert (Hl : nth (bu_next s) (bu_nodes s ++ [m]) 0 = m) by (rewrite app_nth2 by lia; rewrite B, Nat.sub_diag; reflexivity).
      split; [rewrite app_length; cbn; lia|]. split; [rewrite app_length; cbn; lia|]. split; [rewrite seq_S, C; reflexivity|]. split; [rewrite add_all_length, app_length, repeat_length; lia|]. repeat split.
      * destruct (Nat.lt_ge_cases u m) as [L|L]; [rewrite app_nth1 in H0 by lia; apply E in H0; lia|]. rewrite app_nth2 in H0 by lia. destruct (u - length (bu_of s)) as [|[|x]]; cbn in H0; [injection H0 as <-; lia|discriminate|discriminate].
      * destruct (Nat.lt_ge_cases u m) as [L|L]; [rewrite app_nth1 in H0 by lia; apply E in H0; rewrite Hn by lia; apply H0|]. rewrite app_nth2 in H0 by lia. destruct (u - length (bu_of s)) as [|[|x]] eqn:Ex; cbn in H0; [injection H0 as <-|discriminate|discriminate]. rewrite Hl. lia.
      * destruct (Nat.eq_dec c (bu_next s)) as [->|]; [rewrite Hl; lia|]. rewrite Hn by lia. specialize (F c ltac:(lia)). lia.
      * destruct (Nat.eq_dec c (bu_next s)) as [->|]; [rewrite Hl, app_nth2 by lia; rewrite A, Nat.sub_diag; reflexivity|]. rewrite Hn by lia. specialize (F c ltac:(lia)). rewrite app_nth1 by lia. apply F.
      * intros Hx. destruct (Nat.eq_dec u m) as [->|]; [exact Eo|]. apply G; [lia|]. rewrite app_nth1 in Hx by lia. exact Hx.
      * intros Ho. destruct (Nat.eq_dec u m) as [->|]; [rewrite app_nth2 by lia; rewrite A, Nat.sub_diag; discriminate|]. rewrite app_nth1 by lia. apply G; [lia|exact Ho].
      * intros c b Hc Hb. rewrite add_all_nth by (rewrite app_length, repeat_length; nia). rewrite conn_row; [|exact Hb|intros v w Hin; apply HK; exact (proj1 (rg_known _ _ _ HG m v w ltac:(lia) Hin))].
        destruct (Nat.eqb_spec c (bu_next s)) as [->|Ne].
        -- rewrite Hl, app_nth2 by lia. rewrite nth_repeat. lia.
        -- rewrite Hn by lia. rewrite app_nth1 by nia. rewrite (H c b) by lia. lia.
    + split; [rewrite app_length; cbn; lia|]. split; [exact B|]. split; [exact C|]. split; [exact D|]. repeat split.
      * destruct (Nat.lt_ge_cases u m) as [L|L]; [rewrite app_nth1 in H0 by lia; apply E in H0; lia|]. rewrite app_nth2 in H0 by lia. destruct (u - length (bu_of s)) as [|[|x]]; discriminate.
      * destruct (Nat.lt_ge_cases u m) as [L|L]; [rewrite app_nth1 in H0 by lia; apply E in H0; apply H0|]. rewrite app_nth2 in H0 by lia. destruct (u - length (bu_of s)) as [|[|x]]; discriminate.
      * specialize (F c ltac:(lia)). lia.
      * specialize (F c ltac:(lia)). rewrite app_nth1 by lia. apply F.
      * intros Ho. destruct (Nat.eq_dec u m) as [->|]; [rewrite app_nth2 in Ho by lia; rewrite A, Nat.sub_diag in Ho; cbn in Ho; congruence|]. apply G; [lia|]. rewrite app_nth1 in Ho by lia. exact Ho.
      * intros Ho. destruct (Nat.eq_dec u m) as [->|]; [congruence|]. rewrite app_nth1 by lia. apply G; [lia|exact Ho].
      * exact H.
Qed.
Lemma single_nodes c : let b := singletons d k over blk in c < num_sets (as_sets b) -> nodes_of (as_sets b) c = [nth c (bu_nodes b) 0].
Proof.
  cbv zeta. intros Hc. destruct (sinv_all n (le_n _)) as (A & B & C & D & E & F & G & H). unfold singletons in *. set (s := fold_left _ (seq 0 n) _) in *. unfold num_sets, nodes_of, as_sets in *. cbn [bu_of bu_nodes bu_idx bu_conn bu_next ms_idx ms_nodes] in *.
  rewrite C in *. replace (seq 0 (bu_next s) ++ [bu_next s]) with (seq 0 (S (bu_next s))) in * by apply seq_S. rewrite seq_length in Hc. rewrite !seq_nth by lia. cbn [Nat.add]. replace (S c - c) with 1 by lia. reflexivity.
Qed.
Lemma single_num : num_sets (as_sets (singletons d k over blk)) = bu_next (singletons d k over blk).
Proof. destruct (sinv_all n (le_n _)) as (A & B & C & D & E & F & G & H). unfold singletons, num_sets, as_sets. cbn [bu_idx ms_idx bu_next]. rewrite C, app_length, seq_length. cbn. lia. Qed.
Theorem singles_good s : constructed d (singletons d k over blk) s -> good d k s blk /\ forall u, u < n -> (nth u (ms_of s) None <> None <-> over (nth u blk 0) = true).
Proof.
  intros Hs. destruct (sinv_all n (le_n _)) as (A & B & C & D & E & F & G & H). pose proof single_num as N. pose proof single_nodes as SN. cbv zeta in SN. split.
  - apply (constructed_good d k HG (singletons d k over blk) s blk Hs); [..|exact HB|exact HK].
    + intros c u Hc Hu. rewrite SN in Hu by exact Hc. destruct Hu as [<-|[]]. rewrite N in Hc. exact (proj1 (F c Hc)).
    + constructor.
      * intros l Hl. apply sets_in in Hl. destruct Hl as (c & Hc & ->). rewrite SN by exact Hc. discriminate.
      * intros l Hl. apply sets_in in Hl. destruct Hl as (c & Hc & ->). rewrite SN by exact Hc. repeat constructor. intros [].
      * intros c u Hc. rewrite sets_len in Hc. rewrite sets_nth, SN by exact Hc. rewrite N in Hc. destruct (F c Hc) as [F1 F2]. split.
        -- intros [<-|[]]. split; [exact F1|exact F2].
        -- intros [Hu Ho]. apply E in Ho. left. apply Ho.
      * intros u c Hu Ho. rewrite sets_len, N. apply E in Ho. apply Ho.
      * intros l u v Hl Hu Hv. apply sets_in in Hl. destruct Hl as (c & Hc & ->). rewrite SN in Hu, Hv by exact Hc. destruct Hu as [<-|[]], Hv as [<-|[]]. reflexivity.
      * intros c b Hc Hb. rewrite sets_len in Hc. rewrite sets_nth, SN by exact Hc. cbn [map zsum]. rewrite N in Hc. unfold conn. cbn [as_sets ms_conn]. etransitivity; [exact (H c b Hc Hb)|]. rewrite Z.add_0_r, !weight_to_pick. apply zsum_map_ext. intros [v w] Hin. unfold pick. cbn [fst snd existsb].
        destruct (F c Hc) as [F1 F2]. destruct (rg_known _ _ _ HG _ v w F1 Hin) as (_ & _ & Hne). apply Nat.eqb_neq in Hne. unfold singletons. cbn [bu_nodes]. rewrite Hne. reflexivity.
    + rewrite N. unfold singletons. cbn [bu_conn bu_next]. lia.
  - intros u Hu. destruct Hs as (ts & junk & _ & _ & _ & ->). cbn [ms_of]. exact (G u Hu).
Qed.
End Singles.

Section Gains.
Variables (d : dcsr) (k : nat).
Notation n := (dn d).
Notation gn := (dghost_n d).
Notation adj := (row d).
Hypothesis HG : rank_graph n gn adj.
Theorem gain_exact s blk c to : good d k s blk -> c < num_sets s -> to < k ->
  gain k s blk c to = (cut_of adj (fun u => nth u blk 0%nat) (nodes_of s c) - cut_of adj (moved (nodes_of s c) to (fun u => nth u blk 0%nat)) (nodes_of s c))%Z.
Proof.
  intros Gd Hc Ht. assert (Hne : nodes_of s c <> []) by (apply (co_nonempty _ _ _ _ _ _ _ (go_con _ _ _ _ Gd)), sets_in; exists c; auto).
  assert (Hf : block_of s blk c < k). { destruct (nodes_of s c) as [|u l] eqn:El; [contradiction|]. assert (Hu : In u (nodes_of s c)) by (rewrite El; left; reflexivity). rewrite <- (block_of_set d k s blk c u Gd Hc Hu). apply (go_k _ _ _ _ Gd). apply (members d k s blk c u Gd Hc) in Hu. lia. }
  unfold gain, cut_of. rewrite (exact_conn d k s blk c to Gd Hc Ht), (exact_conn d k s blk c _ Gd Hc Hf). rewrite <- !weight_to_flat.
  set (A := nodes_of s c) in *.
  set (p1 := fun v => negb (existsb (Nat.eqb v) A) && (nth v blk 0 =? to)). set (p2 := fun v => negb (existsb (Nat.eqb v) A) && (nth v blk 0 =? block_of s blk c)).
  set (p3 := fun u v : nat => negb (nth v blk 0 =? nth u blk 0)). set (p4 := fun u v : nat => negb (moved A to (fun u => nth u blk 0) v =? moved A to (fun u => nth u blk 0) u)).
  change ((zsum (map (fun u => weight_to p1 (adj u)) A) - zsum (map (fun u => weight_to p2 (adj u)) A) = zsum (map (fun u => weight_to (p3 u) (adj u)) A) - zsum (map (fun u => weight_to (p4 u) (adj u)) A))%Z).
  assert (P : forall l, (forall u, In u l -> In u A) -> (zsum (map (fun u => weight_to p1 (adj u)) l) - zsum (map (fun u => weight_to p2 (adj u)) l) = zsum (map (fun u => weight_to (p3 u) (adj u)) l) - zsum (map (fun u => weight_to (p4 u) (adj u)) l))%Z); [|apply P; auto].
  induction l as [|u l IH]; intros Hl; [reflexivity|]. cbn [map zsum]. specialize (IH ltac:(intros; apply Hl; right; assumption)).
  assert (Hu : In u A) by (apply Hl; left; reflexivity). assert (Eu : nth u blk 0 = block_of s blk c) by exact (block_of_set d k s blk c u Gd Hc Hu).
  assert (Q : forall es, (weight_to p1 es - weight_to p2 es = weight_to (p3 u) es - weight_to (p4 u) es)%Z); [|specialize (Q (adj u)); lia].
  induction es as [|[v w] es IHe]; [reflexivity|]. rewrite !weight_to_pick in *. cbn [map zsum].
  assert (R : (pick p1 (v, w) - pick p2 (v, w) = pick (p3 u) (v, w) - pick (p4 u) (v, w))%Z); [|lia].
  unfold pick, p1, p2, p3, p4, moved. cbn [fst snd]. rewrite (proj2 (mem_in u A) Hu), Eu. destruct (existsb (Nat.eqb v) A) eqn:Ev.
  - apply mem_in in Ev. assert (Ew : nth v blk 0 = block_of s blk c) by exact (block_of_set d k s blk c v Gd Hc Ev). rewrite Ew, !Nat.eqb_refl. reflexivity.
  - cbn [negb andb]. destruct (nth v blk 0 =? to), (nth v blk 0 =? block_of s blk c); cbn [negb]; lia.
Qed.
End Gains.
