(* Proofs about the re-assignment of isolated nodes to blocks. *)
From Verif Require Import Lib.Prelude Lib.Count Spec.Graph Model.CsrModel Model.PermModel Proofs.GraphFacts Proofs.CsrProofs.

Lemma skip_full_spec k maxw w bw : forall fuel b, b < k -> k - b <= fuel ->
  let r := skip_full fuel k maxw w bw b in
  b <= r < k /\ (S r = k \/ (nth r bw 0 + w <= maxw r)%Z) /\
  forall j, b <= j < r -> (maxw j < nth j bw 0 + w)%Z.
Proof.
  induction fuel; intros b Hb Hf; [lia|]. cbn [skip_full].
  destruct (Nat.ltb_spec (b + 1) k); cbn [andb].
  - destruct (Z.ltb_spec (maxw b) (nth b bw 0 + w)%Z).
    + destruct (IHfuel (S b) ltac:(lia) ltac:(lia)) as (A & B & C). split; [lia|]. split; auto.
      intros j Hj. destruct (Nat.eq_dec j b) as [->|]; auto. apply C. lia.
    + split; [lia|]. split; auto. intros; lia.
  - split; [lia|]. split; [left; lia|]. intros; lia.
Qed.

Definition received (bs : list nat) (ws : list Z) (j : nat) : Z :=
  zsum (map snd (filter (fun p => fst p =? j) (combine bs ws))).
Lemma received_cons b bs w ws j : received (b :: bs) (w :: ws) j = ((if Nat.eqb b j then w else 0) + received bs ws j)%Z.
Proof. unfold received. simpl. destruct (Nat.eqb b j); simpl; lia. Qed.

Lemma assign_loop_account k maxw : forall ws b bw, b < k -> length bw = k ->
  let r := assign_isolated_loop k maxw ws b bw in
  length (fst r) = length ws /\ (forall x, In x (fst r) -> b <= x < k) /\ length (snd r) = k /\
  (forall j, j < k -> nth j (snd r) 0%Z = (nth j bw 0 + received (fst r) ws j)%Z).
Proof.
  induction ws as [|w ws IH]; intros b bw Hb Hl; simpl.
  - split; auto. split; [intros ? []|]. split; auto. intros; unfold received; simpl; lia.
  - destruct (skip_full_spec k maxw w bw k b Hb ltac:(lia)) as (A & _).
    set (b' := skip_full k k maxw w bw b) in *.
    destruct (IH b' (upd b' (nth b' bw 0 + w)%Z bw) ltac:(lia) ltac:(rewrite upd_length; auto)) as (L1 & R1 & L2 & N1).
    destruct (assign_isolated_loop k maxw ws b' _) as [bs bw2]. cbn [fst snd] in *.
    split; [simpl; lia|]. split.
    { intros x [<-|Hx]; [lia|]. specialize (R1 x Hx). lia. }
    split; auto. intros j Hj. rewrite N1 by auto. rewrite received_cons, upd_nth.
    destruct (Nat.eqb_spec b' j) as [<-|]; cbn [andb].
    + destruct (Nat.ltb_spec b' (length bw)); lia.
    + lia.
Qed.

(** Blocks other than the last one never get overloaded, whatever the weights. *)
Lemma assign_loop_nonlast k maxw : forall ws b bw, b < k -> length bw = k ->
  forall j, S j < k -> (nth j bw 0 <= maxw j)%Z -> (nth j (snd (assign_isolated_loop k maxw ws b bw)) 0 <= maxw j)%Z.
Proof.
  induction ws as [|w ws IH]; intros b bw Hb Hl j Hj Hle; simpl; auto.
  destruct (skip_full_spec k maxw w bw k b Hb ltac:(lia)) as (A & B & _).
  set (b' := skip_full k k maxw w bw b) in *.
  specialize (IH b' (upd b' (nth b' bw 0 + w)%Z bw) ltac:(lia) ltac:(rewrite upd_length; auto) j Hj).
  destruct (assign_isolated_loop k maxw ws b' _) as [bs bw2]. cbn [fst snd] in *.
  apply IH. rewrite upd_nth. destruct (Nat.eqb_spec b' j) as [E|]; cbn [andb]; auto.
  destruct (Nat.ltb_spec b' (length bw)); auto. destruct B as [B|B]; [lia|]. rewrite <- E. lia.
Qed.

(** Unit weights: no block gets overloaded if everything fits. *)
Lemma assign_loop_unit k maxw : forall ws b bw, b < k -> length bw = k ->
  (forall w, In w ws -> w = 1%Z) -> (forall j, j < k -> (nth j bw 0 <= maxw j)%Z) ->
  (forall j, j < b -> nth j bw 0%Z = maxw j) ->
  (zsum ws + zsum bw <= sumn k maxw)%Z ->
  forall j, j < k -> (nth j (snd (assign_isolated_loop k maxw ws b bw)) 0 <= maxw j)%Z.
Proof.
  induction ws as [|w ws IH]; intros b bw Hb Hl Hw Hle Hfull Hcap j Hj; cbn [assign_isolated_loop]; auto.
  assert (w = 1%Z) as -> by (apply Hw; simpl; auto).
  destruct (skip_full_spec k maxw 1 bw k b Hb ltac:(lia)) as (A & B & C).
  set (b' := skip_full k k maxw 1 bw b) in *.
  assert (forall j, j < b' -> nth j bw 0%Z = maxw j) as Hfull'.
  { intros i Hi. destruct (Nat.lt_ge_cases i b); auto. specialize (C i ltac:(lia)). specialize (Hle i ltac:(lia)). lia. }
  assert (nth b' bw 0 + 1 <= maxw b')%Z as Hfit.
  { destruct B as [B|B]; auto.
    assert (zsum bw = sumn k (fun i => nth i bw 0%Z)) as E by (rewrite <- Hl, sumn_list; auto).
    rewrite <- B in E, Hcap. rewrite sumn_S in E, Hcap. cbn [zsum] in Hcap.
    assert (0 <= zsum ws)%Z by (apply zsum_nonneg; intros x Hx; rewrite (Hw x) by (simpl; auto); lia).
    rewrite (sumn_ext b' (fun i => nth i bw 0%Z) maxw) in E by auto. lia. }
  specialize (IH b' (upd b' (nth b' bw 0 + 1)%Z bw) ltac:(lia) ltac:(rewrite upd_length; auto)).
  destruct (assign_isolated_loop k maxw ws b' _) as [bs bw2]. cbn [fst snd] in *.
  apply IH; auto.
  - intros; apply Hw; simpl; auto.
  - intros i Hi. rewrite upd_nth. destruct (Nat.eqb_spec b' i) as [<-|]; cbn [andb]; auto. destruct (Nat.ltb_spec b' (length bw)); auto.
  - intros i Hi. rewrite upd_nth_other by lia. auto.
  - rewrite zsum_upd by lia. cbn [zsum] in Hcap. lia.
Qed.

Lemma received_sum bs : forall ws j, length bs = length ws ->
  received bs ws j = sumn (length ws) (fun i => if nth i bs 0 =? j then nth i ws 0%Z else 0%Z).
Proof.
  induction bs as [|b bs IH]; intros [|w ws] j H; try discriminate; auto.
  rewrite received_cons, IH by (simpl in H; lia). unfold sumn. cbn [length seq map zsum]. cbn [nth].
  rewrite <- seq_shift, map_map. auto.
Qed.

(** The whole operation on a graph with [n'] non-isolated nodes. *)
Lemma assign_isolated_account g k part bw n' maxw :
  0 < k -> n' <= cg_n g -> length bw = k -> n' <= length part ->
  (forall b, b < k -> nth b bw 0%Z = block_weight (prefix_graph n' (cg_graph g)) (fun u => nth u part 0) b) ->
  (forall u, u < n' -> nth u part 0 < k) ->
  let part' := assign_isolated_nodes g k part bw (cg_n g - n') maxw in
  let bw' := snd (assign_isolated_loop k maxw (map (cg_node_weight g) (seq n' (cg_n g - n'))) 0 bw) in
  length part' = cg_n g /\ (forall u, u < n' -> nth u part' 0 = nth u part 0) /\
  (forall u, u < cg_n g -> nth u part' 0 < k) /\
  (forall b, b < k -> block_weight (cg_graph g) (fun u => nth u part' 0) b = nth b bw' 0%Z).
Proof.
  intros Hk Hn Hl Hp Hbw Hlt. unfold assign_isolated_nodes.
  replace (cg_n g - (cg_n g - n')) with n' by lia.
  set (ws := map (cg_node_weight g) (seq n' (cg_n g - n'))).
  assert (length ws = cg_n g - n') as Lws by (unfold ws; rewrite map_length, seq_length; auto).
  destruct (assign_loop_account k maxw ws 0 bw Hk Hl) as (L1 & R1 & L2 & N1).
  destruct (assign_isolated_loop k maxw ws 0 bw) as [bs bw2]. cbn [fst snd] in *.
  assert (length (firstn n' part) = n') as Lf by (rewrite firstn_length; lia).
  split. { rewrite app_length, Lf. lia. }
  assert (forall u, u < n' -> nth u (firstn n' part ++ bs) 0 = nth u part 0) as Hlow.
  { intros u Hu. rewrite app_nth1 by lia. apply nth_firstn_lt; auto. }
  assert (forall u, nth (n' + u) (firstn n' part ++ bs) 0 = nth u bs 0) as Hhigh.
  { intros u. rewrite app_nth2 by lia. f_equal. lia. }
  split; auto. split.
  - intros u Hu. destruct (Nat.lt_ge_cases u n').
    + rewrite Hlow by auto. auto.
    + replace u with (n' + (u - n')) by lia. rewrite Hhigh. apply R1. apply nth_In. lia.
  - intros b Hb. rewrite N1 by auto. rewrite Hbw by auto. unfold block_weight. cbn [gn gvw cg_graph prefix_graph].
    replace (cg_n g) with (n' + (cg_n g - n')) at 1 by lia. rewrite sumn_split. f_equal.
    + apply sumn_ext. intros u Hu. rewrite Hlow by auto. auto.
    + rewrite received_sum by lia. rewrite Lws. apply sumn_ext. intros u Hu. rewrite Hhigh. unfold ws.
      rewrite nth_map_seq by auto. auto.
Qed.

Lemma block_weight_as_part g p b : block_weight g p b = sumn (gn g) (fun u => if p u =? b then gvw g u else 0%Z).
Proof. reflexivity. Qed.

Lemma assign_isolated_balanced g k part bw n' maxw :
  0 < k -> n' <= cg_n g -> length bw = k -> n' <= length part ->
  (forall b, b < k -> nth b bw 0%Z = block_weight (prefix_graph n' (cg_graph g)) (fun u => nth u part 0) b) ->
  (forall u, u < n' -> nth u part 0 < k) ->
  (forall u, n' <= u < cg_n g -> cg_node_weight g u = 1%Z) ->
  (forall b, b < k -> (nth b bw 0 <= maxw b)%Z) ->
  (total_weight (cg_graph g) <= sumn k maxw)%Z ->
  forall b, b < k -> Z.le (block_weight (cg_graph g) (fun u => nth u (assign_isolated_nodes g k part bw (cg_n g - n') maxw) 0) b) (maxw b).
Proof.
  intros Hk Hn Hl Hp Hbw Hlt Hunit Hle Hcap b Hb.
  destruct (assign_isolated_account g k part bw n' maxw Hk Hn Hl Hp Hbw Hlt) as (_ & _ & _ & E).
  rewrite E by auto. apply assign_loop_unit; auto; try (intros; lia).
  - intros w Hw. apply in_map_iff in Hw as (u & <- & Hu). apply in_seq in Hu. apply Hunit. lia.
  - etransitivity; [|apply Hcap]. unfold total_weight. cbn [gn gvw cg_graph].
    replace (cg_n g) with (n' + (cg_n g - n')) at 2 by lia. rewrite sumn_split.
    assert (zsum bw = sumn n' (cg_node_weight g)) as ->.
    { rewrite <- (sumn_list bw), Hl. rewrite (sumn_ext k _ _ Hbw).
      rewrite (block_weights_total (prefix_graph n' (cg_graph g)) (fun u => nth u part 0) k); auto. }
    assert (zsum (map (cg_node_weight g) (seq n' (cg_n g - n'))) = sumn (cg_n g - n') (fun i => cg_node_weight g (n' + i))) as ->; [|lia].
    unfold sumn. f_equal. rewrite <- (map_map (fun i => n' + i) (cg_node_weight g)). f_equal.
    clear. generalize (cg_n g - n') as c. intros c. revert n'. induction c; intros n'; auto.
    cbn [seq map]. f_equal; [lia|]. rewrite IHc. rewrite <- seq_shift, map_map. apply map_ext. intros; lia.
Qed.
