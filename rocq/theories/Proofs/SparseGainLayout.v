(* Layout of the sparse gain cache: the parts of the nodes lie one behind the other. *)
From Verif Require Import Lib.Prelude Spec.Graph Spec.Gain Spec.SparseGainSpec Model.MathModel Model.CompactHashModel Model.GainModel Model.SparseGainModel
  Proofs.MathProofs.

Lemma list_sum_seq_const c f a n : (forall x, a <= x < a + n -> f x = c) -> list_sum (map f (seq a n)) = n * c.
Proof.
  revert a. induction n as [|n IH]; intros a H; [reflexivity|]. cbn [seq map list_sum fold_right]. unfold list_sum in IH. rewrite IH by (intros; apply H; lia). rewrite H by lia. lia.
Qed.
Lemma list_sum_seq_split f a b : a <= b -> list_sum (map f (seq 0 b)) = list_sum (map f (seq 0 a)) + list_sum (map f (seq a (b - a))).
Proof. intros H. rewrite <- list_sum_app, <- map_app, <- seq_app. repeat f_equal. lia. Qed.
Lemma cells_eq b : b <= 30 -> sg_cells b = Some (2 ^ b).
Proof.
  intros H. unfold sg_cells, lowest_degree_in_bucket. destruct (N.ltb_spec (N.of_nat (S b)) 32); [|lia]. cbn [option_map]. f_equal.
  rewrite N.mod_small by (apply N.pow_lt_mono_r; lia). rewrite Nat2N.inj_succ, N.pow_succ_r', N.mul_comm, N.div_mul by lia. 
  rewrite N2Nat.inj_pow, Nat2N.id. reflexivity.
Qed.

Section Layout.
Variables (g : graph) (k : nat) (bk : nat -> nat) (nb thr : nat).
Notation n := (gn g).
Notation deg u := (length (gadj g u)).

(** The bucket of a node. *)
Fixpoint bs (m u : nat) : nat := match m with 0 => 0 | S m' => if bk m' <=? u then m' else bs m' u end.
Definition bucket (u : nat) : nat := bs nb u.

Section Sorted.
Hypothesis Hord : bucket_ordered g bk nb.

Lemma bk_mono a b : a <= b -> b <= nb -> bk a <= bk b.
Proof. destruct Hord as (_ & _ & M & _). intros H. induction H as [|b H IH]; intros Hb; [lia|]. etransitivity; [apply IH; lia|apply M; lia]. Qed.
Lemma bucket_spec u : u < n -> bucket u < nb /\ bk (bucket u) <= u < bk (S (bucket u)).
Proof.
  destruct Hord as (H0 & Hn & _ & _). intros Hu. unfold bucket. assert (Hlt : u < bk nb) by lia. clear Hn Hu.
  assert (Hpos : nb <> 0) by (intros E; rewrite E, H0 in Hlt; lia). clear Hord. revert Hlt Hpos. induction nb as [|m IH]; intros Hlt Hpos; [lia|]. cbn [bs].
  destruct (Nat.leb_spec (bk m) u) as [H|H]; [lia|]. destruct (Nat.eq_dec m 0) as [->|N]; [rewrite H0 in H; lia|]. destruct (IH H N). lia.
Qed.
Lemma bucket_unique u b : b < nb -> bk b <= u < bk (S b) -> u < n -> bucket u = b.
Proof.
  intros Hb H Hu. destruct (bucket_spec u Hu) as (A & B). destruct (Nat.lt_trichotomy (bucket u) b) as [C|[C|C]]; [|exact C|].
  - pose proof (bk_mono (S (bucket u)) b C ltac:(lia)). lia.
  - pose proof (bk_mono (S b) (bucket u) C ltac:(lia)). lia.
Qed.
Lemma bucket_deg u : u < n -> deg u < 2 ^ bucket u.
Proof.
  intros Hu. destruct (bucket_spec u Hu) as (A & B). destruct Hord as (_ & _ & _ & D). specialize (D _ _ A B). destruct (Nat.eqb_spec (bucket u) 0) as [->|]; [cbn; lia|lia].
Qed.

Definition cellsum (i : nat) : nat := list_sum (map (fun x => 2 ^ bucket x) (seq 0 (bk i))).
Lemma cellsum_S i : i < nb -> cellsum (S i) = cellsum i + sg_bsize bk i * 2 ^ i.
Proof.
  intros Hi. unfold cellsum, sg_bsize. pose proof (bk_mono i (S i) ltac:(lia) ltac:(lia)). rewrite (list_sum_seq_split _ (bk i) (bk (S i))) by lia. f_equal.
  rewrite (list_sum_seq_const (2 ^ i)); [lia|]. intros x Hx. f_equal. pose proof (bk_mono (S i) nb ltac:(lia) ltac:(lia)). destruct Hord as (_ & Hn & _). apply bucket_unique; lia.
Qed.

Hypothesis Hnb : nb <= 31.
Lemma loop_ok fuel : forall bt nt gc offs, bt <= nb -> nb - bt < fuel -> nt = bk bt -> gc = cellsum bt -> length offs = 33 ->
  (forall i, i < bt -> nth i offs 0 = cellsum i) -> (forall u, u < nt -> deg u < 2 * thr) ->
  exists bt' offs', sg_loop g bk thr fuel bt nt gc offs = Some (bt', bk bt', cellsum bt', offs') /\ bt' <= nb /\ length offs' = 33 /\
    (forall i, i <= bt' -> nth i offs' 0 = cellsum i) /\ (forall u, u < bk bt' -> deg u < 2 * thr).
Proof.
  induction fuel as [|fuel IH]; intros bt nt gc offs Hbt Hf En Eg Lo Ho Hd; [lia|]. cbn [sg_loop].
  destruct (Nat.ltb_spec nt n) as [C1|C1]; cbn [andb].
  - assert (Hlt : bt < nb). { destruct (Nat.eq_dec bt nb) as [E|]; [|lia]. destruct Hord as (_ & Hn & _). subst bt. lia. }
    destruct (Nat.ltb_spec (deg nt) thr) as [C2|C2].
    + rewrite (nth_error_nth' offs 0) by lia. rewrite cells_eq by lia. apply IH; try lia.
      * unfold sg_bsize. pose proof (bk_mono bt (S bt) ltac:(lia) ltac:(lia)). lia.
      * rewrite cellsum_S by exact Hlt. lia.
      * rewrite upd_length. exact Lo.
      * intros i Hi. destruct (Nat.eq_dec i bt) as [->|Ni]; [rewrite upd_nth_same by lia; exact Eg|rewrite upd_nth_other by auto; apply Ho; lia].
      * intros u Hu. destruct (Nat.lt_ge_cases u nt) as [|Hge]; [apply Hd; assumption|]. unfold sg_bsize in Hu. pose proof (bk_mono bt (S bt) ltac:(lia) ltac:(lia)) as Mo.
        destruct Hord as (_ & _ & _ & D). pose proof (D bt u Hlt ltac:(lia)) as Du. pose proof (D bt nt Hlt ltac:(lia)) as Dn. destruct (Nat.eqb_spec bt 0); [lia|].
        replace (2 ^ bt) with (2 * 2 ^ (bt - 1)) in Du by (rewrite <- Nat.pow_succ_r'; f_equal; lia). lia.
    + exists bt, (firstn bt offs ++ repeat gc (length offs - bt)). subst nt gc. split; [reflexivity|]. split; [exact Hbt|]. split; [rewrite app_length, firstn_length, repeat_length; lia|].
      split; [|exact Hd]. intros i Hi. destruct (Nat.eq_dec i bt) as [->|Ni].
      * rewrite app_nth2 by (rewrite firstn_length; lia). rewrite firstn_length. replace (bt - Nat.min bt (length offs)) with 0 by lia. rewrite Lo. destruct (33 - bt) eqn:E33; [lia|reflexivity].
      * rewrite app_nth1 by (rewrite firstn_length; lia). rewrite <- (Ho i) by lia. rewrite <- (firstn_skipn bt offs) at 2. rewrite app_nth1 by (rewrite firstn_length; lia). reflexivity.
  - exists bt, (firstn bt offs ++ repeat gc (length offs - bt)). subst nt gc. split; [reflexivity|]. split; [exact Hbt|]. split; [rewrite app_length, firstn_length, repeat_length; lia|].
    split; [|exact Hd]. intros i Hi. destruct (Nat.eq_dec i bt) as [->|Ni].
    + rewrite app_nth2 by (rewrite firstn_length; lia). rewrite firstn_length. replace (bt - Nat.min bt (length offs)) with 0 by lia. rewrite Lo. destruct (33 - bt) eqn:E33; [lia|reflexivity].
    + rewrite app_nth1 by (rewrite firstn_length; lia). rewrite <- (Ho i) by lia. rewrite <- (firstn_skipn bt offs) at 2. rewrite app_nth1 by (rewrite firstn_length; lia). reflexivity.
Qed.

(** find_bucket. *)
Lemma sum_bsize i : i <= nb -> list_sum (map (sg_bsize bk) (seq 0 i)) = bk i.
Proof.
  destruct Hord as (H0 & _ & M & _). induction i as [|i IH]; intros Hi; [symmetry; exact H0|]. rewrite seq_S, map_app, list_sum_app, IH by lia. cbn [map list_sum fold_right]. unfold sg_bsize. cbn [Nat.add]. pose proof (M i ltac:(lia)). lia.
Qed.
Lemma buckets_nth i : i < 33 -> nth_error (sg_buckets g bk nb) i = Some (if i <? nb then bk i else n).
Proof.
  intros Hi. unfold sg_buckets. rewrite (nth_error_nth' _ 0) by (rewrite map_length, seq_length; exact Hi). rewrite nth_map_seq by exact Hi. cbn [Nat.add].
  destruct (Nat.ltb_spec i nb); [|reflexivity]. rewrite sum_bsize by lia. reflexivity.
Qed.
Lemma probe_ok u b : u < n -> b <= bucket u -> sg_probe g bk nb u b = Some (if b <? bucket u then S b else b).
Proof.
  intros Hu Hb. destruct (bucket_spec u Hu) as (A & B). unfold sg_probe. rewrite buckets_nth by lia. destruct (Nat.ltb_spec b (bucket u)) as [C|C].
  - destruct (Nat.ltb_spec (S b) nb); [|lia]. pose proof (bk_mono (S b) (bucket u) C ltac:(lia)). destruct (Nat.leb_spec (bk (S b)) u); [reflexivity|lia].
  - assert (b = bucket u) by lia. subst b. destruct (Nat.ltb_spec (S (bucket u)) nb).
    + destruct (Nat.leb_spec (bk (S (bucket u))) u); [lia|reflexivity].
    + destruct (Nat.leb_spec n u); [lia|reflexivity].
Qed.
Lemma probes_ok u : u < n -> forall i b, b <= bucket u -> exists b', sg_probes g bk nb i u b = Some b' /\ b <= b' <= bucket u /\ (b < bucket u -> i <> 0 -> b < b').
Proof.
  intros Hu. induction i as [|i IH]; intros b Hb; cbn [sg_probes]; [exists b; split; [reflexivity|lia]|]. rewrite probe_ok by assumption.
  destruct (Nat.ltb_spec b (bucket u)) as [C|C].
  - destruct (IH (S b) C) as (b' & E & R & _). exists b'. split; [exact E|lia].
  - destruct (IH b Hb) as (b' & E & R & _). exists b'. split; [exact E|lia].
Qed.
Lemma find_loop_ok u : u < n -> forall fuel b, b <= bucket u -> bucket u - b < fuel -> sg_find_loop g bk nb fuel u b = Some (bucket u).
Proof.
  intros Hu. destruct (bucket_spec u Hu) as (A & B). induction fuel as [|fuel IH]; intros b Hb Hf; [lia|]. cbn [sg_find_loop].
  pose proof (probe_ok u b Hu Hb) as P. unfold sg_probe in P. destruct (nth_error (sg_buckets g bk nb) (S b)) as [x|]; [|discriminate].
  destruct (Nat.leb_spec x u) as [C|C]; injection P as P.
  - destruct (Nat.ltb_spec b (bucket u)) as [D|D]; [|lia]. destruct (probes_ok u Hu 8 b Hb) as (b' & E & R & S1). rewrite E. specialize (S1 D ltac:(lia)). apply IH; lia.
  - destruct (Nat.ltb_spec b (bucket u)) as [D|D]; [lia|]. f_equal. lia.
Qed.
Lemma find_bucket_ok u : u < n -> sg_find_bucket g bk nb u = Some (bucket u).
Proof. intros Hu. destruct (bucket_spec u Hu). apply find_loop_ok; lia. Qed.
End Sorted.

(** The part of a node: start and number of cells. *)
Variable sorted : bool.
Variable L : slayout.
Definition len (u : nat) : nat := if sl_nt L <=? u then k else 2 ^ bucket u.
Definition pos (u : nat) : nat := list_sum (map len (seq 0 u)).
Lemma pos_S u : pos (S u) = pos u + len u.
Proof. unfold pos. rewrite seq_S, map_app, list_sum_app. cbn [map list_sum fold_right Nat.add]. lia. Qed.
Lemma pos_mono a b : a <= b -> pos a <= pos b.
Proof. induction 1 as [|b H IH]; [lia|]. rewrite pos_S. lia. Qed.
Lemma pos_disjoint u v : u < v -> pos u + len u <= pos v.
Proof. intros H. rewrite <- pos_S. apply pos_mono. lia. Qed.

Definition layout_ok : Prop :=
  (forall u, u < n -> sl_nt L <= u -> forall b, sg_index_sparse k L u b = pos u + b) /\
  (forall u, u < n -> u < sl_nt L -> sg_index_dense g bk nb L u = Some (pos u, len u) /\ deg u < len u /\ deg u < 2 * thr) /\
  sl_size L = pos n /\ (sorted = false -> sl_nt L = 0).
Lemma pos_dense m : m <= sl_nt L -> pos m = list_sum (map (fun x => 2 ^ bucket x) (seq 0 m)).
Proof.
  intros H. unfold pos. f_equal. apply map_ext_in. intros x Hx. apply in_seq in Hx. unfold len. destruct (Nat.leb_spec (sl_nt L) x); [lia|reflexivity].
Qed.
Lemma pos_sparse u : sl_nt L <= u -> pos u = pos (sl_nt L) + (u - sl_nt L) * k.
Proof.
  intros H. unfold pos. rewrite (list_sum_seq_split len (sl_nt L) u H). f_equal. apply list_sum_seq_const. intros x Hx. unfold len. destruct (Nat.leb_spec (sl_nt L) x); [reflexivity|lia].
Qed.
Hypothesis Hl : (sorted = true -> bucket_ordered g bk nb /\ nb <= 31).
Hypothesis HL : exists junk, sg_layout g k sorted bk thr junk = Some L.

Theorem layout_ok_holds : layout_ok.
Proof.
  unfold layout_ok. destruct HL as (junk & E). unfold sg_layout in E. set (offs0 := upd 0 0 (firstn 33 (junk ++ repeat 0 33))) in E.
  assert (L0 : length offs0 = 33) by (unfold offs0; rewrite upd_length, firstn_length, app_length, repeat_length; lia).
  destruct sorted.
  - destruct (Hl eq_refl) as (Hord & Hnb). destruct (loop_ok Hord Hnb 34 0 0 0 offs0) as (bt & offs & El & Hb & Lo & Ho & Hd); try lia.
    { destruct Hord as (H0 & _). rewrite H0. reflexivity. }
    { unfold cellsum. destruct Hord as (H0 & _). rewrite H0. reflexivity. }
    rewrite El in E. rewrite (nth_error_nth' offs 0) in E by lia. assert (Hs : sl_nt L = bk bt /\ sl_offs L = offs /\ sl_sparse L = cellsum bt /\ sl_size L = cellsum bt + (n - bk bt) * k).
    { injection E as E. rewrite <- E. cbn [sl_nt sl_offs sl_sparse sl_size]. rewrite Ho by lia. repeat split. }
    destruct Hs as (E1 & E2 & E3 & E4). pose proof (bk_mono Hord bt nb Hb ltac:(lia)) as Mo. destruct (Hord) as (_ & Hn & _).
    assert (Ent : pos (sl_nt L) = cellsum bt) by (rewrite pos_dense, E1 by lia; reflexivity).
    split; [|split; [|split; [|discriminate]]].
    + intros u Hu Hge b. unfold sg_index_sparse. rewrite (pos_sparse u Hge), Ent, E3. reflexivity.
    + intros u Hu Hlt. destruct (bucket_spec Hord u Hu) as (A & B). assert (Hbt : bucket u < bt).
      { destruct (Nat.lt_ge_cases (bucket u) bt) as [|C]; [assumption|]. pose proof (bk_mono Hord bt (bucket u) C ltac:(lia)). lia. }
      assert (Elen : len u = 2 ^ bucket u) by (unfold len; destruct (Nat.leb_spec (sl_nt L) u); [lia|reflexivity]).
      unfold sg_index_dense. rewrite find_bucket_ok by assumption. rewrite cells_eq by lia. rewrite E2, (nth_error_nth' offs 0) by lia. rewrite Ho by lia.
      rewrite buckets_nth by (assumption || lia). destruct (Nat.ltb_spec (bucket u) nb); [|lia]. split; [|rewrite Elen; split; [apply bucket_deg; assumption|apply Hd; lia]].
      rewrite Elen. do 2 f_equal. rewrite pos_dense by lia. rewrite (list_sum_seq_split _ (bk (bucket u)) u) by lia. unfold cellsum. f_equal. symmetry. apply list_sum_seq_const.
      intros x Hx. f_equal. apply bucket_unique; try assumption; lia.
    + rewrite E4, (pos_sparse n) by lia. rewrite Ent, E1. reflexivity.
  - assert (Hs : sl_nt L = 0 /\ sl_sparse L = 0 /\ sl_size L = n * k).
    { destruct (nth_error offs0 0) as [o|] eqn:Eo; [|apply nth_error_None in Eo; lia].
      assert (o = 0). { apply (nth_error_nth offs0 0 0) in Eo. unfold offs0 in Eo. rewrite upd_nth_same in Eo by (rewrite firstn_length, app_length, repeat_length; lia). lia. }
      injection E as E. rewrite <- E. cbn [sl_nt sl_offs sl_sparse sl_size]. repeat split; lia. }
    destruct Hs as (E1 & E3 & E4). split; [|split; [|split; [|intros _; exact E1]]].
    + intros u Hu _ b. unfold sg_index_sparse. rewrite (pos_sparse u) by lia. rewrite E1, E3. reflexivity.
    + intros u Hu H. lia.
    + rewrite E4, (pos_sparse n) by lia. rewrite E1. cbn. lia.
Qed.
End Layout.

(** The layout is always computed. *)
Theorem layout_exists g k sorted bk nb thr junk : (sorted = true -> bucket_ordered g bk nb /\ nb <= 31) -> exists L, sg_layout g k sorted bk thr junk = Some L.
Proof.
  intros Hl. unfold sg_layout. set (offs0 := upd 0 0 (firstn 33 (junk ++ repeat 0 33))).
  assert (L0 : length offs0 = 33) by (unfold offs0; rewrite upd_length, firstn_length, app_length, repeat_length; lia).
  destruct sorted.
  - destruct (Hl eq_refl) as (Hord & Hnb). destruct (loop_ok g bk nb thr Hord Hnb 34 0 0 0 offs0) as (bt & offs & El & Hb & Lo & _); try lia.
    { destruct Hord as (H0 & _). rewrite H0. reflexivity. }
    { unfold cellsum. destruct Hord as (H0 & _). rewrite H0. reflexivity. }
    rewrite El, (nth_error_nth' offs 0) by lia. eexists. reflexivity.
  - rewrite (nth_error_nth' offs0 0) by lia. eexists. reflexivity.
Qed.
