(* The exchange of the extracted subgraphs: every rank gets the parts of its blocks from all ranks. *)
From Verif Require Import Lib.Prelude Model.GridModel Model.DistGraphModel Model.ReplicateModel Model.DistExtractModel Proofs.GridBase.

Lemma slice_mid {A} (l1 l2 l3 : list A) : slice (l1 ++ l2 ++ l3) (length l1) (length l2) = Some l2.
Proof.
  unfold slice. rewrite !app_length. destruct (Nat.leb_spec (length l1 + length l2) (length l1 + (length l2 + length l3))); [|lia]. f_equal.
  rewrite skipn_app, skipn_all, Nat.sub_diag. cbn [skipn app]. rewrite firstn_app, firstn_all, Nat.sub_diag. cbn [firstn]. apply app_nil_r.
Qed.
Lemma firstn_seq' a b n : firstn n (seq a b) = seq a (Nat.min n b).
Proof. revert a n. induction b as [|b IH]; intros a [|n]; cbn [seq firstn Nat.min]; try reflexivity. rewrite IH. reflexivity. Qed.
Lemma displs_concat {A} (h : nat -> list A) k j : j <= k -> nth_error (displs (map (fun b => length (h b)) (seq 0 k))) j = Some (length (concat (map h (seq 0 j)))).
Proof.
  intros H. rewrite displs_nth by (rewrite map_length, seq_length; exact H). f_equal. rewrite firstn_map, firstn_seq', Nat.min_l by exact H. rewrite length_concat, map_map. reflexivity.
Qed.
Lemma seq_split3 a n k : a + n <= k -> seq 0 k = seq 0 a ++ seq a n ++ seq (a + n) (k - a - n).
Proof. intros H. replace k with (a + (n + (k - a - n))) at 1 by lia. rewrite !seq_app. reflexivity. Qed.

Lemma slice_map_seq {X} (f : nat -> X) K a c : a + c <= K -> slice (map f (seq 0 K)) a c = Some (map f (seq a c)).
Proof.
  intros H. rewrite (seq_split3 a c K H), !map_app. pose proof (slice_mid (map f (seq 0 a)) (map f (seq a c)) (map f (seq (a + c) (K - a - c)))) as S. rewrite !map_length, !seq_length in S. exact S.
Qed.
Lemma combine_displs {X} l (h : nat -> X) : forall s a, combine (displs_from s l) (map h (seq a (length l))) = map (fun q => (s + list_sum (firstn (q - a) l), h q)) (seq a (length l)).
Proof.
  induction l as [|v t IH]; intros s a; [reflexivity|]. cbn [displs_from length seq map combine]. rewrite Nat.sub_diag. cbn [firstn list_sum fold_right]. f_equal; [f_equal; lia|].
  rewrite IH. apply map_ext_in. intros q Hq. apply in_seq in Hq. f_equal. replace (q - a) with (S (q - S a)) by lia. cbn [firstn]. unfold list_sum. cbn [fold_right]. lia.
Qed.

(** Writing one value to several places. *)
Lemma store_many {X} (v : X) ts : forall buf, (forall t, In t ts -> t < length buf) ->
  exists buf', fold_left (fun acc to => bind acc (store to v)) ts (Some buf) = Some buf' /\ length buf' = length buf /\
    forall t, (In t ts -> nth_error buf' t = Some v) /\ (~ In t ts -> nth_error buf' t = nth_error buf t).
Proof.
  induction ts as [|a r IH]; intros buf H; cbn [fold_left].
  - exists buf. split; [reflexivity|]. split; [reflexivity|]. intros t. split; [intros []|reflexivity].
  - cbn [bind]. unfold store at 2. assert (La : a < length buf) by (apply H; left; reflexivity). destruct (Nat.ltb_spec a (length buf)); [|lia].
    destruct (IH (upd a v buf)) as (buf' & E & L & D); [intros t Ht; rewrite upd_length; apply H; right; exact Ht|]. exists buf'. split; [exact E|]. rewrite upd_length in L. split; [exact L|].
    intros t. destruct (D t) as [D1 D2]. split.
    + intros [<-|Ht]; [|exact (D1 Ht)]. destruct (in_dec Nat.eq_dec a r) as [I|I]; [exact (D1 I)|]. rewrite (D2 I), upd_nth_error, Nat.eqb_refl. destruct (Nat.ltb_spec a (length buf)); [reflexivity|lia].
    + intros Ht. rewrite (D2 (fun C => Ht (or_intror C))), upd_nth_error. destruct (Nat.eqb_spec a t) as [->|N]; [exfalso; apply Ht; left; reflexivity|reflexivity].
Qed.

(** Lists for B blocks of every rank. *)
Section Flat.
Context {X : Type}.
Variable g : nat -> nat -> X.
Variables a B : nat.
Definition flat (P : nat) : list X := flat_map (fun q => map (fun i => g q (a + i)) (seq 0 B)) (seq 0 P).
Lemma flat_S P : flat (S P) = flat P ++ map (fun i => g P (a + i)) (seq 0 B).
Proof. unfold flat. rewrite seq_S, flat_map_app. cbn [flat_map Nat.add]. rewrite app_nil_r. reflexivity. Qed.
Lemma flat_length P : length (flat P) = P * B.
Proof. induction P as [|P IH]; [reflexivity|]. rewrite flat_S, app_length, IH, map_length, seq_length. lia. Qed.
Lemma flat_firstn P q : q <= P -> firstn (q * B) (flat P) = flat q.
Proof.
  induction P as [|P IH]; intros H; [assert (q = 0) by lia; subst; reflexivity|]. destruct (Nat.eq_dec q (S P)) as [->|N]; [apply firstn_all2; rewrite flat_length; lia|].
  rewrite flat_S, firstn_app, flat_length. replace (q * B - P * B) with 0 by nia. cbn [firstn]. rewrite app_nil_r. apply IH. lia.
Qed.
Lemma flat_nth P q i : q < P -> i < B -> nth_error (flat P) (i + q * B) = Some (g q (a + i)).
Proof.
  induction P as [|P IH]; intros H Hi; [lia|]. rewrite flat_S. destruct (Nat.eq_dec q P) as [->|N].
  - rewrite nth_error_app2 by (rewrite flat_length; lia). rewrite flat_length. replace (i + P * B - P * B) with i by lia. rewrite nth_error_map_seq by exact Hi. reflexivity.
  - rewrite nth_error_app1 by (rewrite flat_length; nia). apply IH; lia.
Qed.
End Flat.
Lemma flat_map_flat {X Y} (h : X -> Y) g a B P : map h (flat g a B P) = flat (fun q b => h (g q b)) a B P.
Proof. unfold flat. induction (seq 0 P) as [|q t IH]; [reflexivity|]. cbn [flat_map]. rewrite map_app, IH, map_map. reflexivity. Qed.
Lemma flat_concat {X} (g : nat -> nat -> list X) a B P : concat (flat g a B P) = concat (map (fun q => concat (map (g q) (seq a B))) (seq 0 P)).
Proof.
  induction P as [|P IH]; [reflexivity|]. rewrite flat_S, seq_S, map_app, !concat_app, IH. cbn [map concat Nat.add]. rewrite app_nil_r. f_equal. f_equal.
  apply (list_ext []); [rewrite !map_length, !seq_length; reflexivity|]. intros i Hi. rewrite map_length, seq_length in Hi. rewrite !nth_map_seq by exact Hi. reflexivity.
Qed.
Lemma flat_ext {X} (g h : nat -> nat -> X) a B P : (forall q i, q < P -> i < B -> g q (a + i) = h q (a + i)) -> flat g a B P = flat h a B P.
Proof.
  induction P as [|P IH]; intros H; [reflexivity|]. rewrite !flat_S, IH by (intros; apply H; lia). f_equal. apply map_ext_in. intros i Hi. apply in_seq in Hi. apply H; lia.
Qed.

Section Gather.
Variables P k B : nat.
Notation fb := (first_block_on_pe P k).
Variable bl : nat -> nat.
Hypothesis H_nb : forall pe, num_blocks_on_pe P k pe = B.
Hypothesis H_ro : forall pe, pe <= P -> recv_offset P k pe = pe * B.
Hypothesis H_fb : forall pe, pe < P -> fb pe + B <= k.
Hypothesis H_fb0 : fb 0 = 0.
Hypothesis H_bl1 : forall b t, b < k -> first_pe_with_block P k b <= t < first_pe_with_block P k b + num_pes_with_block P k b -> t < Nat.max k P /\ bl t = b.
Hypothesis H_bl2 : forall t, t < Nat.max k P -> bl t < k /\ first_pe_with_block P k (bl t) <= t < first_pe_with_block P k (bl t) + num_pes_with_block P k (bl t).
Hypothesis H_bl3 : forall pe i, pe < P -> i < B -> i + pe * B < Nat.max k P /\ bl (i + pe * B) = fb pe + i.

Variables (Nd : nat -> nat -> list nat) (Nw : nat -> nat -> list Z) (Ed : nat -> nat -> list nat) (Ew : nat -> nat -> list Z).
Variable x : nat -> extracted.
Notation n q b := (length (Nd q b)).
Notation m q b := (length (Ed q b)).
Hypothesis X1 : forall q, q < P -> ex_nodes (x q) = concat (map (Nd q) (seq 0 k)).
Hypothesis X2 : forall q, q < P -> ex_nw (x q) = concat (map (Nw q) (seq 0 k)).
Hypothesis X3 : forall q, q < P -> ex_edges (x q) = concat (map (Ed q) (seq 0 k)).
Hypothesis X4 : forall q, q < P -> ex_ew (x q) = concat (map (Ew q) (seq 0 k)).
Hypothesis X5 : forall q, q < P -> ex_noff (x q) = displs (map (fun b => n q b) (seq 0 k)).
Hypothesis X6 : forall q, q < P -> ex_eoff (x q) = displs (map (fun b => m q b) (seq 0 k)).
Hypothesis L1 : forall q b, q < P -> b < k -> length (Nw q b) = n q b.
Hypothesis L2 : forall q b, q < P -> b < k -> length (Ew q b) = m q b.

Lemma concat_S {A} (h : nat -> list A) j : concat (map h (seq 0 (S j))) = concat (map h (seq 0 j)) ++ h j.
Proof. rewrite seq_S, map_app, concat_app. cbn [map concat Nat.add]. rewrite app_nil_r. reflexivity. Qed.
Lemma diff_ok {A} (h : nat -> list A) b : b < k -> diff (displs (map (fun b => length (h b)) (seq 0 k))) b = Some (length (h b)).
Proof. intros H. unfold diff. rewrite !displs_concat by lia. cbn [bind]. f_equal. rewrite Nat.add_1_r, concat_S, app_length. lia. Qed.

Lemma size_buffer_ok q : q < P -> size_buffer P k (x q) = Some (map (fun t => (n q (bl t), m q (bl t))) (seq 0 (Nat.max k P))).
Proof.
  intros Hq. unfold size_buffer. rewrite X5, X6 by exact Hq.
  assert (G : forall j, j <= k -> exists buf, fold_left (fun acc b => bind acc (fun buf => bind (diff (displs (map (fun b => n q b) (seq 0 k))) b) (fun n => bind (diff (displs (map (fun b => m q b) (seq 0 k))) b) (fun m =>
    fold_left (fun acc to => bind acc (store to (Some (n, m)))) (seq (first_pe_with_block P k b) (num_pes_with_block P k b)) (Some buf))))) (seq 0 j) (Some (repeat None (Nat.max k P))) = Some buf /\
    length buf = Nat.max k P /\ forall t, t < Nat.max k P -> bl t < j -> nth_error buf t = Some (Some (n q (bl t), m q (bl t)))).
  { induction j as [|j IH]; intros Hj; [eexists; split; [reflexivity|]; split; [apply repeat_length|intros; lia]|]. destruct IH as (buf & E & L & D); [lia|].
    rewrite seq_S, fold_left_app, E. cbn [fold_left Nat.add bind]. rewrite (diff_ok (Nd q)), (diff_ok (Ed q)) by lia. cbn [bind].
    destruct (store_many (Some (n q j, m q j)) (seq (first_pe_with_block P k j) (num_pes_with_block P k j)) buf) as (buf' & E' & L' & D').
    { intros t Ht. apply in_seq in Ht. rewrite L. exact (proj1 (H_bl1 j t Hj Ht)). }
    exists buf'. split; [exact E'|]. split; [congruence|]. intros t Ht Hb. destruct (D' t) as [D1 D2]. destruct (Nat.eq_dec (bl t) j) as [<-|N].
    - apply D1. apply in_seq. exact (proj2 (H_bl2 t Ht)).
    - rewrite D2; [apply D; [exact Ht|lia]|]. intros C. apply in_seq in C. destruct (H_bl1 j t Hj C) as [_ C']. contradiction. }
  destruct (G k (Nat.le_refl k)) as (buf & E & L & D). rewrite E. cbn [bind].
  assert (Eb : buf = map (fun t => Some (n q (bl t), m q (bl t))) (seq 0 (Nat.max k P))).
  { apply (list_ext None); [rewrite map_length, seq_length; exact L|]. intros t Ht. rewrite L in Ht. rewrite nth_map_seq by exact Ht. apply nth_error_nth. apply D; [exact Ht|]. exact (proj1 (H_bl2 t Ht)). }
  rewrite Eb. clear. generalize (seq 0 (Nat.max k P)). induction l as [|t l IH]; [reflexivity|]. cbn [map traverse bind]. rewrite IH. reflexivity.
Qed.

Variable me : nat.
Hypothesis Hme : me < P.
Notation xs := (map x (seq 0 P)).
Lemma recv_sizes_ok : recv_sizes P k xs me = Some (flat (fun q b => (n q b, m q b)) (fb me) B P).
Proof.
  unfold recv_sizes. rewrite H_nb.
  assert (E : nth_error (displs (map (num_blocks_on_pe P k) (seq 0 P))) me = Some (me * B)).
  { rewrite displs_nth by (rewrite map_length, seq_length; lia). f_equal. rewrite firstn_map, firstn_seq', Nat.min_l by lia. rewrite (map_ext _ (fun _ => B)) by (intros; apply H_nb). clear. induction me as [|j IH]; [reflexivity|].
    rewrite seq_S, map_app. rewrite list_sum_app, IH. cbn. lia. }
  rewrite E. cbn [bind]. assert (T : forall l, (forall q, In q l -> q < P) -> traverse (fun x => bind (size_buffer P k x) (fun buf => slice buf (me * B) B)) (map x l) =
    Some (map (fun q => map (fun i => (n q (fb me + i), m q (fb me + i))) (seq 0 B)) l)).
  { induction l as [|q t IH]; intros Hl; [reflexivity|]. cbn [map traverse]. rewrite size_buffer_ok by (apply Hl; left; reflexivity). cbn [bind].
    assert (S : slice (map (fun t => (n q (bl t), m q (bl t))) (seq 0 (Nat.max k P))) (me * B) B = Some (map (fun i => (n q (fb me + i), m q (fb me + i))) (seq 0 B))).
    { destruct B as [|B'] eqn:EB; [unfold slice; rewrite Nat.mul_0_r; reflexivity|]. rewrite <- EB in *. assert (LB : me * B + B <= Nat.max k P) by (destruct (H_bl3 me (B - 1) Hme) as [Q _]; lia).
      rewrite (slice_map_seq _ _ _ _ LB). f_equal.
      apply (list_ext (0, 0)); [rewrite !map_length, !seq_length; reflexivity|]. intros i Hi. rewrite map_length, seq_length in Hi. rewrite !nth_map_seq by exact Hi. rewrite (Nat.add_comm (me * B)). rewrite (proj2 (H_bl3 me i Hme Hi)). reflexivity. }
    rewrite S. cbn [bind]. rewrite IH by (intros q' Hq'; apply Hl; right; exact Hq'). reflexivity. }
  rewrite T by (intros q Hq; apply in_seq in Hq; lia). cbn [bind]. f_equal. unfold flat. rewrite flat_map_concat_map. reflexivity.
Qed.

Lemma send_part_ok {A} (h : nat -> list A) : send_part P k (displs (map (fun b => length (h b)) (seq 0 k))) (concat (map h (seq 0 k))) me = Some (concat (map h (seq (fb me) B))).
Proof.
  unfold send_part. rewrite H_nb. pose proof (H_fb me Hme) as Hf. rewrite !displs_concat by lia. cbn [bind].
  assert (E : (if me =? 0 then Some 0 else Some (length (concat (map h (seq 0 (fb me)))))) = Some (length (concat (map h (seq 0 (fb me)))))).
  { destruct (Nat.eqb_spec me 0) as [->|N]; [rewrite H_fb0; reflexivity|reflexivity]. }
  rewrite E. cbn [bind]. rewrite (seq_split3 (fb me) B k Hf) at 1. rewrite !map_app, !concat_app. replace (seq 0 (fb me + B)) with (seq 0 (fb me) ++ seq (fb me) B) by (rewrite seq_app; reflexivity).
  rewrite map_app, concat_app, app_length. replace (length (concat (map h (seq 0 (fb me)))) + length (concat (map h (seq (fb me) B))) - length (concat (map h (seq 0 (fb me))))) with (length (concat (map h (seq (fb me) B)))) by lia. apply slice_mid.
Qed.
Lemma receive_ok {A} (dflt : A) (off : extracted -> list nat) (arr : extracted -> list A) (h : nat -> nat -> list A) (size : nat -> nat -> nat) :
  (forall q, q < P -> arr (x q) = concat (map (h q) (seq 0 k))) -> (forall q, q < P -> off (x q) = displs (map (size q) (seq 0 k))) ->
  (forall q b, q < P -> b < k -> length (h q b) = size q b) ->
  receive_all_parts P k dflt off arr (displs (flat size (fb me) B P)) xs me = Some (concat (flat h (fb me) B P)).
Proof.
  intros Ha Ho Hl. unfold receive_all_parts. pose proof (H_fb me Hme) as Hf.
  assert (Es : flat size (fb me) B P = map (@length A) (flat h (fb me) B P)).
  { rewrite flat_map_flat. apply flat_ext. intros q i Hq Hi. symmetry. apply Hl; lia. }
  assert (Dq : forall q, q <= P -> nth_error (displs (flat size (fb me) B P)) (recv_offset P k q) = Some (length (concat (flat h (fb me) B q)))).
  { intros q Hq. rewrite H_ro by exact Hq. rewrite displs_nth by (rewrite flat_length; nia). f_equal. rewrite Es, firstn_map, flat_firstn by exact Hq. rewrite length_concat. reflexivity. }
  rewrite Dq by lia. cbn [bind].
  assert (G : forall j, j <= P -> exists rest, fold_left (fun acc q => bind acc (fun buf => bind (nth_error xs q) (fun x => bind (send_part P k (off x) (arr x) me) (fun t =>
    bind (nth_error (displs (flat size (fb me) B P)) (recv_offset P k q)) (fun s => put buf s t))))) (seq 0 j) (Some (repeat dflt (length (concat (flat h (fb me) B P))))) = Some (concat (flat h (fb me) B j) ++ rest) /\
    length (concat (flat h (fb me) B j)) + length rest = length (concat (flat h (fb me) B P))).
  { induction j as [|j IH]; intros Hj; [eexists; split; [reflexivity|]; cbn; apply repeat_length|]. destruct IH as (rest & E & L); [lia|]. rewrite seq_S, fold_left_app, E. cbn [fold_left Nat.add bind].
    rewrite nth_error_map_seq by lia. cbn [bind]. rewrite Ha, Ho by lia. assert (Eo : map (size j) (seq 0 k) = map (fun b => length (h j b)) (seq 0 k)).
    { apply map_ext_in. intros b Hb. apply in_seq in Hb. symmetry. apply Hl; lia. }
    rewrite Eo, send_part_ok. cbn [bind]. rewrite Dq by lia. cbn [bind].
    assert (Ej : concat (flat h (fb me) B (S j)) = concat (flat h (fb me) B j) ++ concat (map (h j) (seq (fb me) B))).
    { rewrite !flat_concat, seq_S, map_app, concat_app. cbn [map concat Nat.add]. rewrite app_nil_r. reflexivity. }
    assert (Lj : length (concat (flat h (fb me) B (S j))) <= length (concat (flat h (fb me) B P))).
    { rewrite <- (flat_firstn h (fb me) B P (S j)) by exact Hj. rewrite (concat_firstn_skipn (flat h (fb me) B P) (S j * B)), app_length. lia. }
    rewrite Ej, app_length in Lj. rewrite put_next by lia. rewrite Ej. eexists. split; [reflexivity|]. rewrite app_length, skipn_length. lia. }
  destruct (G P (Nat.le_refl P)) as (rest & E & L). rewrite E. f_equal. destruct rest; [apply app_nil_r|cbn [length] in L; lia].
Qed.

Definition gathered (b : nat) : csr * list nat :=
  (Csr (0 :: concat (map (fun q => map (fun e => e + length (concat (map (fun q => Ed q b) (seq 0 q)))) (Nd q b)) (seq 0 P)))
       (concat (map (fun q => Ed q b) (seq 0 P))) (concat (map (fun q => Nw q b) (seq 0 P))) (concat (map (fun q => Ew q b) (seq 0 P))),
   displs (map (fun q => n q b) (seq 0 P))).

Lemma slice_flat {A} (h : nat -> nat -> list A) (size : nat -> nat -> nat) q i : (forall q i, q < P -> i < B -> length (h q (fb me + i)) = size q (fb me + i)) -> q < P -> i < B ->
  bind (nth_error (displs (flat size (fb me) B P)) (i + q * B)) (fun a => slice (concat (flat h (fb me) B P)) a (size q (fb me + i))) = Some (h q (fb me + i)).
Proof.
  intros Hl Hq Hi. assert (Es : flat size (fb me) B P = map (@length A) (flat h (fb me) B P)).
  { rewrite flat_map_flat. apply flat_ext. intros q' i' Hq' Hi'. symmetry. apply Hl; assumption. }
  assert (Lt : i + q * B < length (flat h (fb me) B P)) by (rewrite flat_length; nia). rewrite displs_nth by (rewrite Es, map_length; lia). cbn [bind]. rewrite Es, <- (Hl q i Hq Hi).
  pose proof (slice_concat (flat h (fb me) B P) [] (i + q * B) Lt) as S. rewrite app_nil_r in S. rewrite (nth_error_nth _ _ [] (flat_nth h (fb me) B P q i Hq Hi)) in S. exact S.
Qed.

Theorem gather_ok : gather P k xs me = Some (map (fun i => gathered (fb me + i)) (seq 0 B)).
Proof.
  pose proof (H_fb me Hme) as Hf. unfold gather. rewrite recv_sizes_ok. cbn [bind]. rewrite !flat_map_flat. cbn [fst snd].
  rewrite (receive_ok 0 ex_noff ex_nodes Nd (fun q b => n q b) X1 X5) by reflexivity. cbn [bind].
  rewrite (receive_ok 0%Z ex_noff ex_nw Nw (fun q b => n q b) X2 X5) by exact L1. cbn [bind].
  rewrite (receive_ok 0 ex_eoff ex_edges Ed (fun q b => m q b) X3 X6) by reflexivity. cbn [bind].
  rewrite (receive_ok 0%Z ex_eoff ex_ew Ew (fun q b => m q b) X4 X6) by exact L2. cbn [bind]. rewrite H_nb.
  apply traverse_ok. intros i Hi. apply in_seq in Hi. unfold construct_one. rewrite !flat_map_flat. cbn [fst snd].
  set (T := traverse _ (seq 0 P)). assert (ET : T = Some (map (fun q => ((n q (fb me + i), m q (fb me + i)), (Nd q (fb me + i), Nw q (fb me + i), (Ed q (fb me + i), Ew q (fb me + i))))) (seq 0 P))).
  { unfold T. apply traverse_ok. intros q Hq. apply in_seq in Hq. rewrite (flat_nth (fun q b => (n q b, m q b)) (fb me) B P q i) by lia. cbn [bind fst snd].
    pose proof (slice_flat Nd (fun q b => n q b) q i ltac:(reflexivity) ltac:(lia) ltac:(lia)) as S1.
    pose proof (slice_flat Nw (fun q b => n q b) q i ltac:(intros; apply L1; lia) ltac:(lia) ltac:(lia)) as S2.
    pose proof (slice_flat Ed (fun q b => m q b) q i ltac:(reflexivity) ltac:(lia) ltac:(lia)) as S3.
    pose proof (slice_flat Ew (fun q b => m q b) q i ltac:(intros; apply L2; lia) ltac:(lia) ltac:(lia)) as S4.
    destruct (nth_error (displs (flat (fun q b => n q b) (fb me) B P)) (i + q * B)) as [a|]; [|discriminate S1]. cbn [bind] in *.
    destruct (nth_error (displs (flat (fun q b => m q b) (fb me) B P)) (i + q * B)) as [c|]; [|discriminate S3]. cbn [bind] in *. rewrite S1, S2, S3, S4. reflexivity. }
  rewrite ET. cbn [bind]. unfold gathered. rewrite !map_map. cbn [fst snd]. f_equal. f_equal. f_equal. f_equal. f_equal.
  unfold displs. assert (LP : length (map (fun q => m q (fb me + i)) (seq 0 P)) = P) by (rewrite map_length, seq_length; reflexivity).
  pose proof (combine_displs (map (fun q => m q (fb me + i)) (seq 0 P)) (fun q => ((n q (fb me + i), m q (fb me + i)), (Nd q (fb me + i), Nw q (fb me + i), (Ed q (fb me + i), Ew q (fb me + i))))) 0 0) as C.
  rewrite LP in C. rewrite C, map_map. apply map_ext_in. intros q Hq. apply in_seq in Hq. cbn [fst snd]. apply map_ext. intros e. f_equal. rewrite Nat.sub_0_r, firstn_map, firstn_seq', Nat.min_l by lia. rewrite length_concat, map_map. reflexivity.
Qed.
End Gather.
