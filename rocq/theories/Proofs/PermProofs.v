(* Proofs about the degree-bucket permutation and the permuted graph. *)
From Verif Require Import Lib.Prelude Lib.Count Model.MathModel Spec.Graph Model.CsrModel Model.PermModel
  Proofs.GraphFacts Proofs.MathProofs Proofs.CsrProofs.

(* ------------------------------------------------------------ chunks *)
Definition bnd (n p i : nat) : nat := if i =? p then n else fst (local_range n p i).

Lemma local_range_bnd n p i : i < p -> local_range n p i = (bnd n p i, bnd n p (S i)).
Proof.
  intros Hi. destruct (local_ranges_tile (N.of_nat n) (N.of_nat p) ltac:(lia)) as (H0 & H1 & H2 & H3).
  unfold bnd. destruct (Nat.eqb_spec i p); [lia|].
  assert (snd (local_range n p i) = if S i =? p then n else fst (local_range n p (S i))) as E.
  { unfold local_range. cbn [fst snd]. destruct (Nat.eqb_spec (S i) p).
    - replace (N.of_nat i) with (N.of_nat p - 1)%N by lia. rewrite H1. lia.
    - rewrite H2 by lia. f_equal. f_equal. f_equal. lia. }
  rewrite <- E. destruct (local_range n p i); auto.
Qed.

Lemma bnd_mono n p i : i < p -> bnd n p i <= bnd n p (S i).
Proof.
  intros Hi. destruct (local_ranges_tile (N.of_nat n) (N.of_nat p) ltac:(lia)) as (_ & _ & _ & H3).
  specialize (H3 (N.of_nat i) ltac:(lia)). pose proof (local_range_bnd n p i Hi) as E.
  unfold local_range in E. destruct (compute_local_range _ _ _) as [a b]. injection E as E1 E2. lia.
Qed.

Lemma bnd_0 n p : 0 < p -> bnd n p 0 = 0.
Proof.
  intros Hp. destruct (local_ranges_tile (N.of_nat n) (N.of_nat p) ltac:(lia)) as (H0 & _).
  unfold bnd. destruct (Nat.eqb_spec 0 p); [lia|]. unfold local_range; cbn [fst snd]. change (N.of_nat 0) with 0%N. rewrite H0. auto.
Qed.
Lemma bnd_p n p : bnd n p p = n. Proof. unfold bnd. rewrite Nat.eqb_refl. auto. Qed.

Lemma cpu_chunk_bnd n p i : i < p -> cpu_chunk n p i = seq (bnd n p i) (bnd n p (S i) - bnd n p i).
Proof. intros Hi. unfold cpu_chunk. rewrite local_range_bnd by auto. auto. Qed.

Lemma bnd_le n p i j : i <= j <= p -> bnd n p i <= bnd n p j.
Proof. intros [H Hj]. induction H; auto. pose proof (bnd_mono n p m ltac:(lia)). specialize (IHle ltac:(lia)). lia. Qed.

Lemma bnd_find n p u : 0 < p -> u < n -> exists i, i < p /\ bnd n p i <= u < bnd n p (S i).
Proof.
  intros Hp Hu.
  assert (forall c, c <= p -> u < bnd n p c -> exists i, i < c /\ bnd n p i <= u < bnd n p (S i)) as G.
  { induction c; intros Hc Hlt; [rewrite bnd_0 in Hlt; lia|].
    destruct (Nat.lt_ge_cases u (bnd n p c)).
    - destruct IHc as (i & Hi & Hr); try lia. exists i; split; auto; lia.
    - exists c. lia. }
  apply G; auto. rewrite bnd_p; auto.
Qed.

(* ------------------------------------------------------------ first pass *)
Section Perm.
Variable fb : nat -> nat.

Lemma count_chunk_spec from len : forall perm row,
  from + len <= length perm -> (forall u, u < from + len -> fb u < length row) ->
  let r := count_chunk fb (seq from len) perm row in
  length (fst r) = length perm /\ length (snd r) = length row /\
  (forall u, nth u (fst r) 0 = if (from <=? u) && (u <? from + len)
       then nth (fb u) row 0 + cnt (fun v => fb v =? fb u) (seq from (u - from)) else nth u perm 0) /\
  (forall b, nth b (snd r) 0 = nth b row 0 + cnt (fun v => fb v =? b) (seq from len)).
Proof.
  induction len; intros perm row Hp Hr.
  - simpl. split; auto. split; auto. split; intros; rewrite ?cnt_nil; auto.
    destruct (Nat.leb_spec from u), (Nat.ltb_spec u (from + 0)); simpl; auto; lia.
  - destruct (IHlen perm row ltac:(lia) ltac:(intros; apply Hr; lia)) as (L1 & L2 & N1 & N2).
    unfold count_chunk in *. rewrite seq_snoc, fold_left_app.
    destruct (fold_left _ (seq from len) (perm, row)) as [perm1 row1]. simpl in L1, L2, N1, N2 |- *.
    rewrite !upd_length. split; auto. split; auto. split.
    + intros u. destruct (Nat.eq_dec u (from + len)) as [->|Hne].
      * rewrite upd_nth_same by lia. rewrite N2.
        destruct (Nat.leb_spec from (from + len)), (Nat.ltb_spec (from + len) (from + S len)); simpl; try lia.
        replace (from + len - from) with len by lia. auto.
      * rewrite upd_nth_other by auto. rewrite N1.
        destruct (Nat.leb_spec from u), (Nat.ltb_spec u (from + len)), (Nat.ltb_spec u (from + S len)); simpl; auto; lia.
    + intros b. rewrite cnt_app, cnt_cons, cnt_nil. pose proof (Hr (from + len) ltac:(lia)) as Hb.
      destruct (Nat.eqb_spec (fb (from + len)) b) as [E|Hne].
      * rewrite <- E. rewrite upd_nth_same by lia. rewrite N2. lia.
      * rewrite upd_nth_other by auto. rewrite N2. lia.
Qed.

Variables n nb p : nat.
Hypothesis Hp0 : 0 < p.
Hypothesis Hfb : forall u, u < n -> fb u < nb.

Definition pass_upto (c : nat) (perm : list nat) :=
  fold_left (fun (st : list nat * list (list nat)) cpu =>
      let (perm, rows) := st in
      let (perm', row) := count_chunk fb (cpu_chunk n p cpu) perm (repeat 0 (S nb)) in
      (perm', rows ++ [row])) (seq 0 c) (perm, []).

Lemma pass_upto_spec perm c : length perm = n -> c <= p ->
  let r := pass_upto c perm in
  length (fst r) = n /\ length (snd r) = c /\
  (forall i u, i < c -> bnd n p i <= u < bnd n p (S i) ->
     nth u (fst r) 0 = cnt (fun v => fb v =? fb u) (seq (bnd n p i) (u - bnd n p i))) /\
  (forall i, i < c -> length (nth i (snd r) []) = S nb) /\
  (forall i b, i < c -> nth b (nth i (snd r) []) 0 = cnt (fun v => fb v =? b) (seq (bnd n p i) (bnd n p (S i) - bnd n p i))).
Proof.
  intros Hl. induction c; intros Hc.
  - simpl. repeat split; auto; intros; lia.
  - destruct (IHc ltac:(lia)) as (L1 & L2 & N1 & R1 & R2).
    unfold pass_upto in *. rewrite seq_snoc, fold_left_app.
    destruct (fold_left _ (seq 0 c) (perm, [])) as [perm1 rows1]. simpl in L1, L2, N1, R1, R2 |- *.
    pose proof (bnd_mono n p c ltac:(lia)) as Hm.
    pose proof (bnd_le n p (S c) p ltac:(lia)) as Hbn. rewrite bnd_p in Hbn.
    rewrite cpu_chunk_bnd by lia.
    destruct (count_chunk_spec (bnd n p c) (bnd n p (S c) - bnd n p c) perm1 (repeat 0 (S nb))) as (A & B & C & D).
    { lia. } { intros u Hu. rewrite repeat_length. specialize (Hfb u ltac:(lia)). lia. }
    destruct (count_chunk _ _ _ _) as [perm2 row2]. cbn [fst snd] in A, B, C, D |- *.
    split; [lia|]. rewrite app_length. cbn [length]. split; [lia|]. rewrite repeat_length in B.
    split; [|split].
    + intros i u Hi Hu. rewrite C. destruct (Nat.eq_dec i c) as [->|Hne].
      * destruct (Nat.leb_spec (bnd n p c) u), (Nat.ltb_spec u (bnd n p c + (bnd n p (S c) - bnd n p c))); cbn [andb]; try lia.
        rewrite nth_repeat. auto.
      * pose proof (bnd_le n p (S i) c ltac:(lia)).
        destruct (Nat.leb_spec (bnd n p c) u); [lia|]. cbn [andb]. apply N1; auto; lia.
    + intros i Hi. destruct (Nat.eq_dec i c) as [->|Hne].
      * rewrite <- L2, nth_middle. auto.
      * rewrite app_nth1 by lia. apply R1; lia.
    + intros i b Hi. destruct (Nat.eq_dec i c) as [->|Hne].
      * rewrite <- L2 at 1. rewrite nth_middle. rewrite D, nth_repeat. auto.
      * rewrite app_nth1 by lia. apply R2; lia.
Qed.

(** counts over all chunks *)
Lemma chunk_counts_sum q c : c <= p ->
  list_sum (map (fun i => cnt q (seq (bnd n p i) (bnd n p (S i) - bnd n p i))) (seq 0 c)) = cnt q (seq 0 (bnd n p c)).
Proof.
  induction c; intros Hc.
  - simpl. rewrite bnd_0; auto.
  - rewrite seq_snoc, map_app, list_sum_app, IHc by lia. simpl. rewrite Nat.add_0_r, <- cnt_app.
    pose proof (bnd_mono n p c ltac:(lia)).
    replace (bnd n p (S c)) with (bnd n p c + (bnd n p (S c) - bnd n p c)) at 2 by lia. rewrite seq_app. auto.
Qed.

Lemma rows_sum rows b :
  length rows = p ->
  (forall i b, i < p -> nth b (nth i rows []) 0 = cnt (fun v => fb v =? b) (seq (bnd n p i) (bnd n p (S i) - bnd n p i))) ->
  list_sum (map (fun row => nth b row 0) rows) = cnt (fun v => fb v =? b) (seq 0 n).
Proof.
  intros Hl Hr. rewrite <- (bnd_p n p), <- chunk_counts_sum by auto.
  rewrite <- (map_nth_seq [] rows) at 1. rewrite map_map, Hl. f_equal. apply map_ext_in. intros i Hi.
  apply in_seq in Hi. apply Hr. lia.
Qed.

Lemma global_buckets_spec rows b :
  length rows = p ->
  (forall i b, i < p -> nth b (nth i rows []) 0 = cnt (fun v => fb v =? b) (seq (bnd n p i) (bnd n p (S i) - bnd n p i))) ->
  b <= nb -> nth b (global_buckets nb rows) 0 = cnt (fun v => fb v <? b) (seq 0 n).
Proof.
  intros Hl Hr Hb. unfold global_buckets.
  set (l := 0 :: _). assert (length l = S nb) as Ll by (unfold l; simpl; rewrite map_length, seq_length; auto).
  assert (forall i, i <= nb -> nth i l 0 = match i with 0 => 0 | S j => cnt (fun v => fb v =? j) (seq 0 n) end) as Hn.
  { intros [|j] Hj; unfold l; simpl; auto. rewrite nth_map_seq by lia. apply rows_sum; auto. }
  rewrite prefix_sum_nth by lia. clearbody l. induction b.
  - rewrite firstn_S_snoc with (d := 0) by lia. simpl. rewrite Hn by lia. symmetry. apply cnt_zero.
    intros; apply Nat.ltb_ge; lia.
  - rewrite firstn_S_snoc with (d := 0) by lia. rewrite list_sum_app, IHb, Hn by lia. simpl. rewrite Nat.add_0_r.
    rewrite <- cnt_orb.
    + apply cnt_ext. intros d _. destruct (Nat.ltb_spec (fb d) b), (Nat.eqb_spec (fb d) b), (Nat.ltb_spec (fb d) (S b)); simpl; auto; lia.
    + intros d _ A B. apply Nat.ltb_lt in A. apply Nat.eqb_eq in B. lia.
Qed.

Lemma accumulate_rows_spec rows : forall prev,
  (forall i, i < length rows -> length (nth i rows []) = S nb) ->
  length (accumulate_rows prev rows) = length rows /\
  forall i b, i < length rows -> b <= nb ->
    nth b (nth i (accumulate_rows prev rows) []) 0
    = nth b prev 0 + list_sum (map (fun j => nth b (nth j rows []) 0) (seq 0 (S i))).
Proof.
  induction rows as [|row rows IH]; intros prev Hl; simpl; [split; auto; intros; lia|].
  set (row' := map _ _). pose proof (Hl 0 ltac:(simpl; lia)) as H0. simpl in H0.
  destruct (IH row') as [A B]. { intros i Hi. apply (Hl (S i)). simpl; lia. }
  split; [lia|]. intros i b Hi Hb.
  assert (nth b row' 0 = nth b row 0 + nth b prev 0) as E. { unfold row'. rewrite nth_map_seq by lia. auto. }
  destruct i.
  - simpl. rewrite E. lia.
  - cbn [nth]. rewrite B by lia. rewrite E. change (seq 0 (S (S i))) with (0 :: seq 1 (S i)).
    rewrite <- seq_shift. cbn [map]. rewrite map_map. cbn [nth].
    change (list_sum (?a :: ?l)) with (a + list_sum l). cbn [nth]. lia.
Qed.

(* ------------------------------------------------------------ second pass *)
Lemma offset_chunk_spec (off : nat -> nat) from len : forall perm, from + len <= length perm ->
  let r := fold_left (fun perm u => upd u (nth u perm 0 + off u) perm) (seq from len) perm in
  length r = length perm /\
  forall u, nth u r 0 = if (from <=? u) && (u <? from + len) then nth u perm 0 + off u else nth u perm 0.
Proof.
  induction len; intros perm Hl.
  - simpl. split; auto. intros u. destruct (Nat.leb_spec from u), (Nat.ltb_spec u (from + 0)); simpl; auto; lia.
  - destruct (IHlen perm ltac:(lia)) as [A B]. rewrite seq_snoc, fold_left_app.
    set (r := fold_left _ (seq from len) perm) in *. simpl. rewrite upd_length. split; auto.
    intros u. destruct (Nat.eq_dec u (from + len)) as [->|Hne].
    + rewrite upd_nth_same by lia. rewrite B.
      destruct (Nat.leb_spec from (from + len)), (Nat.ltb_spec (from + len) (from + len)), (Nat.ltb_spec (from + len) (from + S len)); simpl; auto; lia.
    + rewrite upd_nth_other by auto. rewrite B.
      destruct (Nat.leb_spec from u), (Nat.ltb_spec u (from + len)), (Nat.ltb_spec u (from + S len)); simpl; auto; lia.
Qed.

Lemma offset_pass_spec global local perm : length perm = n ->
  let r := offset_pass fb n p global local perm in
  length r = n /\
  forall i u, i < p -> bnd n p i <= u < bnd n p (S i) ->
    nth u r 0 = nth u perm 0 + (nth (fb u) global 0 + nth (fb u) (nth i local []) 0).
Proof.
  intros Hl. unfold offset_pass.
  assert (forall c, c <= p ->
    let r := fold_left (fun perm cpu => fold_left (fun perm u => let b := fb u in
          upd u (nth u perm 0 + (nth b global 0 + nth b (nth cpu local []) 0)) perm) (cpu_chunk n p cpu) perm) (seq 0 c) perm in
    length r = n /\
    (forall i u, i < c -> bnd n p i <= u < bnd n p (S i) ->
      nth u r 0 = nth u perm 0 + (nth (fb u) global 0 + nth (fb u) (nth i local []) 0)) /\
    (forall u, bnd n p c <= u -> nth u r 0 = nth u perm 0)) as G.
  { induction c; intros Hc.
    - simpl. repeat split; auto; intros; lia.
    - destruct (IHc ltac:(lia)) as (A & B & C). rewrite seq_snoc, fold_left_app.
      set (r := fold_left _ (seq 0 c) perm) in *. cbn [fold_left Nat.add].
      pose proof (bnd_mono n p c ltac:(lia)) as Hm.
      pose proof (bnd_le n p (S c) p ltac:(lia)) as Hbn. rewrite bnd_p in Hbn.
      rewrite cpu_chunk_bnd by lia.
      destruct (offset_chunk_spec (fun u => nth (fb u) global 0 + nth (fb u) (nth c local []) 0)
        (bnd n p c) (bnd n p (S c) - bnd n p c) r ltac:(lia)) as [D E].
      set (r2 := fold_left _ (seq (bnd n p c) _) r) in *.
      split; [exact (eq_trans D A)|]. split.
      + intros i u Hi Hu. etransitivity; [apply E|]. destruct (Nat.eq_dec i c) as [->|Hne].
        * destruct (Nat.leb_spec (bnd n p c) u), (Nat.ltb_spec u (bnd n p c + (bnd n p (S c) - bnd n p c))); cbn [andb]; try lia.
          rewrite C by lia. auto.
        * pose proof (bnd_le n p (S i) c ltac:(lia)). destruct (Nat.leb_spec (bnd n p c) u); [lia|]. cbn [andb].
          apply B; auto; lia.
      + intros u Hu. etransitivity; [apply E|].
        destruct (Nat.ltb_spec u (bnd n p c + (bnd n p (S c) - bnd n p c))); [lia|]. rewrite andb_false_r. apply C. lia. }
  destruct (G p (le_n _)) as (A & B & _). split; auto.
Qed.
End Perm.

(* ------------------------------------------------------------ the permutation is the bucket rank *)
Definition bucket_rank (fb : nat -> nat) (n u : nat) : nat :=
  cnt (fun v => fb v <? fb u) (seq 0 n) + cnt (fun v => fb v =? fb u) (seq 0 u).

Lemma permutation_is_rank conc n nb fb : 0 < conc -> (forall u, u < n -> fb u < nb) ->
  let r := permutation_by_buckets conc n nb fb in
  length (fst r) = n /\ (forall u, u < n -> nth u (fst r) 0 = bucket_rank fb n u) /\
  snd r = invert_permutation n (fst r).
Proof.
  intros Hc Hfb. destruct (Nat.eq_dec n 0) as [->|Hn].
  - unfold permutation_by_buckets. rewrite Nat.min_0_r. simpl. repeat split; auto. intros; lia.
  - unfold permutation_by_buckets. set (p := Nat.min conc n). assert (0 < p) as Hp by lia.
    destruct (pass_upto_spec fb n nb p Hp Hfb (repeat 0 n) p (repeat_length _ _) (le_n _)) as (A & B & C & D & E).
    unfold count_pass. change (fold_left _ (seq 0 p) (repeat 0 n, [])) with (pass_upto fb n nb p p (repeat 0 n)).
    destruct (pass_upto fb n nb p p (repeat 0 n)) as [perm rows]. cbn [fst snd] in A, B, C, D, E |- *.
    set (local := repeat 0 (S nb) :: accumulate_rows (repeat 0 (S nb)) rows).
    destruct (offset_pass_spec fb n nb p Hp Hfb (global_buckets nb rows) local perm A) as [F G].
    split; auto. split; auto. intros u Hu.
    destruct (bnd_find n p u Hp Hu) as (i & Hi & Hr). rewrite (G i u Hi Hr). rewrite (C i u Hi Hr).
    pose proof (Hfb u Hu) as Hfu.
    rewrite (global_buckets_spec fb n nb p) by (auto; lia).
    assert (nth (fb u) (nth i local []) 0 = cnt (fun v => fb v =? fb u) (seq 0 (bnd n p i))) as EL.
    { unfold local. destruct i as [|i]; cbn [nth].
      - rewrite nth_repeat, bnd_0 by auto. auto.
      - destruct (accumulate_rows_spec fb n nb p Hp Hfb rows (repeat 0 (S nb))) as [_ H]. { rewrite B. auto. }
        rewrite H by (rewrite ?B; lia). rewrite nth_repeat. rewrite <- (chunk_counts_sum fb n nb p Hp Hfb) by lia. rewrite Nat.add_0_l.
        f_equal. apply map_ext_in. intros j Hj. apply in_seq in Hj. apply E. lia. }
    rewrite EL. unfold bucket_rank.
    assert (seq 0 u = seq 0 (bnd n p i) ++ seq (bnd n p i) (u - bnd n p i)) as ->.
    { replace u with (bnd n p i + (u - bnd n p i)) at 1 by lia. rewrite seq_app. auto. }
    rewrite cnt_app. lia.
Qed.

Lemma bucket_rank_lex fb n u v : u < n -> v < n ->
  fb u < fb v \/ (fb u = fb v /\ u < v) -> bucket_rank fb n u < bucket_rank fb n v.
Proof.
  intros Hu Hv H. unfold bucket_rank.
  assert (forall x, x <= n -> cnt (fun v => fb v =? fb u) (seq 0 x) <= cnt (fun v => fb v =? fb u) (seq 0 n)) as Hmono.
  { intros x Hx. replace n with (x + (n - x)) by lia. rewrite seq_app, cnt_app. lia. }
  assert (cnt (fun v => fb v <? fb u) (seq 0 n) + cnt (fun v => fb v =? fb u) (seq 0 n) = cnt (fun v => fb v <? S (fb u)) (seq 0 n)) as E.
  { rewrite <- cnt_orb.
    + apply cnt_ext. intros d _. destruct (Nat.ltb_spec (fb d) (fb u)), (Nat.eqb_spec (fb d) (fb u)), (Nat.ltb_spec (fb d) (S (fb u))); simpl; auto; lia.
    + intros d _ A B. apply Nat.ltb_lt in A. apply Nat.eqb_eq in B. lia. }
  assert (forall v, u < v -> v <= n -> cnt (fun v => fb v =? fb u) (seq 0 u) < cnt (fun v => fb v =? fb u) (seq 0 v)) as Hs.
  { intros x Hx Hxn. replace x with (u + S (x - u - 1)) by lia. rewrite seq_app, cnt_app. simpl. rewrite cnt_cons, Nat.eqb_refl. lia. }
  destruct H as [H|[H1 H2]].
  - assert (cnt (fun v => fb v <? S (fb u)) (seq 0 n) <= cnt (fun x => fb x <? fb v) (seq 0 n)).
    { apply cnt_impl. intros x _ A. apply Nat.ltb_lt in A. apply Nat.ltb_lt. lia. }
    specialize (Hs n Hu (le_n _)). lia.
  - rewrite <- H1. specialize (Hs v H2 ltac:(lia)). lia.
Qed.

Lemma bucket_rank_lt fb n u : u < n -> bucket_rank fb n u < n.
Proof.
  intros Hu. unfold bucket_rank.
  assert (cnt (fun v => fb v =? fb u) (seq 0 u) < cnt (fun v => fb v =? fb u) (seq 0 n)) as Hs.
  { replace n with (u + S (n - u - 1)) by lia. rewrite seq_app, cnt_app. simpl. rewrite cnt_cons, Nat.eqb_refl. lia. }
  assert (cnt (fun v => fb v <? fb u) (seq 0 n) + cnt (fun v => fb v =? fb u) (seq 0 n) <= n) as E.
  { rewrite <- cnt_orb.
    + etransitivity; [apply cnt_le|]. rewrite seq_length. auto.
    + intros d _ A B. apply Nat.ltb_lt in A. apply Nat.eqb_eq in B. lia. }
  lia.
Qed.

Lemma bucket_rank_mono_iff fb n u v : u < n -> v < n -> bucket_rank fb n u <= bucket_rank fb n v -> fb u <= fb v.
Proof.
  intros Hu Hv H. destruct (Nat.le_gt_cases (fb u) (fb v)); auto.
  pose proof (bucket_rank_lex fb n v u Hv Hu ltac:(lia)). lia.
Qed.

Lemma bucket_rank_inj fb n : injn n (bucket_rank fb n).
Proof.
  intros i j Hi Hj E.
  destruct (Nat.lt_trichotomy (fb i) (fb j)) as [H|[H|H]].
  - pose proof (bucket_rank_lex fb n i j Hi Hj ltac:(lia)). lia.
  - destruct (Nat.lt_trichotomy i j) as [H'|[H'|H']]; auto.
    + pose proof (bucket_rank_lex fb n i j Hi Hj ltac:(lia)). lia.
    + pose proof (bucket_rank_lex fb n j i Hj Hi ltac:(lia)). lia.
  - pose proof (bucket_rank_lex fb n j i Hj Hi ltac:(lia)). lia.
Qed.

Lemma invert_spec n perm : length perm = n -> maps_into n n (fun u => nth u perm 0) -> injn n (fun u => nth u perm 0) ->
  length (invert_permutation n perm) = n /\ forall u, u < n -> nth (nth u perm 0) (invert_permutation n perm) 0 = u.
Proof.
  intros Hl Hm Hi. unfold invert_permutation.
  assert (forall c, c <= n -> let r := fold_left (fun inv u => upd (nth u perm 0) u inv) (seq 0 c) (repeat 0 n) in
     length r = n /\ forall u, u < c -> nth (nth u perm 0) r 0 = u) as G.
  { induction c; intros Hc.
    - simpl. rewrite repeat_length. split; auto. intros; lia.
    - destruct (IHc ltac:(lia)) as [A B]. rewrite seq_snoc, fold_left_app. set (r := fold_left _ (seq 0 c) _) in *.
      simpl. rewrite upd_length. split; auto. intros u Hu. destruct (Nat.eq_dec u c) as [->|Hne].
      + apply upd_nth_same. rewrite A. apply Hm. lia.
      + rewrite upd_nth_other; [apply B; lia|]. intros E. apply Hi in E; lia. }
  apply G; auto.
Qed.

(* ------------------------------------------------------------ the permuted graph *)
Lemma copy_backwards_spec {A} (xs : list A) : forall pre seg post, length seg = length xs ->
  copy_backwards xs (length pre + length seg) (pre ++ seg ++ post) = (length pre, pre ++ rev xs ++ post).
Proof.
  unfold copy_backwards. induction xs as [|x xs IH]; intros pre seg post Hl.
  - destruct seg; [|discriminate]. simpl. rewrite Nat.add_0_r. auto.
  - destruct seg as [|s seg] using rev_ind; [discriminate|]. clear IHseg.
    rewrite app_length in Hl. simpl in Hl. rewrite app_length. cbn [fold_left length].
    replace (length pre + (length seg + 1) - 1) with (length (pre ++ seg)) by (rewrite app_length; lia).
    rewrite <- !app_assoc. rewrite (app_assoc pre seg). cbn [app].
    rewrite upd_app_r by lia. rewrite Nat.sub_diag.
    change (upd 0 x (s :: post)) with (x :: post). rewrite <- app_assoc, app_length.
    rewrite (IH pre seg (x :: post)) by lia. f_equal. cbn [rev]. rewrite <- app_assoc. auto.
Qed.

Lemma prefix_sum_from_app a l1 l2 :
  prefix_sum_from a (l1 ++ l2) = prefix_sum_from a l1 ++ prefix_sum_from (a + list_sum l1) l2.
Proof.
  revert a; induction l1; simpl; intros.
  - rewrite Nat.add_0_r; auto.
  - rewrite IHl1. rewrite Nat.add_assoc. auto.
Qed.

Lemma length_flat_map_list_sum {A B} (f : A -> list B) l : length (flat_map f l) = list_sum (map (fun x => length (f x)) l).
Proof. induction l; simpl; auto. rewrite app_length; lia. Qed.

Lemma last_prefix_sum l : last (prefix_sum l) 0 = list_sum l.
Proof.
  rewrite last_nth, prefix_sum_length. destruct l as [|x l]; auto.
  rewrite prefix_sum_nth by (simpl; lia). rewrite firstn_all2; auto. simpl; lia.
Qed.

Definition psum (deg : nat -> nat) (c : nat) : nat := list_sum (map deg (seq 0 c)).
Lemma psum_S deg c : psum deg (S c) = psum deg c + deg c.
Proof. unfold psum. rewrite seq_snoc, map_app, list_sum_app. simpl. lia. Qed.
Lemma psum_le deg a b : a <= b -> psum deg a <= psum deg b.
Proof. induction 1; auto. rewrite psum_S. lia. Qed.

(** one step of the fill loop, for one value array *)
Lemma fill_step {A} (seg : nat -> list A) deg n (junk : list A) c :
  (forall u, u < n -> length (seg u) = deg u) -> length junk = psum deg n -> c < n ->
  copy_backwards (seg c) (psum deg c + deg c)
    (flat_map (fun u => rev (seg u)) (seq 0 c) ++ skipn (psum deg c) junk)
  = (psum deg c, flat_map (fun u => rev (seg u)) (seq 0 (S c)) ++ skipn (psum deg (S c)) junk).
Proof.
  intros Hdeg Hj Hc.
  assert (length (flat_map (fun u => rev (seg u)) (seq 0 c)) = psum deg c) as HlP.
  { rewrite length_flat_map_list_sum. unfold psum. f_equal. apply map_ext_in. intros u Hu. apply in_seq in Hu.
    rewrite rev_length. apply Hdeg; lia. }
  pose proof (psum_le deg (S c) n Hc) as HPj. rewrite psum_S in HPj.
  assert (skipn (psum deg c) junk = firstn (deg c) (skipn (psum deg c) junk) ++ skipn (psum deg (S c)) junk) as Hsk.
  { rewrite <- (firstn_skipn (deg c) (skipn (psum deg c) junk)) at 1. rewrite skipn_skipn, psum_S. auto. }
  rewrite Hsk.
  set (F := firstn (deg c) (skipn (psum deg c) junk)).
  assert (length F = deg c) as Hlf by (unfold F; rewrite firstn_length, skipn_length; lia).
  replace (psum deg c + deg c) with (length (flat_map (fun u => rev (seg u)) (seq 0 c)) + length F) by lia.
  rewrite copy_backwards_spec by (rewrite Hlf, Hdeg; auto).
  rewrite HlP. f_equal. rewrite seq_snoc, flat_map_app, <- app_assoc. simpl. rewrite app_nil_r. auto.
Qed.

Lemma fill_loop_spec (weighted : bool) (seg : nat -> list nat) (segw : nat -> list Z) deg n junk junkw :
  (forall u, u < n -> length (seg u) = deg u) -> (forall u, u < n -> length (segw u) = deg u) ->
  length junk = psum deg n -> (weighted = true -> length junkw = psum deg n) ->
  let starts := prefix_sum (map deg (seq 0 n)) in
  forall c, c <= n ->
  fold_left (fun '(ns, es, ws) u =>
        let '(p, es') := copy_backwards (seg u) (nth u ns 0) es in
        let ws' := if weighted then snd (copy_backwards (segw u) (nth u ns 0) ws) else ws in
        (upd u p ns, es', ws')) (seq 0 c) (starts, junk, junkw)
  = (map (psum deg) (seq 0 c) ++ skipn c starts,
     flat_map (fun u => rev (seg u)) (seq 0 c) ++ skipn (psum deg c) junk,
     if weighted then flat_map (fun u => rev (segw u)) (seq 0 c) ++ skipn (psum deg c) junkw else junkw).
Proof.
  intros Hd Hdw Hj Hjw starts. induction c; intros Hc; [simpl; destruct weighted; reflexivity|].
  rewrite seq_snoc, fold_left_app, IHc by lia. cbn [fold_left Nat.add].
  assert (length starts = n) as Hls by (unfold starts; rewrite prefix_sum_length, map_length, seq_length; auto).
  assert (nth c starts 0 = psum deg c + deg c) as Hst.
  { unfold starts. rewrite prefix_sum_nth by (rewrite map_length, seq_length; lia).
    rewrite firstn_map, firstn_seq by lia. rewrite <- psum_S. auto. }
  assert (nth c (map (psum deg) (seq 0 c) ++ skipn c starts) 0 = psum deg c + deg c) as Hn.
  { rewrite app_nth2, map_length, seq_length, Nat.sub_diag by (rewrite map_length, seq_length; lia).
    rewrite nth_skipn, Nat.add_0_r; auto. }
  rewrite Hn. rewrite (fill_step seg deg n junk c) by auto.
  rewrite <- seq_snoc. f_equal; [f_equal|].
  - rewrite upd_app_r by (rewrite map_length, seq_length; lia).
    rewrite map_length, seq_length, Nat.sub_diag, (skipn_cons_nth 0 c starts) by lia.
    change (upd 0 ?x (?y :: ?t)) with (x :: t). rewrite seq_snoc, map_app, <- app_assoc. auto.
  - destruct weighted; auto. rewrite (fill_step segw deg n junkw c) by auto. auto.
Qed.

(* ------------------------------------------------------------ reading the built arrays *)
Lemma flat_map_nth {A} (seg : nat -> list A) deg n d u i :
  (forall u, u < n -> length (seg u) = deg u) -> u < n -> i < deg u ->
  nth (psum deg u + i) (flat_map seg (seq 0 n)) d = nth i (seg u) d.
Proof.
  intros Hd Hu Hi. replace n with (u + S (n - u - 1)) by lia. rewrite seq_app, flat_map_app.
  assert (length (flat_map seg (seq 0 u)) = psum deg u) as L.
  { rewrite length_flat_map_list_sum. unfold psum. f_equal. apply map_ext_in. intros v Hv. apply in_seq in Hv. apply Hd; lia. }
  rewrite app_nth2 by lia. rewrite L. replace (psum deg u + i - psum deg u) with i by lia.
  simpl. rewrite app_nth1; auto. rewrite Hd; auto.
Qed.

Lemma psum_nodes (f : nat -> nat) : forall n, f 0 = 0 -> (forall u, u < n -> f u <= f (S u)) ->
  psum (fun u => f (S u) - f u) n = f n.
Proof.
  induction n; intros H0 Hm; [auto|]. rewrite psum_S, IHn by (auto; intros; apply Hm; lia).
  specialize (Hm n ltac:(lia)). lia.
Qed.

Lemma psum_perm f g n : maps_into n n g -> injn n g -> psum (fun u => f (g u)) n = psum f n.
Proof.
  intros Hm Hi. unfold psum. rewrite <- (map_map g f).
  pose proof (inj_seq_perm n g Hm Hi) as P. apply Permutation_map with (f := f) in P.
  induction P; simpl; lia.
Qed.

Lemma user_graph_adj xadj adjncy vwgt adjwgt u : gadj (user_graph xadj adjncy vwgt adjwgt) u =
  map (fun e => (nth e adjncy 0, match adjwgt with [] => 1%Z | _ => nth e adjwgt 0%Z end))
                   (seq (nth u xadj 0) (nth (S u) xadj 0 - nth u xadj 0)).
Proof. reflexivity. Qed.

Section Build.
Variables (xadj edges : list nat) (vw ew : list Z) (o2n n2o : nat -> nat) (lo ln : list nat).
Variables (junk : list nat) (junkw : list Z).
Let n := length xadj - 1.
Hypothesis Hwf : wf_csr xadj edges vw ew.
Hypothesis Hlo : forall u, u < n -> nth u lo 0 = o2n u.
Hypothesis Hln : forall u, u < n -> nth u ln 0 = n2o u.
Hypothesis Hinv1 : forall u, u < n -> n2o (o2n u) = u.
Hypothesis Hinv2 : forall u, u < n -> o2n (n2o u) = u.
Hypothesis Hr1 : maps_into n n o2n.
Hypothesis Hr2 : maps_into n n n2o.
Hypothesis Hj : length junk = length edges.
Hypothesis Hjw : length junkw = length ew.

Let deg u := degree_of xadj (n2o u).
Let seg u := map (fun e => nth (nth e edges 0) lo 0) (seq (nth (n2o u) xadj 0) (deg u)).
Let segw u := map (fun e => nth e ew 0%Z) (seq (nth (n2o u) xadj 0) (deg u)).

Lemma n2o_inj : injn n n2o.
Proof. intros i j Hi Hjj E. rewrite <- (Hinv2 i Hi), <- (Hinv2 j Hjj), E. auto. Qed.
Lemma o2n_inj : injn n o2n.
Proof. intros i j Hi Hjj E. rewrite <- (Hinv1 i Hi), <- (Hinv1 j Hjj), E. auto. Qed.

Lemma psum_deg : psum deg n = length edges.
Proof.
  unfold deg. rewrite (psum_perm (degree_of xadj) n2o n Hr2 n2o_inj).
  destruct Hwf as (H1 & H2 & H3 & H4 & _). unfold degree_of.
  rewrite (psum_nodes (fun u => nth u xadj 0)); auto.
  - rewrite <- H4, last_nth. auto.
  - intros u Hu. apply H3. unfold n in Hu. lia.
Qed.

Let weighted := length ew =? length edges.
Let xadj' := map (psum deg) (seq 0 (S n)).
Let edges' := flat_map (fun u => rev (seg u)) (seq 0 n).
Let ew' := if weighted then flat_map (fun u => rev (segw u)) (seq 0 n) else [].
Let vw' := match vw with [] => [] | _ => map (fun u => nth (n2o u) vw 0%Z) (seq 0 n) end.

Lemma build_spec :
  build_permuted_graph xadj edges vw ew lo ln junk junkw = (xadj', edges', vw', ew').
Proof.
  unfold build_permuted_graph. fold n.
  assert (map (fun u => nth (S (nth u ln 0)) xadj 0 - nth (nth u ln 0) xadj 0) (seq 0 n) = map deg (seq 0 n)) as Hdeg.
  { apply map_ext_in. intros u Hu. apply in_seq in Hu. rewrite Hln by lia. auto. }
  cbv zeta. rewrite Hdeg.
  assert (forall (st : list nat * list nat * list Z),
    fold_left (fun '(ns, es, ws) u =>
        let '(p, es') := copy_backwards (map (fun e => nth (nth e edges 0) lo 0) (seq (nth (nth u ln 0) xadj 0) (nth (S (nth u ln 0)) xadj 0 - nth (nth u ln 0) xadj 0))) (nth u ns 0) es in
        let ws' := if length ew =? length edges
                   then snd (copy_backwards (map (fun e => nth e ew 0%Z) (seq (nth (nth u ln 0) xadj 0) (nth (S (nth u ln 0)) xadj 0 - nth (nth u ln 0) xadj 0))) (nth u ns 0) ws)
                   else ws in
        (upd u p ns, es', ws')) (seq 0 n) st =
    fold_left (fun '(ns, es, ws) u =>
        let '(p, es') := copy_backwards (seg u) (nth u ns 0) es in
        let ws' := if weighted then snd (copy_backwards (segw u) (nth u ns 0) ws) else ws in
        (upd u p ns, es', ws')) (seq 0 n) st) as Efold.
  { assert (forall u, In u (seq 0 n) -> u < n) as Hin by (intros u Hu; apply in_seq in Hu; lia).
    revert Hin. generalize (seq 0 n). induction l as [|u l IH]; intros Hin st; auto.
    cbn [fold_left]. rewrite IH by (intros; apply Hin; simpl; auto). f_equal.
    destruct st as [[ns es] ws]. rewrite Hln by (apply Hin; simpl; auto). reflexivity. }
  rewrite Efold.
  assert (psum deg n = length edges) as HP by apply psum_deg.
  rewrite (fill_loop_spec weighted seg segw deg n junk junkw); auto.
  - rewrite skipn_all2 by (rewrite prefix_sum_length, map_length, seq_length; auto). rewrite app_nil_r.
    rewrite HP. rewrite (skipn_all2 junk) by lia. rewrite app_nil_r.
    f_equal; [f_equal; [f_equal|]|].
    + unfold xadj'. rewrite seq_snoc, map_app. simpl. f_equal. f_equal. rewrite last_prefix_sum. auto.
    + unfold vw'. destruct Hwf as (H1 & _ & _ & _ & _ & H6 & _).
      destruct vw as [|z l] eqn:Ev.
      * simpl. destruct (Nat.leb_spec (length xadj) 1); auto. assert (n = 0) as -> by (unfold n; lia). auto.
      * destruct H6 as [H6|H6]; [discriminate|]. destruct (Nat.leb_spec (length xadj) (length (z :: l) + 1)); [|lia].
        apply map_ext_in. intros u Hu. apply in_seq in Hu. rewrite Hln by lia. auto.
    + unfold ew'. destruct weighted eqn:Ew.
      * rewrite skipn_all2, app_nil_r; auto. unfold weighted in Ew. apply Nat.eqb_eq in Ew. lia.
      * unfold weighted in Ew. apply Nat.eqb_neq in Ew. destruct Hwf as (_ & _ & _ & _ & _ & _ & [H7|H7]); [|lia].
        rewrite H7 in Hjw. destruct junkw; auto; discriminate.
  - intros u Hu. unfold seg. rewrite map_length, seq_length. auto.
  - intros u Hu. unfold segw. rewrite map_length, seq_length. auto.
  - lia.
  - intros Ew. unfold weighted in Ew. apply Nat.eqb_eq in Ew. lia.
Qed.

Lemma xadj'_length : length xadj' = S n.
Proof. unfold xadj'. rewrite map_length, seq_length. auto. Qed.
Lemma xadj'_nth u : u <= n -> nth u xadj' 0 = psum deg u.
Proof. intros Hu. unfold xadj'. rewrite nth_map_seq by lia. auto. Qed.
Lemma xadj'_deg u : u < n -> degree_of xadj' u = deg u.
Proof. intros Hu. unfold degree_of at 1. rewrite !xadj'_nth by lia. rewrite psum_S. lia. Qed.
Lemma edges'_length : length edges' = length edges.
Proof.
  unfold edges'. rewrite length_flat_map_list_sum, <- psum_deg. unfold psum. f_equal. apply map_ext.
  intros u. rewrite rev_length. unfold seg. rewrite map_length, seq_length. auto.
Qed.
Lemma old_edge_target u e : u < n -> In e (seq (nth u xadj 0) (degree_of xadj u)) -> nth e edges 0 < n.
Proof.
  intros Hu He. apply in_seq in He. pose proof (wf_csr_range _ _ _ _ u Hwf Hu). unfold degree_of in He.
  destruct Hwf as (_ & _ & _ & _ & H5 & _). apply H5. apply nth_In. lia.
Qed.

Lemma build_wf : wf_csr xadj' edges' vw' ew'.
Proof.
  split; [|split; [|split; [|split; [|split; [|split]]]]].
  - rewrite xadj'_length. lia.
  - change (nth 0 xadj' 0 = 0). rewrite xadj'_nth by lia. reflexivity.
  - rewrite xadj'_length. intros i Hi. rewrite !xadj'_nth by lia. apply psum_le. lia.
  - rewrite last_nth, xadj'_length, edges'_length. replace (S n - 1) with n by lia. rewrite xadj'_nth by lia. apply psum_deg.
  - rewrite xadj'_length. replace (S n - 1) with n by lia. intros v Hv. unfold edges' in Hv.
    apply in_flat_map in Hv as (u & Hu & Hv). apply in_seq in Hu. apply in_rev in Hv. unfold seg in Hv.
    apply in_map_iff in Hv as (e & <- & He). pose proof (old_edge_target (n2o u) e (Hr2 u ltac:(lia)) He) as Ht.
    rewrite Hlo by auto. apply Hr1; auto.
  - unfold vw'. destruct vw; auto. right. rewrite map_length, seq_length, xadj'_length. lia.
  - unfold ew'. destruct weighted; auto. right. rewrite edges'_length, length_flat_map_list_sum, <- psum_deg. unfold psum.
    f_equal. apply map_ext. intros u. rewrite rev_length. unfold segw. rewrite map_length, seq_length. auto.
Qed.

Lemma combine_map2 {A B C} (f : A -> B) (g : A -> C) l :
  combine (map f l) (map g l) = map (fun x => (f x, g x)) l.
Proof. induction l; simpl; auto. f_equal; auto. Qed.

Lemma build_adj u : u < n ->
  gadj (user_graph xadj' edges' vw' ew') u
  = rev (map (fun e => (o2n (fst e), snd e)) (gadj (user_graph xadj edges vw ew) (n2o u))).
Proof.
  intros Hu. rewrite !user_graph_adj.
  rewrite !xadj'_nth by lia. rewrite psum_S. replace (psum deg u + deg u - psum deg u) with (deg u) by lia.
  rewrite map_map. cbn [fst snd].
  change (nth (S (n2o u)) xadj 0 - nth (n2o u) xadj 0) with (deg u).
  rewrite <- map_rev. apply (list_ext (0, 0%Z)).
  { rewrite !map_length, rev_length, !seq_length. auto. }
  intros i Hi. rewrite map_length, seq_length in Hi. rewrite nth_map_seq by auto. symmetry.
  set (F := fun x => (o2n (nth x edges 0), match ew with [] => 1%Z | _ => nth x ew 0%Z end)).
  rewrite nth_indep with (d' := F 0) by (rewrite map_length, rev_length, seq_length; auto).
  rewrite map_nth. rewrite rev_nth by (rewrite seq_length; auto). rewrite seq_length, seq_nth by lia.
  set (e := nth (n2o u) xadj 0 + (deg u - S i)). unfold F.
  assert (In e (seq (nth (n2o u) xadj 0) (degree_of xadj (n2o u)))) as He by (apply in_seq; unfold e, deg in *; lia).
  assert (forall {A} (g : nat -> A) (d : A), nth i (rev (map g (seq (nth (n2o u) xadj 0) (deg u)))) d = g e) as Hrev.
  { intros A g d. rewrite rev_nth by (rewrite map_length, seq_length; auto). rewrite map_length, seq_length.
    rewrite nth_map_seq by lia. auto. }
  f_equal.
  - unfold edges'. rewrite (flat_map_nth (fun u => rev (seg u)) deg n 0 u i); auto.
    + unfold seg. rewrite Hrev. rewrite Hlo; auto. apply (old_edge_target (n2o u)); auto.
    + intros v Hv. rewrite rev_length. unfold seg. rewrite map_length, seq_length. auto.
  - pose proof psum_deg as HPD. unfold ew'. pose proof Hwf as (_ & _ & _ & _ & _ & _ & H7).
    pose proof (wf_csr_range _ _ _ _ (n2o u) Hwf (Hr2 u Hu)) as Hrange.
    assert (e < length edges) as Hel by (apply in_seq in He; unfold degree_of in He; lia).
    destruct ew as [|w0 ws] eqn:Eew.
    + destruct weighted eqn:Ew; auto. unfold weighted in Ew. apply Nat.eqb_eq in Ew. simpl in Ew. lia.
    + destruct H7 as [H7|H7]; [discriminate|]. assert (weighted = true) as -> by (unfold weighted; apply Nat.eqb_eq; auto).
      assert (nth (psum deg u + i) (flat_map (fun u => rev (segw u)) (seq 0 n)) 0%Z = nth e (w0 :: ws) 0%Z) as E.
      { rewrite (flat_map_nth (fun u => rev (segw u)) deg n 0%Z u i); auto.
        + unfold segw. rewrite Hrev. auto.
        + intros v Hv. rewrite rev_length. unfold segw. rewrite map_length, seq_length. auto. }
      rewrite <- E. destruct (flat_map (fun u => rev (segw u)) (seq 0 n)) eqn:Ef; auto.
      exfalso. assert (length (flat_map (fun u => rev (segw u)) (seq 0 n)) = 0) as L by (rewrite Ef; auto).
      rewrite length_flat_map_list_sum in L.
      assert (psum deg n = 0) as P0. { rewrite <- L. unfold psum. f_equal. apply map_ext. intros v. rewrite rev_length. unfold segw. rewrite map_length, seq_length. auto. }
      lia.
Qed.

Lemma build_iso : isomorphic_by o2n (user_graph xadj edges vw ew) (user_graph xadj' edges' vw' ew').
Proof.
  split; [|split; [|split; [|split]]].
  - cbn [gn user_graph]. rewrite xadj'_length. unfold n. lia.
  - apply Hr1.
  - apply o2n_inj.
  - cbn [gn gvw user_graph]. intros u Hu. unfold vw'. destruct vw as [|w0 ws] eqn:Ev; auto.
    pose proof (Hr1 u Hu) as Ho. destruct (map (fun u => nth (n2o u) (w0 :: ws) 0%Z) (seq 0 n)) eqn:E.
    + assert (length (map (fun u => nth (n2o u) (w0 :: ws) 0%Z) (seq 0 n)) = 0) as L by (rewrite E; auto).
      rewrite map_length, seq_length in L. lia.
    + rewrite <- E. rewrite nth_map_seq by auto. simpl plus. rewrite Hinv1; auto.
  - intros u Hu. rewrite build_adj by (apply Hr1; auto). rewrite Hinv1 by auto. symmetry. apply Permutation_rev.
Qed.

Lemma build_all : build_permuted_graph xadj edges vw ew lo ln junk junkw = (xadj', edges', vw', ew') /\
  wf_csr xadj' edges' vw' ew' /\
  isomorphic_by o2n (user_graph xadj edges vw ew) (user_graph xadj' edges' vw' ew') /\
  length xadj' = S n /\ (forall u, u < n -> degree_of xadj' u = degree_of xadj (n2o u)) /\
  length edges' = length edges.
Proof.
  exact (conj build_spec (conj build_wf (conj build_iso (conj xadj'_length (conj xadj'_deg edges'_length))))).
Qed.
End Build.

(* ------------------------------------------------------------ rearrange_by_degree_buckets *)
Lemma placement_lt d : (N.of_nat d < 2 ^ 31)%N -> placement_bucket d < num_degree_buckets.
Proof.
  intros Hd. unfold placement_bucket. destruct (Nat.eqb_spec d 0); [unfold num_degree_buckets; lia|].
  apply bucket_of_degree_lt. change (2 ^ 32)%N with (2 * 2 ^ 31)%N. lia.
Qed.
Lemma placement_pos d : 0 < d -> (N.of_nat d < 2 ^ 31)%N ->
  placement_bucket d = S (Nat.log2 d) /\ placement_bucket d < num_degree_buckets - 1.
Proof.
  intros H0 Hd. unfold placement_bucket. destruct (Nat.eqb_spec d 0); [lia|].
  assert (N.of_nat d < 2 ^ 32)%N as H32 by (change (2 ^ 32)%N with (2 * 2 ^ 31)%N; lia).
  pose proof (bucket_of_degree_log2 d H0 H32) as E. split; auto.
  destruct (Nat.lt_ge_cases (bucket_of_degree d) (num_degree_buckets - 1)) as [?|Hge]; auto. exfalso.
  pose proof (bucket_of_degree_lt d H32) as Hlt. unfold num_degree_buckets in *.
  assert (bucket_of_degree d = S 31) as E' by lia.
  apply (bucket_of_degree_class d 31 H0 H32) in E'. destruct E' as [E' _].
  assert (N.of_nat (2 ^ 31) <= N.of_nat d)%N as X by (clear - E'; lia).
  rewrite Nat2N.inj_pow in X. change (N.of_nat 2 ^ N.of_nat 31)%N with (2 ^ 31)%N in X. lia.
Qed.

Lemma rearrange_spec conc junk junkw nodes edges vws ew sorted xadj vw :
  full nodes xadj -> full vws vw -> wf_csr xadj edges vw ew -> 0 < conc ->
  (N.of_nat (length edges) < 2 ^ 31)%N -> length junk = length edges -> length junkw = length ew ->
  exists xadj' edges' vw' ew' perm n',
    rearrange_by_degree_buckets conc junk junkw (cg_make nodes edges vws ew sorted) = sorted_csr xadj' edges' vw' ew' perm /\
    wf_csr xadj' edges' vw' ew' /\ sorted_by_degree_class xadj' n' /\
    length xadj' = length xadj /\ length edges' = length edges /\ length perm = length xadj - 1 /\
    isomorphic_by (fun u => nth u perm 0) (user_graph xadj edges vw ew) (user_graph xadj' edges' vw' ew') /\
    (forall x, In x vw' -> In x vw) /\ (forall x, In x ew' -> In x ew).
Proof.
  intros Fn Fv Hwf Hc Hm Hj Hjw.
  set (n := length xadj - 1).
  set (fb := fun u => placement_bucket (nth (S u) xadj 0 - nth u xadj 0)).
  assert (forall u, u < n -> (N.of_nat (degree_of xadj u) < 2 ^ 31)%N) as Hd31.
  { intros u Hu. pose proof (wf_degree_bound _ _ _ _ u Hwf Hu). lia. }
  assert (forall u, u < n -> fb u < num_degree_buckets) as Hfb by (intros u Hu; apply placement_lt; apply (Hd31 u Hu)).
  destruct (permutation_is_rank conc n num_degree_buckets fb Hc Hfb) as (PL & PN & PI).
  unfold rearrange_by_degree_buckets.
  change (cg_nodes (cg_make nodes edges vws ew sorted)) with nodes.
  change (cg_node_weights (cg_make nodes edges vws ew sorted)) with vws.
  change (cg_edges (cg_make nodes edges vws ew sorted)) with edges.
  change (cg_edge_weights (cg_make nodes edges vws ew sorted)) with ew.
  rewrite (full_list _ _ Fn), (full_list _ _ Fv).
  unfold permutation_by_degree_buckets. fold n. fold fb.
  destruct (permutation_by_buckets conc n num_degree_buckets fb) as [o2n n2o]. cbn [fst snd] in PL, PN, PI.
  subst n2o. set (n2o := invert_permutation n o2n).
  assert (maps_into n n (fun u => nth u o2n 0)) as M1.
  { intros u Hu. cbv beta. rewrite PN by auto. apply bucket_rank_lt; auto. }
  assert (injn n (fun u => nth u o2n 0)) as I1.
  { intros u v Hu Hv E. cbv beta in E. rewrite !PN in E by auto. apply (bucket_rank_inj fb n); auto. }
  destruct (invert_spec n o2n PL M1 I1) as [L2 V1]. fold n2o in L2, V1.
  assert (forall u, u < n -> nth (nth u n2o 0) o2n 0 = u /\ nth u n2o 0 < n) as V2.
  { intros y Hy. destruct (inj_surj n _ M1 I1 y Hy) as (x & Hx & <-). cbv beta. rewrite V1; auto. }
  assert (maps_into n n (fun u => nth u n2o 0)) as M2 by (intros u Hu; apply V2; auto).
  destruct (build_all xadj edges vw ew (fun u => nth u o2n 0) (fun u => nth u n2o 0) o2n n2o junk junkw Hwf
    (fun u _ => eq_refl) (fun u _ => eq_refl) V1 (fun u Hu => proj1 (V2 u Hu)) M1 M2 Hj Hjw) as (B1 & B2 & B3 & B4 & B5 & B6).
  cbv zeta in B1, B2, B3, B4, B5, B6. fold n in B1, B2, B3, B4, B5, B6.
  rewrite B1.
  match type of B2 with wf_csr ?a ?b ?c ?d => set (xadj' := a) in *; set (edges' := b) in *; set (vw' := c) in *; set (ew' := d) in * end.
  exists xadj', edges', vw', ew', o2n.
  set (f := fun u => fb (nth u n2o 0)).
  exists (cnt (fun u => f u <? 32) (seq 0 n)).
  assert (forall u v, u <= v < n -> f u <= f v) as Hmono.
  { intros u v Huv. unfold f. apply (bucket_rank_mono_iff fb n); try (apply M2; lia).
    rewrite <- !PN by (apply M2; lia). rewrite (proj1 (V2 u ltac:(lia))), (proj1 (V2 v ltac:(lia))). lia. }
  assert (forall u, u < n -> degree_of xadj' u = degree_of xadj (nth u n2o 0)) as Hdeg by (intros u Hu; apply B5; auto).
  assert (1 <= length xadj) as Hx1 by (destruct Hwf; auto).
  split; [reflexivity|]. split; [exact B2|]. split; [|split; [|split; [|split; [|split; [|split]]]]].
  - assert (cnt (fun u => f u <? 32) (seq 0 n) <= n) as Hcn.
    { etransitivity; [apply cnt_le|]. rewrite seq_length; auto. }
    assert (length xadj' - 1 = n) as Eln by (rewrite B4; lia).
    split; [lia|]. split; [|split].
    + intros u Hu. rewrite Hdeg by lia. destruct (Nat.eq_dec (degree_of xadj (nth u n2o 0)) 0) as [E|]; [|lia]. exfalso.
      assert (32 <= f u) as Hge. { unfold f, fb. change (nth (S (nth u n2o 0)) xadj 0 - nth (nth u n2o 0) xadj 0) with (degree_of xadj (nth u n2o 0)). rewrite E. vm_compute. lia. }
      apply (cnt_lt_sorted f n 32 u Hmono ltac:(lia)) in Hge. lia.
    + intros u Hu. rewrite Eln in Hu. rewrite Hdeg by lia. destruct (Nat.eq_dec (degree_of xadj (nth u n2o 0)) 0) as [E|Hne]; auto. exfalso.
      assert (32 <= f u) as Hge by (apply (cnt_lt_sorted f n 32 u Hmono); lia).
      destruct (placement_pos (degree_of xadj (nth u n2o 0)) ltac:(lia) (Hd31 _ (M2 u ltac:(lia)))) as [_ P].
      unfold num_degree_buckets in P. unfold f, fb in Hge. unfold degree_of in P. lia.
    + intros u v Huv. rewrite !Hdeg by lia.
      assert (forall x, x < cnt (fun u => f u <? 32) (seq 0 n) -> f x < 32) as Hlt32.
      { intros x Hx. destruct (Nat.lt_ge_cases (f x) 32) as [?|Hge]; auto. apply (cnt_lt_sorted f n 32 x Hmono ltac:(lia)) in Hge. lia. }
      assert (forall x, x < cnt (fun u => f u <? 32) (seq 0 n) -> f x = S (Nat.log2 (degree_of xadj (nth x n2o 0)))) as Hlog.
      { intros x Hx. destruct (Nat.eq_dec (degree_of xadj (nth x n2o 0)) 0) as [E|Hne].
        - exfalso. specialize (Hlt32 x Hx). unfold f, fb in Hlt32.
          change (nth (S (nth x n2o 0)) xadj 0 - nth (nth x n2o 0) xadj 0) with (degree_of xadj (nth x n2o 0)) in Hlt32.
          rewrite E in Hlt32. vm_compute in Hlt32. lia.
        - destruct (placement_pos (degree_of xadj (nth x n2o 0)) ltac:(lia) (Hd31 _ (M2 x ltac:(lia)))) as [P _]. exact P. }
      pose proof (Hmono u v ltac:(lia)) as Hm'. rewrite !Hlog in Hm' by lia. lia.
  - rewrite B4. lia.
  - exact B6.
  - rewrite PL. auto.
  - exact B3.
  - intros x Hx. unfold vw' in Hx. destruct vw as [|w0 ws]; [destruct Hx|].
    apply in_map_iff in Hx as (u & <- & Hu). apply in_seq in Hu. apply nth_In.
    destruct Hwf as (_ & _ & _ & _ & _ & [H6|H6] & _); [discriminate|]. rewrite H6. apply M2. lia.
  - intros x Hx. unfold ew' in Hx. destruct (Nat.eqb_spec (length ew) (length edges)) as [E|]; [|destruct Hx].
    apply in_flat_map in Hx as (u & Hu & Hx). apply in_rev in Hx. apply in_map_iff in Hx as (e & <- & He).
    apply in_seq in Hu, He. apply nth_In. rewrite E.
    pose proof (wf_csr_range _ _ _ _ _ Hwf (M2 u ltac:(lia))) as Hr. unfold degree_of in He. cbv beta in *. lia.
Qed.
