(* chunked_for: every element of every buffer is visited once, with the number of its buffer. *)
From Verif Require Import Lib.Prelude Lib.Count Model.GridModel Model.DistGraphModel Model.RearrangeModel Spec.Graph Spec.ReplicateSpec Spec.RearrangeSpec Proofs.GridBase.

Section Chunks.
Context {X : Type}.
Fixpoint tag_from (b : nat) (l : list (list X)) : list (nat * X) := match l with [] => [] | x :: t => map (fun y => (b, y)) x ++ tag_from (S b) t end.
Lemma tagged_from (bufs : list (list X)) : tagged bufs = tag_from 0 bufs.
Proof.
  unfold tagged. assert (H : forall l a (f : nat -> list X), (forall i, i < length l -> f (a + i) = nth i l []) -> concat (map (fun b => map (fun x => (b, x)) (f b)) (seq a (length l))) = tag_from a l).
  { induction l as [|x t IH]; intros a f H; [reflexivity|]. cbn [length seq map concat tag_from]. pose proof (H 0 ltac:(cbn; lia)) as H0. rewrite Nat.add_0_r in H0. rewrite H0. f_equal. apply IH.
    intros i Hi. replace (S a + i) with (a + S i) by lia. apply H. cbn. lia. }
  apply H. reflexivity.
Qed.
Lemma tag_length l : forall b, length (tag_from b l) = length (concat l).
Proof. induction l as [|x t IH]; intros b; [reflexivity|]. cbn [tag_from concat]. rewrite !app_length, map_length, IH. reflexivity. Qed.
Lemma skipn_cons_nth (l : list (list X)) b x t : skipn b l = x :: t -> nth_error l b = Some x.
Proof. revert l. induction b as [|b IH]; intros [|y l] E; cbn in E; try discriminate; [injection E as <- <-; reflexivity|exact (IH l E)]. Qed.
Lemma skipn_app_ge {Y} (a b : list Y) i : length a <= i -> skipn i (a ++ b) = skipn (i - length a) b.
Proof. intros H. rewrite skipn_app. rewrite skipn_all2 by exact H. reflexivity. Qed.

Lemma find_ok rest : forall cur off b, rest <> [] -> off <= cur -> cur - off <= length (tag_from b rest) ->
  exists k off', find_buffer rest cur off b = Some (off', b + k) /\ off' <= cur /\ skipn (cur - off') (tag_from (b + k) (skipn k rest)) = skipn (cur - off) (tag_from b rest).
Proof.
  induction rest as [|x t IH]; intros cur off b N Ho Hl; [congruence|]. cbn [find_buffer]. destruct (Nat.ltb_spec (off + length x) cur) as [H|H].
  - cbn [tag_from] in *. rewrite app_length, map_length in Hl. destruct (IH cur (off + length x) (S b)) as (k & off' & E & L & Q); [|lia|lia|].
    + intros ->. cbn in Hl. lia.
    + exists (S k), off'. split; [rewrite E; f_equal; f_equal; lia|]. split; [exact L|]. cbn [skipn]. replace (b + S k) with (S b + k) by lia. rewrite Q.
      rewrite skipn_app_ge by (rewrite map_length; lia). rewrite map_length. f_equal. lia.
  - exists 0, off. rewrite Nat.add_0_r. split; [reflexivity|]. split; [exact Ho|]. reflexivity.
Qed.
Lemma skip_ok rest : forall cur off b, off <= cur -> cur - off < length (tag_from b rest) ->
  exists k off' x t, skip_buffers rest cur off b = Some (off', b + k) /\ off' <= cur /\ skipn k rest = x :: t /\ cur - off' < length x /\
    skipn (cur - off') (tag_from (b + k) (x :: t)) = skipn (cur - off) (tag_from b rest).
Proof.
  induction rest as [|x t IH]; intros cur off b Ho Hl; [cbn in Hl; lia|]. cbn [skip_buffers]. destruct (Nat.leb_spec (length x) (cur - off)) as [H|H].
  - cbn [tag_from] in *. rewrite app_length, map_length in Hl. destruct (IH cur (off + length x) (S b)) as (k & off' & y & u & E & L & K & Q1 & Q); [lia|lia|].
    exists (S k), off', y, u. split; [rewrite E; f_equal; f_equal; lia|]. split; [exact L|]. split; [exact K|]. split; [exact Q1|]. replace (b + S k) with (S b + k) by lia. cbn [tag_from] in Q. rewrite Q.
    rewrite skipn_app_ge by (rewrite map_length; lia). rewrite map_length. f_equal. lia.
  - exists 0, off, x, t. rewrite Nat.add_0_r. split; [reflexivity|]. split; [exact Ho|]. split; [reflexivity|]. split; [exact H|]. reflexivity.
Qed.
Lemma skipn_step {Y} (l : list Y) : forall i y, nth_error l i = Some y -> skipn i l = y :: skipn (S i) l.
Proof. induction l as [|a l IH]; intros [|i] y E; cbn in E; try discriminate; [injection E as <-; reflexivity|]. cbn [skipn]. exact (IH i y E). Qed.
Lemma chunk_loop_ok (bufs : list (list X)) len : forall cur off b, off <= cur -> len <= length (tag_from b (skipn b bufs)) - (cur - off) ->
  chunk_loop bufs len cur off b = Some (firstn len (skipn (cur - off) (tag_from b (skipn b bufs)))).
Proof.
  induction len as [|len IH]; intros cur off b Ho Hl; [reflexivity|]. cbn [chunk_loop].
  destruct (skip_ok (skipn b bufs) cur off b Ho ltac:(lia)) as (k & off' & x & t & E & L & K & Q1 & Q). rewrite E. cbn [bind fst snd]. rewrite skipn_skipn in K.
  replace (k + b) with (b + k) in K by lia. rewrite (skipn_cons_nth bufs (b + k) x t K). cbn [bind].
  destruct (nth_error x (cur - off')) as [y|] eqn:Ey; [|apply nth_error_None in Ey; lia]. cbn [bind].
  assert (St : skipn (cur - off') (tag_from (b + k) (x :: t)) = (b + k, y) :: skipn (S cur - off') (tag_from (b + k) (x :: t))).
  { replace (S cur - off') with (S (cur - off')) by lia. apply skipn_step. cbn [tag_from]. rewrite nth_error_app1 by (rewrite map_length; exact Q1). rewrite nth_error_map, Ey. reflexivity. }
  assert (Ln : length (skipn (cur - off') (tag_from (b + k) (x :: t))) = length (skipn (cur - off) (tag_from b (skipn b bufs)))) by (rewrite Q; reflexivity). rewrite !skipn_length in Ln.
  rewrite IH; [|lia|rewrite K; lia]. cbn [bind]. rewrite <- Q, St, K. reflexivity.
Qed.
Theorem chunked_range_ok (bufs : list (list X)) a len : bufs <> [] -> a + len <= length (concat bufs) ->
  chunked_range bufs a len = Some (firstn len (skipn a (tagged bufs))).
Proof.
  intros N H. unfold chunked_range. rewrite tagged_from. destruct (find_ok bufs a 0 0 N ltac:(lia)) as (k & off & E & L & Q); [rewrite tag_length; lia|]. rewrite E. cbn [bind fst snd]. cbn [plus] in *.
  rewrite Nat.sub_0_r in Q. assert (Ln : length (skipn (a - off) (tag_from k (skipn k bufs))) = length (skipn a (tag_from 0 bufs))) by (rewrite Q; reflexivity). rewrite !skipn_length, (tag_length bufs) in Ln.
  rewrite chunk_loop_ok; [rewrite Q; reflexivity|exact L|lia].
Qed.

Lemma firstn_skipn_nth {Y} (l : list Y) (dflt : Y) len : forall a, a + len <= length l -> firstn len (skipn a l) = map (fun i => nth i l dflt) (seq a len).
Proof.
  induction len as [|len IH]; intros a H; [reflexivity|]. cbn [seq map]. rewrite <- (IH (S a)) by lia.
  rewrite (skipn_step l a (nth a l dflt)) by (apply nth_error_nth'; lia). reflexivity.
Qed.
Theorem chunked_for_ok (bufs : list (list X)) chunks : bufs <> [] -> (forall c, In c chunks -> 0 < snd c) -> ranges_of (length (concat bufs)) chunks ->
  exists rs, traverse (fun c => chunked_range bufs (fst c) (snd c)) chunks = Some rs /\ Permutation (concat rs) (tagged bufs).
Proof.
  intros N Hp R. assert (B : forall c, In c chunks -> fst c + snd c <= length (concat bufs)).
  { intros [a l] Hc. pose proof (Hp _ Hc) as Hl. cbn [fst snd] in *. destruct l as [|l]; [lia|]. assert (Hi : In (a + l) (seq 0 (length (concat bufs)))).
    { eapply Permutation_in; [exact R|]. apply in_flat_map. exists (a, S l). split; [exact Hc|]. cbn [fst snd]. apply in_seq. lia. }
    apply in_seq in Hi. lia. }
  assert (Lt : length (tagged bufs) = length (concat bufs)) by (rewrite tagged_from; apply tag_length).
  exists (map (fun c => firstn (snd c) (skipn (fst c) (tagged bufs))) chunks). split.
  - apply traverse_ok. intros c Hc. apply chunked_range_ok; [exact N|exact (B c Hc)].
  - destruct (tagged bufs) as [|e0 te] eqn:T.
    + cbn [length] in Lt. destruct chunks as [|c t]; [reflexivity|]. pose proof (B c (or_introl eq_refl)). pose proof (Hp c (or_introl eq_refl)). lia.
    + rewrite <- T in *. clear T te. unfold ranges_of in R.
      assert (E : concat (map (fun c => firstn (snd c) (skipn (fst c) (tagged bufs))) chunks) = map (fun i => nth i (tagged bufs) e0) (flat_map (fun c => seq (fst c) (snd c)) chunks)).
      { clear R Hp. induction chunks as [|c t IH]; [reflexivity|]. cbn [map concat flat_map]. rewrite map_app, IH by (intros c' Hc'; apply B; right; exact Hc').
        rewrite (firstn_skipn_nth (tagged bufs) e0) by (rewrite Lt; apply B; left; reflexivity). reflexivity. }
      rewrite E. etransitivity; [apply Permutation_map; exact R|]. rewrite <- Lt. rewrite (map_nth_seq e0 (tagged bufs)). reflexivity.
Qed.
End Chunks.
