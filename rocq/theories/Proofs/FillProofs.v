(* The send buffers: every slot is written exactly once, whatever the interleaving of the threads. *)
From Verif Require Import Lib.Prelude Model.GridModel Model.DistGraphModel Proofs.GridBase Proofs.ImportProofs.

Section Fill.
Context {X : Type}.
Variable P : nat.
Implicit Types (m : list (nat * X)) (ms : list (list (nat * X))).

Definition picks (pe : nat) m : list X := map snd (filter (fun y => fst y =? pe) m).
Definition np (pe : nat) m : nat := length (picks pe m).
Lemma picks_app pe m m' : picks pe (m ++ m') = picks pe m ++ picks pe m'.
Proof. unfold picks. rewrite filter_app, map_app. reflexivity. Qed.
Lemma picks_same pe x m : picks pe ((pe, x) :: m) = x :: picks pe m.
Proof. unfold picks. cbn [filter fst]. rewrite Nat.eqb_refl. reflexivity. Qed.
Lemma picks_other pe q x m : q <> pe -> picks pe ((q, x) :: m) = picks pe m.
Proof. intros H. unfold picks. cbn [filter fst]. destruct (Nat.eqb_spec q pe); [congruence|reflexivity]. Qed.

Lemma nth_map_seq0 {Y} (f : nat -> Y) n i d : i < n -> nth i (map f (seq 0 n)) d = f i.
Proof. intros H. rewrite (nth_indep _ d (f 0)) by (rewrite map_length, seq_length; exact H). rewrite map_nth, seq_nth by exact H. reflexivity. Qed.
Lemma upd_map_seq {Y} (f : nat -> Y) n i x : i < n -> upd i x (map f (seq 0 n)) = map (fun j => if j =? i then x else f j) (seq 0 n).
Proof.
  intros H. apply (list_ext x); [rewrite upd_length, !map_length; reflexivity|]. intros j Hj. rewrite upd_length, map_length, seq_length in Hj.
  rewrite upd_nth, map_length, seq_length, !nth_map_seq0 by exact Hj. rewrite (proj2 (Nat.ltb_lt i n)) by exact H. rewrite andb_true_r.
  rewrite (Nat.eqb_sym i j). reflexivity.
Qed.
Lemma count_ok m : forall f, (forall pe x, In (pe, x) m -> pe < P) ->
  count_messages m (map f (seq 0 P)) = Some (map (fun pe => f pe + np pe m) (seq 0 P)).
Proof.
  induction m as [|[q x] t IH]; intros f H; cbn [count_messages].
  - f_equal. apply map_ext. intros pe. unfold np. cbn. lia.
  - assert (Hq : q < P) by (apply (H q x); left; reflexivity). rewrite nth_error_map_seq by exact Hq. cbn [bind].
    rewrite upd_map_seq by exact Hq. rewrite IH by (intros pe y Hy; apply (H pe y); right; exact Hy). f_equal. apply map_ext. intros pe. unfold np.
    destruct (Nat.eqb_spec pe q) as [->|Hne]; [rewrite picks_same|rewrite picks_other by congruence]; cbn [length]; lia.
Qed.
Definition total_np (pe : nat) ms : nat := list_sum (map (np pe) ms).
Lemma list_sum_cons a l : list_sum (a :: l) = a + list_sum l. Proof. reflexivity. Qed.
Lemma combine_map_seq (f g : nat -> nat) n : map (fun p => fst p + snd p) (combine (map f (seq 0 n)) (map g (seq 0 n))) = map (fun i => f i + g i) (seq 0 n).
Proof. generalize 0 as a. induction n as [|n IH]; intros a; [reflexivity|]. cbn [seq map combine fst snd]. rewrite IH. reflexivity. Qed.
Lemma prefix_ok ms : forall f, col_prefix_sum (map f (seq 0 P)) (map (fun m => map (fun pe => np pe m) (seq 0 P)) ms) =
  map (fun t => map (fun pe => f pe + total_np pe (firstn (S t) ms)) (seq 0 P)) (seq 0 (length ms)).
Proof.
  induction ms as [|m ms IH]; intros f; [reflexivity|]. cbn [map col_prefix_sum length seq].
  rewrite (combine_map_seq f (fun pe => np pe m) P). f_equal.
  - apply map_ext. intros pe. unfold total_np. destruct ms; cbn; lia.
  - rewrite IH. rewrite <- seq_shift, map_map. apply map_ext. intros t. apply map_ext. intros pe. unfold total_np. rewrite !firstn_cons. cbn [map]. rewrite !list_sum_cons. destruct ms; cbn [firstn map list_sum fold_right]; lia.
Qed.

Definition cell (pe : nat) (dt : list (nat * X) * list (nat * X)) : list (option X) := repeat None (np pe (snd dt)) ++ map Some (rev (picks pe (fst dt))).
Definition fstate (dts : list (list (nat * X) * list (nat * X))) : fill :=
  let ms := map (fun dt => fst dt ++ snd dt) dts in
  Fill (map snd dts)
       (map (fun t => map (fun pe => total_np pe (firstn t ms) + np pe (nth t (map snd dts) [])) (seq 0 P)) (seq 0 (length dts)))
       (map (fun pe => flat_map (cell pe) dts) (seq 0 P)).
Lemma cell_length pe dt : length (cell pe dt) = np pe (fst dt ++ snd dt).
Proof. unfold cell, np. rewrite app_length, repeat_length, map_length, rev_length, picks_app, app_length. lia. Qed.
Lemma cells_length pe dts : length (flat_map (cell pe) dts) = total_np pe (map (fun dt => fst dt ++ snd dt) dts).
Proof. induction dts as [|dt t IH]; [reflexivity|]. cbn [flat_map map]. unfold total_np in *. cbn [map]. rewrite list_sum_cons, app_length, cell_length, IH. reflexivity. Qed.

Lemma start_ok ms : (forall m, In m ms -> forall pe x, In (pe, x) m -> pe < P) -> fill_start P ms = Some (fstate (map (fun m => ([], m)) ms)).
Proof.
  intros H. unfold fill_start. assert (R0 : repeat 0 P = map (fun _ => 0) (seq 0 P)).
  { rewrite <- (seq_length P 0) at 1. induction (seq 0 P) as [|a l IH]; [reflexivity|]. cbn [length repeat map]. rewrite IH. reflexivity. }
  rewrite (traverse_ok _ (fun m => map (fun pe => np pe m) (seq 0 P))).
  2: { intros m Hm. rewrite R0, count_ok by exact (H m Hm). reflexivity. }
  cbn [bind]. unfold fstate. rewrite !map_map. cbn [fst snd app]. rewrite !map_id. rewrite !map_length. f_equal. f_equal.
  - rewrite R0, prefix_ok. apply map_ext_in. intros t Ht. apply in_seq in Ht. apply map_ext. intros pe. cbn [Nat.add].
    replace (firstn (S t) ms) with (firstn t ms ++ [nth t ms []]).
    + unfold total_np. rewrite map_app, list_sum_app. cbn. lia.
    + clear - Ht. revert t Ht. induction ms as [|a l IH]; intros [|t] Ht; cbn [length] in Ht; try lia; [destruct l; reflexivity|]. cbn [nth]. rewrite (firstn_cons (S t)), (firstn_cons t). cbn [app]. f_equal. apply IH. lia.
  - assert (L : last (col_prefix_sum (repeat 0 P) (map (fun m => map (fun pe => np pe m) (seq 0 P)) ms)) (repeat 0 P) = map (fun pe => total_np pe ms) (seq 0 P)).
    { rewrite R0, prefix_ok. destruct (length ms) as [|n] eqn:E.
      - destruct ms; [|discriminate]. reflexivity.
      - rewrite seq_S, map_app. cbn [map Nat.add]. rewrite last_last. rewrite <- E, firstn_all. reflexivity. }
    rewrite L, map_map. apply map_ext. intros pe. clear. induction ms as [|m ms IH]; [reflexivity|]. cbn [map flat_map]. unfold total_np in *. cbn [map]. rewrite list_sum_cons, repeat_app, IH.
    f_equal. unfold cell. cbn [fst snd picks filter map rev]. unfold picks. cbn [filter map rev]. rewrite app_nil_r. reflexivity.
Qed.

Lemma upd_app2 {Y} (a b : list Y) i x : upd (length a + i) x (a ++ b) = a ++ upd i x b.
Proof. induction a as [|h t IH]; cbn [length Nat.add app]; [reflexivity|]. unfold upd; fold (@upd Y). rewrite IH. reflexivity. Qed.
Lemma upd_app1 {Y} (a b : list Y) i x : i < length a -> upd i x (a ++ b) = upd i x a ++ b.
Proof. revert i. induction a as [|h t IH]; intros [|i] H; cbn [length app] in *; try lia; unfold upd; fold (@upd Y); [reflexivity|]. rewrite IH by lia. reflexivity. Qed.

Lemma step_ok dts t dn q x rest : nth_error dts t = Some (dn, (q, x) :: rest) -> q < P ->
  fill_step t (fstate dts) = Some (fstate (upd t (dn ++ [(q, x)], rest) dts)).
Proof.
  intros Ht Hq. destruct (nth_error_split dts t Ht) as (l1 & l2 & E & L). subst t.
  assert (Eu : upd (length l1) (dn ++ [(q, x)], rest) dts = l1 ++ (dn ++ [(q, x)], rest) :: l2).
  { rewrite E. rewrite <- (Nat.add_0_r (length l1)), upd_app2. reflexivity. }
  rewrite Eu. set (ms := map (fun dt => fst dt ++ snd dt) dts).
  assert (Ems : map (fun dt => fst dt ++ snd dt) (l1 ++ (dn ++ [(q, x)], rest) :: l2) = ms).
  { unfold ms. rewrite E, !map_app. cbn [map fst snd]. rewrite <- app_assoc. reflexivity. }
  assert (Hlen : length l1 < length dts) by (rewrite E, app_length; cbn [length]; lia).
  unfold fill_step, fstate. cbn [f_todo f_cnt f_bufs]. fold ms. rewrite Ems.
  rewrite map_nth_error with (d := (dn, (q, x) :: rest)) by exact Ht. cbn [bind snd].
  rewrite nth_error_map_seq by exact Hlen. cbn [bind]. rewrite nth_error_map_seq by exact Hq. cbn [bind].
  assert (En : nth (length l1) (map snd dts) [] = (q, x) :: rest).
  { rewrite E, map_app, app_nth2; rewrite map_length; [|lia]. rewrite Nat.sub_diag. reflexivity. }
  rewrite En. unfold np at 1. rewrite picks_same. cbn [length]. rewrite Nat.add_succ_r.
  rewrite nth_error_map_seq by exact Hq. cbn [bind].
  assert (Ebase : total_np q (firstn (length l1) ms) = length (flat_map (cell q) l1)).
  { rewrite cells_length. unfold ms. rewrite E, map_app, <- (map_length (fun dt => fst dt ++ snd dt) l1), firstn_app, firstn_all, Nat.sub_diag, app_nil_r. reflexivity. }
  assert (Eb : flat_map (cell q) dts = flat_map (cell q) l1 ++ (repeat None (length (picks q rest)) ++ None :: map Some (rev (picks q dn))) ++ flat_map (cell q) l2).
  { rewrite E, flat_map_app. cbn [flat_map]. f_equal. f_equal. unfold cell, np. cbn [fst snd]. rewrite picks_same. cbn [length repeat].
    change (None :: repeat None (length (picks q rest))) with (repeat (@None X) (S (length (picks q rest)))). replace (S (length (picks q rest))) with (length (picks q rest) + 1) by lia.
    rewrite repeat_app, <- app_assoc. reflexivity. }
  rewrite store_ok by (rewrite Eb, Ebase, !app_length; cbn [length]; rewrite repeat_length; lia). cbn [bind]. f_equal. f_equal.
  - rewrite E, !map_app. cbn [map snd]. rewrite <- (map_length snd l1). rewrite <- (Nat.add_0_r (length (map snd l1))), upd_app2. reflexivity.
  - rewrite !upd_map_seq by first [exact Hlen|exact Hq].
    replace (length (l1 ++ (dn ++ [(q, x)], rest) :: l2)) with (length dts) by (rewrite E, !app_length; reflexivity).
    apply map_ext_in. intros t Hin. apply in_seq in Hin. destruct (Nat.eqb_spec t (length l1)) as [->|Hne].
    + apply map_ext. intros pe. rewrite map_app, app_nth2; rewrite map_length; [|lia]. rewrite Nat.sub_diag. cbn [map nth snd].
      unfold np. destruct (Nat.eqb_spec pe q) as [->|Hne]; [reflexivity|]. rewrite picks_other by congruence. reflexivity.
    + apply map_ext. intros pe. f_equal. f_equal. rewrite E, !map_app. cbn [map snd]. destruct (Nat.lt_ge_cases t (length l1)).
      * rewrite !app_nth1 by (rewrite map_length; lia). reflexivity.
      * rewrite !app_nth2 by (rewrite map_length; lia). rewrite map_length. destruct (t - length l1) as [|j] eqn:Ej; [lia|]. reflexivity.
  - rewrite upd_map_seq by exact Hq. apply map_ext. intros pe. destruct (Nat.eqb_spec pe q) as [->|Hne].
    + rewrite Eb, Ebase, upd_app2, upd_app1 by (rewrite app_length, repeat_length; cbn [length]; lia).
      rewrite flat_map_app. cbn [flat_map]. f_equal. f_equal. unfold cell, np. cbn [fst snd]. rewrite picks_app, picks_same. unfold picks at 3. cbn [filter map]. rewrite rev_app_distr. cbn [rev app map].
      rewrite <- (repeat_length (@None X) (length (picks q rest))) at 1. rewrite <- (Nat.add_0_r (length (repeat _ _))), upd_app2. reflexivity.
    + rewrite E, !flat_map_app. cbn [flat_map]. f_equal. f_equal. unfold cell, np. cbn [fst snd]. rewrite picks_other by congruence. rewrite picks_app, picks_other by congruence.
      unfold picks at 5. cbn [filter map]. rewrite app_nil_r. reflexivity.
Qed.

Lemma run_ok ms : (forall m, In m ms -> forall pe x, In (pe, x) m -> pe < P) -> forall sched dts s,
  map (fun dt => fst dt ++ snd dt) dts = ms -> fill_run sched (fstate dts) = Some s ->
  exists dts', s = fstate dts' /\ map (fun dt => fst dt ++ snd dt) dts' = ms /\ length sched + length (concat (map snd dts')) = length (concat (map snd dts)).
Proof.
  intros H. induction sched as [|t r IH]; intros dts s Hms E; cbn [fill_run] in E.
  - injection E as <-. exists dts. auto.
  - destruct (fill_step t (fstate dts)) as [s1|] eqn:Es; cbn [bind] in E; [|discriminate].
    assert (Hs : exists dn q x rest, nth_error dts t = Some (dn, (q, x) :: rest)).
    { unfold fill_step in Es. cbn [fstate f_todo] in Es. destruct (nth_error dts t) as [[dn [|[q x] rest]]|] eqn:Et.
      - rewrite map_nth_error with (d := (dn, [])) in Es by exact Et. discriminate.
      - exists dn, q, x, rest. reflexivity.
      - assert (C : nth_error (map snd dts) t = None) by (apply nth_error_None; rewrite map_length; apply nth_error_None; exact Et). rewrite C in Es. discriminate. }
    destruct Hs as (dn & q & x & rest & Et).
    assert (Hq : q < P).
    { apply (H (dn ++ (q, x) :: rest)) with (x := x); [|rewrite in_app_iff; right; left; reflexivity]. rewrite <- Hms.
      apply in_map_iff. exists (dn, (q, x) :: rest). split; [reflexivity|]. exact (nth_error_In _ _ Et). }
    rewrite (step_ok dts t dn q x rest Et Hq) in Es. injection Es as <-.
    destruct (nth_error_split dts t Et) as (l1 & l2 & Ed & L). subst t.
    assert (Eu : upd (length l1) (dn ++ [(q, x)], rest) dts = l1 ++ (dn ++ [(q, x)], rest) :: l2).
    { rewrite Ed. rewrite <- (Nat.add_0_r (length l1)), upd_app2. reflexivity. }
    rewrite Eu in E. destruct (IH (l1 ++ (dn ++ [(q, x)], rest) :: l2) s) as (dts' & A & B & C); [|exact E|].
    { rewrite <- Hms, Ed, !map_app. cbn [map fst snd]. rewrite <- app_assoc. reflexivity. }
    exists dts'. split; [exact A|]. split; [exact B|]. rewrite Ed. rewrite !map_app, !concat_app, !app_length in *. cbn [map snd concat length app] in *. rewrite !app_length in *. cbn [length]. lia.
Qed.

Theorem fill_deterministic ms : (forall m, In m ms -> forall pe x, In (pe, x) m -> pe < P) ->
  exists s0, fill_start P ms = Some s0 /\ forall sched s, fill_run sched s0 = Some s ->
    length sched <= length (concat ms) /\
    (forall t todo, nth_error (f_todo s) t = Some todo -> todo <> [] -> exists s', fill_step t s = Some s') /\
    ((forall todo, In todo (f_todo s) -> todo = []) -> length sched = length (concat ms) /\
       f_bufs s = map (fun pe => map Some (flat_map (fun m => rev (map snd (filter (fun y => fst y =? pe) m))) ms)) (seq 0 P)).
Proof.
  intros H. eexists. split; [exact (start_ok ms H)|]. intros sched s E.
  assert (E0 : map (fun dt => fst dt ++ snd dt) (map (fun m => ([], m)) ms) = ms) by (rewrite map_map; cbn [fst snd app]; apply map_id).
  destruct (run_ok ms H sched _ s E0 E) as (dts & -> & Hms & Hl). rewrite map_map in Hl. cbn [snd] in Hl. rewrite map_id in Hl.
  split; [lia|]. split.
  - intros t todo Ht Hne. cbn [fstate f_todo] in Ht. destruct (nth_error dts t) as [[dn td]|] eqn:Et.
    + rewrite map_nth_error with (d := (dn, td)) in Ht by exact Et. cbn [snd] in Ht. injection Ht as ->. destruct todo as [|[q x] rest]; [congruence|].
      eexists. apply (step_ok dts t dn q x rest Et). apply (H (dn ++ (q, x) :: rest)) with (x := x); [|rewrite in_app_iff; right; left; reflexivity].
      rewrite <- Hms. apply in_map_iff. exists (dn, (q, x) :: rest). split; [reflexivity|]. exact (nth_error_In _ _ Et).
    + assert (C : nth_error (map snd dts) t = None) by (apply nth_error_None; rewrite map_length; apply nth_error_None; exact Et). rewrite C in Ht. discriminate.
  - intros Hz. cbn [fstate f_todo f_bufs] in *. assert (Ec : concat (map snd dts) = []).
    { clear - Hz. induction dts as [|dt t IH]; [reflexivity|]. cbn [map concat]. rewrite (Hz (snd dt)) by (left; reflexivity). apply IH. intros todo Ht. apply Hz. right. exact Ht. }
    rewrite Ec in Hl. cbn [length] in Hl. split; [lia|]. apply map_ext. intros pe. rewrite <- Hms. clear - Hz. induction dts as [|dt t IH]; [reflexivity|].
    cbn [flat_map map]. rewrite map_app. rewrite <- IH by (intros todo Ht; apply Hz; right; exact Ht). f_equal. unfold cell.
    rewrite (Hz (snd dt)) by (left; reflexivity). cbn [np picks filter map length repeat]. unfold np, picks. cbn [filter map length repeat app]. rewrite app_nil_r. reflexivity.
Qed.
End Fill.
