(* sparse_alltoall_grid delivers every message to its destination. *)
From Verif Require Import Lib.Prelude Model.GridModel Proofs.GridBase Proofs.GridTopo.

(** ** Matrices stored row by row *)
Section Matrix.
Context {A : Type}.
Definition mx (h : nat -> nat -> A) (l : list nat) (n : nat) : list A := concat (map (fun q => map (h q) (seq 0 n)) l).
Lemma mx_length h l n : length (mx h l n) = length l * n.
Proof. unfold mx. rewrite length_concat, map_map. induction l as [|q t IH]; [reflexivity|]. cbn [map length]. unfold list_sum in *. cbn [fold_right]. rewrite IH, map_length, seq_length. lia. Qed.
Lemma mx_chunk h l n : forall j, j < length l -> firstn n (skipn (j * n) (mx h l n)) = map (h (nth j l 0)) (seq 0 n).
Proof.
  induction l as [|q t IH]; intros j H; cbn [length] in H; [lia|]. unfold mx. cbn [map concat]. destruct j as [|j].
  - cbn [Nat.mul skipn nth]. rewrite firstn_app, map_length, seq_length, Nat.sub_diag, firstn_all2 by (rewrite map_length, seq_length; lia). cbn [firstn]. apply app_nil_r.
  - cbn [nth]. rewrite skipn_app, map_length, seq_length. rewrite skipn_all2 by (rewrite map_length, seq_length; cbn; lia). replace (S j * n - n) with (j * n) by lia. cbn [app]. apply IH. lia.
Qed.
Lemma mx_nth h l n d : forall j x, j < length l -> x < n -> nth (x + j * n) (mx h l n) d = h (nth j l 0) x.
Proof.
  induction l as [|q t IH]; intros j x H Hx; cbn [length] in H; [lia|]. unfold mx. cbn [map concat]. destruct j as [|j].
  - cbn [Nat.mul nth]. rewrite Nat.add_0_r, app_nth1 by (rewrite map_length, seq_length; lia). rewrite (nth_indep _ d (h q 0)) by (rewrite map_length, seq_length; lia).
    rewrite (map_nth (h q)), seq_nth by lia. reflexivity.
  - cbn [nth]. rewrite app_nth2 by (rewrite map_length, seq_length; cbn; lia). rewrite map_length, seq_length. replace (x + S j * n - n) with (x + j * n) by lia. apply IH; lia.
Qed.
End Matrix.
Lemma mx_map {A C} (F : A -> C) h l n : map F (mx h l n) = mx (fun q x => F (h q x)) l n.
Proof. unfold mx. rewrite concat_map, map_map. f_equal. apply map_ext. intros q. apply map_map. Qed.
Lemma map_nth_list {A} (F : nat -> A) l : map (fun j => F (nth j l 0)) (seq 0 (length l)) = map F l.
Proof.
  induction l as [|q t IH]; [reflexivity|]. cbn [length seq map nth]. f_equal. rewrite <- seq_shift, map_map. exact IH.
Qed.
Lemma map_const {A C} (z : C) (l : list A) : map (fun _ => z) l = repeat z (length l).
Proof. induction l as [|a t IH]; [reflexivity|]. cbn. rewrite IH. reflexivity. Qed.
Lemma concat_nil_repeat {A} n : concat (repeat (@nil A) n) = [].
Proof. induction n; [reflexivity|]. exact IHn. Qed.
Lemma concat_concat {A} (l : list (list (list A))) : concat (concat l) = concat (map (@concat A) l).
Proof. induction l as [|a t IH]; [reflexivity|]. cbn. rewrite concat_app, IH. reflexivity. Qed.
Lemma list_sum_repeat0 n : list_sum (repeat 0 n) = 0.
Proof. induction n; [reflexivity|]. exact IHn. Qed.
Lemma list_sum_repeat a n : list_sum (repeat a n) = n * a.
Proof. induction n as [|n IH]; [reflexivity|]. cbn [repeat]. unfold list_sum in *. cbn [fold_right]. rewrite IH. lia. Qed.
Lemma skipn_exact {A} (l : list A) n : length l <= n -> skipn n l = [].
Proof. intros. apply skipn_all2. exact H. Qed.
Lemma list_sum_concat l : list_sum (concat l) = list_sum (map list_sum l).
Proof. induction l as [|a t IH]; [reflexivity|]. cbn [concat map]. rewrite list_sum_app, IH. reflexivity. Qed.
Lemma sum_single F i : forall n b, list_sum (map (fun j => if j =? i then F j else 0) (seq b n)) = if (b <=? i) && (i <? b + n) then F i else 0.
Proof.
  induction n as [|n IH]; intros b; cbn [seq map].
  - destruct (Nat.leb_spec b i), (Nat.ltb_spec i (b + 0)); cbn; try reflexivity; lia.
  - unfold list_sum in *. cbn [fold_right]. rewrite IH. destruct (Nat.eqb_spec b i), (Nat.leb_spec (S b) i), (Nat.ltb_spec i (S b + n)), (Nat.leb_spec b i), (Nat.ltb_spec i (b + S n)); cbn [andb]; subst; lia.
Qed.

Section Delivery.
Variable P : nat.
Hypothesis HP : 0 < P.
Context {X : Type} (dummy : X).
Variable B : list (list (list X)).
Hypothesis HB : length B = P.
Hypothesis HBr : forall b, In b B -> length b = P.
Notation s := (gt_sqrt P).
Notation f := (gt_full_cols P).
Notation p := (gt_partial P).
Notation start := (start P).
Notation CM := (col_comm P).
Notation RM := (row_comm P).
Definition Bm (q d : nat) : list X := nth d (nth q B []) [].
Definition data := map (@concat X) B.
Definition counts := map (map (@length X)) B.
Lemma B_row r : r < P -> nth r B [] = map (Bm r) (seq 0 P).
Proof.
  intros H. assert (L : length (nth r B []) = P) by (apply HBr, nth_In; lia). unfold Bm. rewrite <- L at 1. symmetry. generalize (nth r B []). intros l.
  induction l as [|a t IH]; [reflexivity|]. cbn [length seq map nth]. f_equal. rewrite <- seq_shift, map_map. exact IH.
Qed.
Lemma nth_B r : r < P -> nth_error B r = Some (map (Bm r) (seq 0 P)).
Proof. intros H. rewrite (nth_error_nth' B []) by lia. f_equal. apply B_row, H. Qed.
Lemma nth_data r : r < P -> nth_error data r = Some (concat (map (Bm r) (seq 0 P))).
Proof. intros H. unfold data. rewrite (map_nth_error (@concat X) r B (nth_B r H)). reflexivity. Qed.
Lemma nth_counts r : r < P -> nth_error counts r = Some (map (fun d => length (Bm r d)) (seq 0 P)).
Proof. intros H. unfold counts. rewrite (map_nth_error (map (@length X)) r B (nth_B r H)). rewrite map_map. reflexivity. Qed.

(** Members of a column: one rank per row, and possibly a virtual one. *)
Lemma cm_shape {A} (F : nat -> A) z r : r < P -> map (fun d => if real P d then F (gt_row P d) else z) (CM r) = map F (seq 0 s) ++ repeat z (ccs P r - gt_rows P).
Proof.
  intros H. pose proof (vcol_lt P HP r H) as V. rewrite ccs_is, col_comm_is, vcol_size_eq by assumption. rewrite map_app, map_map. unfold gt_rows, gt_vcol_size. f_equal.
  - apply map_ext_in. intros j Hj. apply in_seq in Hj. destruct (real_col P HP j (gt_vcol P r)) as (_ & R1 & _ & _ & R2); [lia|exact V|]. rewrite R1, R2. reflexivity.
  - destruct (Nat.ltb_spec (gt_vcol P r) p) as [L|L].
    + destruct (virtual_col P HP (gt_vcol P r) L) as (_ & _ & _ & _ & R). cbn [map]. rewrite R. replace (s + 1 - s) with 1 by lia. reflexivity.
    + rewrite Nat.add_0_r, Nat.sub_diag. reflexivity.
Qed.
Lemma rcs_cases r : r < P -> rcs P r = f \/ (rcs P r = S f /\ gt_row P r < p).
Proof.
  intros H. rewrite rcs_is, row_size_eq by assumption. unfold gt_cols_in_row. destruct (Nat.ltb_spec (gt_row P r) p); [right; split; [lia|assumption]|left; lia].
Qed.
Lemma rm_shape {A} (F : nat -> A) z r : r < P -> map (fun q => if real P q then F (gt_col P q) else z) (RM r) = map F (seq 0 f) ++ repeat z (rcs P r - f).
Proof.
  intros H. destruct (pos_of P HP r H) as (HR & _). rewrite row_comm_is by assumption. unfold rmembers. rewrite <- rcs_is by assumption.
  assert (G : map (fun q => if real P q then F (gt_col P q) else z) (map (fun x => start (gt_row P r) + x) (seq 0 f)) = map F (seq 0 f)).
  { rewrite map_map. apply map_ext_in. intros x Hx. apply in_seq in Hx. destruct (real_col P HP (gt_row P r) x) as (_ & _ & R1 & _ & R2); [exact HR|lia|]. rewrite R1, R2. reflexivity. }
  destruct (rcs_cases r H) as [E|[E L]]; rewrite E.
  - rewrite G, Nat.sub_diag. symmetry. apply app_nil_r.
  - rewrite seq_S, !map_app, G. f_equal. cbn [map Nat.add]. destruct (virtual_col P HP (gt_row P r) L) as (_ & _ & _ & _ & R). rewrite R. replace (S f - f) with 1 by lia. reflexivity.
Qed.
Lemma rm_cols {A} (F : nat -> A) r : r < P -> map (fun q => F (gt_col P q)) (RM r) = map F (seq 0 (rcs P r)).
Proof.
  intros H. destruct (pos_of P HP r H) as (HR & _). rewrite row_comm_is by assumption. unfold rmembers. rewrite <- rcs_is, map_map by assumption. apply map_ext_in. intros x Hx. apply in_seq in Hx.
  destruct (pos_row_col P HP (gt_row P r) x) as [_ R]; [exact HR|rewrite <- rcs_is by assumption; lia|]. rewrite R. reflexivity.
Qed.
Lemma ccs_ge r : r < P -> s <= ccs P r.
Proof. intros H. rewrite ccs_is by assumption. unfold gt_vcol_size. lia. Qed.
Lemma rcs_ge r : r < P -> f <= rcs P r.
Proof. intros H. destruct (rcs_cases r H) as [E|[E _]]; lia. Qed.
Lemma in_cm r q : r < P -> In q (CM r) -> q < P.
Proof. intros H Hq. exact (proj1 (col_comm_mem P HP r q H Hq)). Qed.
Lemma in_rm r q : r < P -> In q (RM r) -> q < P /\ gt_row P q = gt_row P r.
Proof. intros H Hq. destruct (pos_of P HP r H) as (HR & _). rewrite row_comm_is in Hq by assumption. apply in_rmembers in Hq; assumption. Qed.

(** The message of [q] that row PE [r] keeps for column [x]. *)
Definition W (r q x : nat) : list X := if real P r then Bm q (start (gt_row P r) + x) else [].
Definition wl (r q x : nat) : nat := length (W r q x).
(** The messages of [q] for a row. *)
Definition rowblk (q row : nat) : list X := concat (map (fun x => Bm q (start row + x)) (seq 0 (gt_row_size P row))).
Lemma all_rows {A} (h : nat -> A) : map h (seq 0 P) = concat (map (fun row => map (fun x => h (start row + x)) (seq 0 (gt_row_size P row))) (seq 0 s)).
Proof. rewrite (seq_rows P HP), flat_map_concat_map, concat_map, map_map. f_equal. apply map_ext. intros row. apply map_map. Qed.

(** Step 1. *)
Definition RC (r : nat) : list nat := mx (wl r) (CM r) (rcs P r).
Definition blk1 (q d : nat) : list nat := if real P d then map (fun x => length (Bm q (start (gt_row P d) + x))) (seq 0 (gt_row_size P (gt_row P d))) else [].
Lemma step1 : g_step1 P counts = Some (map RC (seq 0 P)).
Proof.
  unfold g_step1.
  set (h := fun r => let sc := map (gt_cols_in_row P) (seq 0 (gt_rows P)) ++ repeat 0 (ccs P r - gt_rows P) in
    let rc := repeat (if real P r then gt_row_size P (gt_row P r) else 0) (ccs P r) in
    Coll (map (fun d => length (Bm r d)) (seq 0 P)) sc (displs sc) (repeat 0 (rcs P r * ccs P r)) rc (displs rc)).
  rewrite (traverse_ok _ h). 2:{ intros r Hr. apply in_seq in Hr. unfold g_args1. pose proof (ccs_ge r ltac:(lia)). unfold gt_rows. destruct (Nat.ltb_spec (ccs P r) s); [lia|]. rewrite nth_counts by lia. reflexivity. }
  cbn [bind].
  assert (L1 : forall r, r < P -> c_rcnt (h r) = map (fun q => length (blk1 q r)) (CM r)).
  { intros r H. cbn [h c_rcnt]. unfold blk1, ccs. rewrite <- map_const. apply map_ext. intros q. destruct (real P r); [rewrite map_length, seq_length; reflexivity|reflexivity]. }
  rewrite (alltoallv_all_ok P CM h blk1 (fun _ => [])).
  - f_equal. apply map_ext_in. intros r Hr. apply in_seq in Hr. assert (H : r < P) by lia. cbn [h c_rcnt c_recv]. rewrite list_sum_repeat. unfold RC, mx, blk1, wl, W.
    destruct (real P r) eqn:ER.
    + rewrite rcs_is by assumption. rewrite skipn_exact by (rewrite repeat_length; lia). rewrite app_nil_r. reflexivity.
    + rewrite Nat.mul_0_r. cbn [skipn]. rewrite map_const, concat_nil_repeat. cbn [app]. unfold ccs. clear. generalize (rcs P r). intros n. cbn [length]. induction (CM r) as [|q t IH]; [rewrite Nat.mul_0_r; reflexivity|].
      cbn [length map concat]. rewrite <- IH. rewrite map_const, seq_length, <- repeat_app. f_equal. lia.
  - intros r H. apply (comm_self P HP r H).
  - intros r q H. apply (col_comm_mem P HP r q H).
  - intros r H. cbn [h c_send]. rewrite app_nil_r, all_rows. unfold blk1. rewrite (cm_shape (fun row => map (fun x => length (Bm r (start row + x))) (seq 0 (gt_row_size P row))) []) by exact H.
    rewrite concat_app, concat_nil_repeat, app_nil_r. reflexivity.
  - intros r H. cbn [h c_scnt]. rewrite <- (cm_shape (gt_cols_in_row P) 0) by exact H. apply map_ext. intros d. unfold blk1. destruct (real P d); [|reflexivity]. rewrite map_length, seq_length. symmetry. apply row_size_eq, HP.
  - reflexivity.
  - exact L1.
  - reflexivity.
  - intros r H. cbn [h c_rcnt c_recv]. rewrite list_sum_repeat, repeat_length. destruct (real P r); [rewrite rcs_is by assumption; lia|lia].
Qed.

(** Step 2. *)
Definition blk2 (q d : nat) : list X := concat (map (W d q) (seq 0 (rcs P d))).
Definition Buf (r : nat) : list X := concat (mx (W r) (CM r) (rcs P r)).
Lemma blk2_is q d : d < P -> blk2 q d = if real P d then rowblk q (gt_row P d) else [].
Proof.
  intros H. unfold blk2, rowblk, W. rewrite rcs_is by assumption. destruct (real P d); [reflexivity|]. rewrite map_const. apply concat_nil_repeat.
Qed.
Lemma row_send_fold (c : nat -> nat) cnt l : forall a, (forall pe, In pe l -> gt_row P pe < length a /\ nth_error cnt pe = Some (c pe)) ->
  fold_left (fun acc pe => bind acc (fun l => bind (nth_error cnt pe) (fun x => bind (nth_error l (gt_row P pe)) (fun y => Some (upd (gt_row P pe) (y + x) l))))) l (Some a) =
  Some (map (fun i => nth i a 0 + list_sum (map (fun pe => if gt_row P pe =? i then c pe else 0) l)) (seq 0 (length a))).
Proof.
  induction l as [|pe t IH]; intros a H; cbn [fold_left].
  - f_equal. cbn [map]. symmetry. rewrite (map_ext _ (fun i => nth i a 0)) by (intros; cbn; lia). apply map_nth_seq.
  - destruct (H pe (or_introl eq_refl)) as [H1 H2]. cbn [bind]. rewrite H2. cbn [bind]. rewrite (nth_error_nth' a 0) by exact H1. cbn [bind].
    rewrite IH by (intros q Hq; rewrite upd_length; apply H; right; exact Hq). f_equal. rewrite upd_length. apply map_ext_in. intros i Hi. apply in_seq in Hi.
    rewrite upd_nth. cbn [map]. unfold list_sum. cbn [fold_right]. replace (gt_row P pe <? length a) with true by (symmetry; apply Nat.ltb_lt; exact H1). rewrite andb_true_r.
    destruct (Nat.eqb_spec (gt_row P pe) i) as [E|N]; [rewrite E; lia|lia].
Qed.
Lemma row_send_ok r : r < P -> g_row_send P r (map (fun d => length (Bm r d)) (seq 0 P)) = Some (map (fun d => length (blk2 r d)) (CM r)).
Proof.
  intros H. unfold g_row_send. rewrite (row_send_fold (fun d => length (Bm r d))).
  - f_equal. rewrite repeat_length.
    assert (E : map (fun d => length (blk2 r d)) (CM r) = map (fun row => length (rowblk r row)) (seq 0 s) ++ repeat 0 (ccs P r - s)).
    { rewrite <- (cm_shape (fun row => length (rowblk r row)) 0) by exact H. apply map_ext_in. intros d Hd. rewrite blk2_is by (apply (in_cm r d H Hd)). destruct (real P d); reflexivity. }
    rewrite E. pose proof (ccs_ge r H) as G.
    assert (S : forall i, list_sum (map (fun pe => if gt_row P pe =? i then length (Bm r pe) else 0) (seq 0 P)) = if i <? s then length (rowblk r i) else 0).
    { intros i. rewrite all_rows, list_sum_concat, map_map.
      transitivity (list_sum (map (fun row => if row =? i then length (rowblk r row) else 0) (seq 0 s))); [|rewrite sum_single; reflexivity].
      f_equal. apply map_ext_in. intros row Hrow. apply in_seq in Hrow.
      transitivity (list_sum (map (fun x => if row =? i then length (Bm r (start row + x)) else 0) (seq 0 (gt_row_size P row)))).
      - f_equal. apply map_ext_in. intros x Hx. apply in_seq in Hx. destruct (pos_row_col P HP row x) as [R _]; [lia|lia|]. rewrite R. reflexivity.
      - destruct (row =? i); [unfold rowblk; rewrite length_concat, map_map; reflexivity|]. rewrite map_const. apply list_sum_repeat0. }
    assert (EQ : seq 0 (ccs P r) = seq 0 (s + (ccs P r - s))) by (f_equal; lia). rewrite EQ, seq_app, map_app. cbn [Nat.add]. f_equal.
    + apply map_ext_in. intros i Hi. apply in_seq in Hi. rewrite S. destruct (Nat.ltb_spec i s); [|lia]. rewrite nth_repeat. reflexivity.
    + rewrite <- (seq_length (ccs P r - s) s) at 2. rewrite <- map_const. apply map_ext_in. intros i Hi. apply in_seq in Hi. rewrite S, nth_repeat. destruct (Nat.ltb_spec i s); [lia|reflexivity].
  - intros pe Hpe. apply in_seq in Hpe. rewrite repeat_length. split; [|exact (nth_error_map_seq (fun d => length (Bm r d)) P pe ltac:(lia))]. destruct (pos_of P HP pe) as (A & _); [lia|]. pose proof (ccs_ge r H). lia.
Qed.
Lemma list_sum_wl r q n : list_sum (map (wl r q) (seq 0 n)) = length (concat (map (W r q) (seq 0 n))).
Proof. rewrite length_concat, map_map. reflexivity. Qed.
Lemma row_recv_ok r : r < P -> g_row_recv P r (RC r) = map (fun q => length (blk2 q r)) (CM r).
Proof.
  intros H. unfold g_row_recv. rewrite <- (map_nth_list (fun q => length (blk2 q r))). unfold ccs. apply map_ext_in. intros j Hj. apply in_seq in Hj. unfold RC. rewrite mx_chunk by lia. apply list_sum_wl.
Qed.
Lemma step2 : g_step2 P dummy data counts (map RC (seq 0 P)) = Some (map Buf (seq 0 P)).
Proof.
  unfold g_step2.
  set (h := fun r => let sc := map (fun d => length (blk2 r d)) (CM r) in let rv := map (fun q => length (blk2 q r)) (CM r) in
    Coll (concat (map (Bm r) (seq 0 P))) sc (displs sc) (repeat dummy (list_sum rv)) rv (displs rv)).
  rewrite (traverse_ok _ h). 2:{ intros r Hr. apply in_seq in Hr. unfold g_args2. rewrite nth_data, nth_counts by lia. cbn [bind]. rewrite nth_error_map_seq by lia. cbn [bind]. rewrite row_send_ok by lia. cbn [bind]. rewrite row_recv_ok by lia. reflexivity. }
  cbn [bind]. rewrite (alltoallv_all_ok P CM h blk2 (fun _ => [])).
  - f_equal. apply map_ext_in. intros r Hr. cbn [h c_rcnt c_recv]. rewrite skipn_exact by (rewrite repeat_length; lia). rewrite app_nil_r. unfold Buf, mx. rewrite concat_concat, map_map. reflexivity.
  - intros r H. apply (comm_self P HP r H).
  - intros r q H. apply (col_comm_mem P HP r q H).
  - intros r H. cbn [h c_send]. rewrite app_nil_r, all_rows, concat_concat, map_map.
    rewrite (map_ext_in (blk2 r) (fun d => if real P d then rowblk r (gt_row P d) else [])) by (intros d Hd; apply blk2_is, (in_cm r d H Hd)).
    rewrite (cm_shape (rowblk r) []) by exact H. rewrite concat_app, concat_nil_repeat, app_nil_r. reflexivity.
  - reflexivity.
  - reflexivity.
  - reflexivity.
  - reflexivity.
  - intros r H. cbn [h c_rcnt c_recv]. rewrite repeat_length. lia.
Qed.

(** Step 3. *)
Definition msgs (r x : nat) : list (list X) := map (fun q => Bm q r) (cmembers P x).
Definition blk3 (q d : nat) : list nat := if real P q then map (fun q' => wl q q' (gt_col P d)) (CM q) else [].
Definition Sub (r : nat) : list nat := concat (map (fun x => map (@length X) (msgs r x)) (seq 0 f)).
Lemma entries_ok r x : r < P -> x < rcs P r -> map (g_entry P r (RC r) x) (seq 0 (ccs P r)) = map (fun q => wl r q x) (CM r).
Proof.
  intros H Hx. rewrite <- (map_nth_list (fun q => wl r q x)). unfold ccs. apply map_ext_in. intros j Hj. apply in_seq in Hj. unfold g_entry, RC. apply mx_nth; [lia|exact Hx].
Qed.
(** What real PE [q] of the row of [r] has for [r]. *)
Lemma W_real q q' r : r < P -> In q (RM r) -> real P q = true -> W q q' (gt_col P r) = Bm q' r.
Proof.
  intros H Hq E. destruct (in_rm r q H Hq) as [_ R]. unfold W. rewrite E, R. destruct (pos_of P HP r H) as (_ & _ & Q). rewrite <- Q. reflexivity.
Qed.
Lemma CM_real q : q < P -> real P q = true -> CM q = cmembers P (gt_col P q).
Proof. intros H E. rewrite col_comm_is by assumption. unfold real in E. apply Nat.eqb_eq in E. rewrite E. reflexivity. Qed.
Lemma blk3_to r : r < P -> map (fun q => blk3 q r) (RM r) = map (fun x => map (@length X) (msgs r x)) (seq 0 f) ++ repeat [] (rcs P r - f).
Proof.
  intros H. rewrite <- (rm_shape (fun x => map (@length X) (msgs r x)) []) by exact H. apply map_ext_in. intros q Hq. unfold blk3. destruct (real P q) eqn:E; [|reflexivity].
  rewrite CM_real by (trivial; apply (in_rm r q H Hq)). unfold msgs, wl. rewrite map_map. apply map_ext. intros q'. rewrite (W_real q q' r H Hq E). reflexivity.
Qed.
Lemma msgs_length r x : length (msgs r x) = gt_vcol_size P x.
Proof. unfold msgs, cmembers. rewrite !map_length, seq_length. reflexivity. Qed.
Lemma step3 : g_step3 P (map RC (seq 0 P)) = Some (map Sub (seq 0 P)).
Proof.
  unfold g_step3.
  set (h := fun r => let sc := repeat (if real P r then ccs P r else 0) (rcs P r) in let rv := map (gt_vcol_size P) (seq 0 f) ++ repeat 0 (rcs P r - f) in
    Coll (g_col_subcounts P r (RC r)) sc (displs sc) (repeat 0 P) rv (displs rv)).
  assert (EV : forall r, r < P -> list_sum (c_rcnt (h r)) = P).
  { intros r H. cbn [h c_rcnt]. rewrite list_sum_app, list_sum_repeat0, vcol_sizes by exact HP. lia. }
  rewrite (traverse_ok _ h). 2:{ intros r Hr. apply in_seq in Hr. unfold g_args3. pose proof (rcs_ge r ltac:(lia)). destruct (Nat.ltb_spec (rcs P r) f); [lia|]. rewrite nth_error_map_seq by lia. reflexivity. }
  cbn [bind]. rewrite (alltoallv_all_ok P RM h blk3 (fun r => if real P r then [] else g_col_subcounts P r (RC r))).
  - f_equal. apply map_ext_in. intros r Hr. apply in_seq in Hr. rewrite EV by lia. cbn [h c_recv]. rewrite skipn_exact by (rewrite repeat_length; lia). rewrite app_nil_r, blk3_to by lia.
    rewrite concat_app, concat_nil_repeat, app_nil_r. reflexivity.
  - intros r H. apply (comm_self P HP r H).
  - intros r q H. apply (row_comm_mem P HP r q H).
  - intros r H. cbn [h c_send]. unfold blk3. destruct (real P r).
    + rewrite app_nil_r. rewrite (rm_cols (fun x => map (fun q' => wl r q' x) (CM r))) by exact H. unfold g_col_subcounts. rewrite flat_map_concat_map. f_equal. apply map_ext_in. intros x Hx. apply in_seq in Hx. apply entries_ok; [exact H|lia].
    + rewrite map_const, concat_nil_repeat. reflexivity.
  - intros r H. cbn [h c_scnt]. unfold rcs at 1. rewrite <- map_const. apply map_ext. intros d. unfold blk3. destruct (real P r); [rewrite map_length; reflexivity|reflexivity].
  - reflexivity.
  - intros r H. cbn [h c_rcnt]. rewrite <- map_map with (f := fun q => blk3 q r), blk3_to by exact H. rewrite map_app, map_map. f_equal.
    + apply map_ext. intros x. rewrite map_length, msgs_length. reflexivity.
    + generalize (rcs P r - f). intros n. induction n; [reflexivity|]. cbn. rewrite <- IHn. reflexivity.
  - reflexivity.
  - intros r H. rewrite EV by exact H. cbn [h c_recv]. rewrite repeat_length. lia.
Qed.

(** Step 4. *)
Definition blk4 (q d : nat) : list X := concat (map (fun q' => W q q' (gt_col P d)) (CM q)).
Definition Col (r : nat) : list X := concat (map (fun x => concat (msgs r x)) (seq 0 f)).
Lemma split_sums_ok {A} (F : A -> list nat) l : split_sums (map (fun x => length (F x)) l) (concat (map F l)) = Some (map (fun x => list_sum (F x)) l).
Proof.
  induction l as [|x t IH]; [reflexivity|]. cbn [map concat split_sums]. rewrite app_length. destruct (Nat.ltb_spec (length (F x) + length (concat (map F t))) (length (F x))); [lia|].
  rewrite skipn_app, skipn_all, Nat.sub_diag. cbn [skipn app]. rewrite IH. cbn [bind]. rewrite firstn_app, firstn_all, Nat.sub_diag. cbn [firstn]. rewrite app_nil_r. reflexivity.
Qed.
Lemma blk4_to r : r < P -> map (fun q => blk4 q r) (RM r) = map (fun x => concat (msgs r x)) (seq 0 f) ++ repeat [] (rcs P r - f).
Proof.
  intros H. rewrite <- (rm_shape (fun x => concat (msgs r x)) []) by exact H. apply map_ext_in. intros q Hq. unfold blk4. destruct (real P q) eqn:E.
  - rewrite CM_real by (trivial; apply (in_rm r q H Hq)). unfold msgs. f_equal. apply map_ext. intros q'. apply (W_real q q' r H Hq E).
  - unfold W. rewrite E, map_const. apply concat_nil_repeat.
Qed.
Lemma col_counts_ok r : r < P -> g_col_counts P r (RC r) = map (fun d => length (blk4 r d)) (RM r).
Proof.
  intros H. unfold blk4. rewrite (rm_cols (fun x => length (concat (map (fun q' => W r q' x) (CM r))))) by exact H. unfold g_col_counts. apply map_ext_in. intros x Hx. apply in_seq in Hx.
  rewrite entries_ok by (trivial; lia). rewrite length_concat, map_map. reflexivity.
Qed.
Lemma col_data_ok r : r < P -> g_col_data P r (RC r) (Buf r) = Some (concat (map (blk4 r) (RM r))).
Proof.
  intros H. unfold g_col_data. rewrite (traverse_ok _ (fun cr => W r (nth (snd cr) (CM r) 0) (fst cr))).
  - cbn [option_map]. f_equal. rewrite flat_map_concat_map, concat_map, map_map, concat_concat, map_map. unfold blk4. rewrite (rm_cols (fun x => concat (map (fun q' => W r q' x) (CM r)))) by exact H.
    f_equal. apply map_ext. intros x. rewrite map_map. cbn [fst snd]. unfold ccs. rewrite (map_nth_list (fun q => W r q x)). reflexivity.
  - intros [x j] Hx. cbn [fst snd]. apply in_flat_map in Hx. destruct Hx as (x' & Hx' & Hj). apply in_map_iff in Hj. destruct Hj as (j' & Ej & Hj). injection Ej as <- <-. apply in_seq in Hx'. apply in_seq in Hj. unfold ccs in Hj.
    set (i := j' * rcs P r + x'). assert (Hi : i < length (mx (W r) (CM r) (rcs P r))) by (rewrite mx_length; unfold i; nia).
    assert (ER : RC r = map (@length X) (mx (W r) (CM r) (rcs P r))) by (rewrite mx_map; reflexivity).
    assert (EN : nth i (mx (W r) (CM r) (rcs P r)) [] = W r (nth j' (CM r) 0) x') by (unfold i; rewrite Nat.add_comm; apply mx_nth; lia).
    rewrite ER. rewrite (nth_error_nth _ _ 0 (displs_nth (map (@length X) (mx (W r) (CM r) (rcs P r))) i ltac:(rewrite map_length; lia))).
    assert (EL : nth i (map (@length X) (mx (W r) (CM r) (rcs P r))) 0 = length (nth i (mx (W r) (CM r) (rcs P r)) [])) by (rewrite <- (map_nth (@length X)); reflexivity). rewrite EL. unfold Buf. rewrite <- (app_nil_r (concat (mx (W r) (CM r) (rcs P r)))). rewrite slice_concat by exact Hi. rewrite EN. reflexivity.
Qed.
Lemma step4 : g_step4 P dummy (map RC (seq 0 P)) (map Buf (seq 0 P)) (map Sub (seq 0 P)) = Some (map Col (seq 0 P)).
Proof.
  unfold g_step4.
  set (h := fun r => let rv := map (fun x => list_sum (map (@length X) (msgs r x))) (seq 0 f) ++ repeat 0 (rcs P r - f) in let sc := map (fun d => length (blk4 r d)) (RM r) in
    Coll (concat (map (blk4 r) (RM r))) sc (displs sc) (repeat dummy (list_sum rv)) rv (displs rv)).
  rewrite (traverse_ok _ h).
  2:{ intros r Hr. apply in_seq in Hr. unfold g_args4. pose proof (rcs_ge r ltac:(lia)). destruct (Nat.ltb_spec (rcs P r) f); [lia|]. rewrite !nth_error_map_seq by lia. cbn [bind].
      unfold Sub. rewrite (map_ext (gt_vcol_size P) (fun x => length (map (@length X) (msgs r x)))) by (intros x; rewrite map_length, msgs_length; reflexivity). rewrite split_sums_ok. cbn [bind].
      rewrite col_data_ok by lia. cbn [bind]. rewrite col_counts_ok by lia. reflexivity. }
  cbn [bind]. rewrite (alltoallv_all_ok P RM h blk4 (fun _ => [])).
  - f_equal. apply map_ext_in. intros r Hr. apply in_seq in Hr. cbn [h c_recv c_rcnt]. rewrite skipn_exact by (rewrite repeat_length; lia). rewrite app_nil_r, blk4_to by lia.
    rewrite concat_app, concat_nil_repeat, app_nil_r. reflexivity.
  - intros r H. apply (comm_self P HP r H).
  - intros r q H. apply (row_comm_mem P HP r q H).
  - intros r H. cbn [h c_send]. rewrite app_nil_r. reflexivity.
  - reflexivity.
  - reflexivity.
  - intros r H. cbn [h c_rcnt]. rewrite <- map_map with (f := fun q => blk4 q r), blk4_to by exact H. rewrite map_app, map_map. f_equal.
    + apply map_ext. intros x. rewrite length_concat. reflexivity.
    + generalize (rcs P r - f). intros n. induction n; [reflexivity|]. cbn. rewrite <- IHn. reflexivity.
  - reflexivity.
  - intros r H. cbn [h c_recv c_rcnt]. rewrite repeat_length. lia.
Qed.

(** The calls of the receiver. *)
Lemma deliver_ok (m : nat * nat -> list X) l : g_deliver P l (map (fun cr => length (m cr)) l) (concat (map m l)) = Some (map (fun cr => (gt_velem P (snd cr) (fst cr), m cr)) l).
Proof.
  induction l as [|[col row] t IH]; [reflexivity|]. cbn [map concat g_deliver]. rewrite app_length. destruct (Nat.ltb_spec (length (m (col, row)) + length (concat (map m t))) (length (m (col, row)))); [lia|].
  rewrite skipn_app, skipn_all, Nat.sub_diag. cbn [skipn app]. rewrite IH. cbn [bind]. rewrite firstn_app, firstn_all, Nat.sub_diag. cbn [firstn]. rewrite app_nil_r. reflexivity.
Qed.
Definition call (r : nat) (q : nat) : nat * list X := (q, Bm q r).
Theorem grid_ok : grid_alltoall_buffers P dummy B = Some (map (fun r => map (call r) (map (fun cr => gt_velem P (snd cr) (fst cr)) (g_order P))) (seq 0 P)).
Proof.
  unfold grid_alltoall_buffers, grid_alltoall. fold data counts. rewrite step1. cbn [bind]. rewrite step2. cbn [bind]. rewrite step3. cbn [bind]. rewrite step4. cbn [bind].
  apply traverse_ok. intros r Hr. apply in_seq in Hr. rewrite !nth_error_map_seq by lia. cbn [bind].
  set (m := fun cr => Bm (gt_velem P (snd cr) (fst cr)) r).
  assert (EM : map m (g_order P) = concat (map (msgs r) (seq 0 f))).
  { unfold g_order. rewrite flat_map_concat_map, concat_map, map_map. f_equal. apply map_ext. intros x. unfold msgs, cmembers. rewrite !map_map. reflexivity. }
  assert (E1 : Sub r = map (fun cr => length (m cr)) (g_order P)).
  { rewrite <- (map_map m (@length X)), EM, concat_map, map_map. reflexivity. }
  assert (E2 : Col r = concat (map m (g_order P))) by (rewrite EM, concat_concat, map_map; reflexivity).
  rewrite E1, E2, deliver_ok, map_map. reflexivity.
Qed.
Theorem grid_delivers : exists calls, grid_alltoall_buffers P dummy B = Some calls /\ length calls = P /\
  forall d, d < P -> Permutation (nth d calls []) (map (fun r => (r, nth d (nth r B []) [])) (seq 0 P)).
Proof.
  eexists. split; [apply grid_ok|]. split; [rewrite map_length, seq_length; reflexivity|]. intros d Hd.
  rewrite (nth_error_nth _ _ [] (nth_error_map_seq _ P d Hd)). apply (Permutation_map (call d)), order_perm, HP.
Qed.

(** ** alltoall.h *)
Theorem dense_ok : dense_alltoall P dummy B = Some (map (fun d => map (call d) (seq 0 P)) (seq 0 P)).
Proof.
  unfold dense_alltoall.
  set (h1 := fun r => Coll (map (fun d => length (Bm r d)) (seq 0 P)) (repeat 1 P) (displs (repeat 1 P)) (repeat 0 P) (repeat 1 P) (displs (repeat 1 P))).
  rewrite (traverse_ok _ h1). 2:{ intros r Hr. apply in_seq in Hr. rewrite nth_B by lia. cbn [bind]. rewrite map_map. reflexivity. }
  cbn [bind]. set (rc := fun d => map (fun r => length (Bm r d)) (seq 0 P)).
  assert (M1 : forall r, r < P -> In r (seq 0 P)) by (intros; apply in_seq; lia).
  assert (M2 : forall r q, r < P -> In q (seq 0 P) -> q < P /\ seq 0 P = seq 0 P) by (intros r q _ Hq; apply in_seq in Hq; split; [lia|reflexivity]).
  rewrite (alltoallv_all_ok P (fun _ => seq 0 P) h1 (fun q d => [length (Bm q d)]) (fun _ => [])).
  2,3: assumption. 4,6: reflexivity.
  2:{ intros r H. cbn [h1 c_send]. rewrite app_nil_r. generalize (seq 0 P). intros l. induction l as [|a t IH]; [reflexivity|]. cbn. f_equal. exact IH. }
  2:{ intros r H. cbn [h1 c_scnt length]. rewrite map_const, seq_length. reflexivity. }
  2:{ intros r H. cbn [h1 c_rcnt length]. rewrite map_const, seq_length. reflexivity. }
  2:{ intros r H. cbn [h1 c_rcnt c_recv]. rewrite list_sum_repeat, repeat_length. lia. }
  cbn [bind h1 c_rcnt c_recv].
  assert (ER : map (fun r => concat (map (fun q => [length (Bm q r)]) (seq 0 P)) ++ skipn (list_sum (repeat 1 P)) (repeat 0 P)) (seq 0 P) = map rc (seq 0 P)).
  { apply map_ext. intros r. rewrite list_sum_repeat, skipn_exact by (rewrite repeat_length; lia). rewrite app_nil_r. unfold rc. generalize (seq 0 P). intros l. induction l as [|a t IH]; [reflexivity|]. cbn. f_equal. exact IH. }
  rewrite ER.
  set (h2 := fun r => let sc := map (fun d => length (Bm r d)) (seq 0 P) in Coll (concat (map (Bm r) (seq 0 P))) sc (displs sc) (repeat dummy (list_sum (rc r) + last (rc r) 0)) (rc r) (displs (rc r))).
  rewrite (traverse_ok _ h2). 2:{ intros r Hr. apply in_seq in Hr. rewrite nth_B by lia. cbn [bind]. rewrite nth_error_map_seq by lia. cbn [bind]. rewrite map_map. reflexivity. }
  cbn [bind]. rewrite (alltoallv_all_ok P (fun _ => seq 0 P) h2 (fun q d => Bm q d) (fun _ => [])).
  2,3: assumption. 2:{ intros r H. cbn [h2 c_send]. rewrite app_nil_r. reflexivity. } 2,3,4,5: reflexivity.
  2:{ intros r H. cbn [h2 c_rcnt c_recv]. rewrite repeat_length. lia. }
  cbn [bind]. apply traverse_ok. intros d Hd. apply in_seq in Hd. rewrite !nth_error_map_seq by lia. cbn [bind]. apply traverse_ok. intros q Hq. apply in_seq in Hq.
  assert (EC : rc d = map (@length X) (map (fun q => Bm q d) (seq 0 P))) by (rewrite map_map; reflexivity).
  unfold rc at 1. rewrite nth_error_map_seq by lia. cbn [bind]. rewrite displs_nth by (unfold rc; rewrite map_length, seq_length; lia). cbn [bind]. rewrite EC at 1.
  assert (EN : nth q (map (fun q => Bm q d) (seq 0 P)) [] = Bm q d) by (apply (nth_error_nth _ _ [] (nth_error_map_seq (fun q => Bm q d) P q ltac:(lia)))).
  rewrite <- EN at 1. rewrite slice_concat by (rewrite map_length, seq_length; lia). rewrite EN. reflexivity.
Qed.
End Delivery.
