(* The merge of two proposals of the distributed balancer. *)
From Coq Require Import Sorting.Sorted QArith.
From Verif Require Import Lib.Prelude Model.DistBalancerModel Spec.DistBalancerSpec Proofs.LpOrderProofs.
Open Scope nat_scope.

(** ** Compaction *)
Lemma swap_split {X} : forall (p : list X) x q y s,
  swap (length p) (length p + S (length q)) (p ++ x :: q ++ y :: s) = Some (p ++ y :: q ++ x :: s).
Proof.
  intros p x q y s. unfold swap.
  rewrite nth_error_app2, Nat.sub_diag by lia. cbn [nth_error].
  rewrite nth_error_app2 by lia. replace (length p + S (length q) - length p) with (S (length q)) by lia. cbn [nth_error].
  rewrite nth_error_app2, Nat.sub_diag by lia. cbn [nth_error]. f_equal.
  assert (U : forall (a : list X) u v b, upd (length a) v (a ++ u :: b) = a ++ v :: b).
  { intros a u v b. induction a as [|z a IH]; [reflexivity|]. cbn [app length]. unfold upd in *. cbn. rewrite IH. reflexivity. }
  rewrite U. replace (p ++ y :: q ++ y :: s) with ((p ++ y :: q) ++ y :: s) by (rewrite <- app_assoc; reflexivity).
  replace (length p + S (length q)) with (length (p ++ y :: q)) by (rewrite app_length; reflexivity). rewrite U, <- app_assoc. reflexivity.
Qed.

Definition accepted (l : list (bool * cand)) : list cand := map snd (filter fst l).
Definition rejected (l : list (bool * cand)) : list cand := map snd (filter (fun e => negb (fst e)) l).
Lemma accepted_app : forall a b, accepted (a ++ b) = accepted a ++ accepted b.
Proof. intros. unfold accepted. rewrite filter_app, map_app. reflexivity. Qed.
Lemma rejected_app : forall a b, rejected (a ++ b) = rejected a ++ rejected b.
Proof. intros. unfold rejected. rewrite filter_app, map_app. reflexivity. Qed.
Lemma acc_rej : forall l, Permutation (accepted l ++ rejected l) (map snd l).
Proof.
  induction l as [|[[] c] l IH]; [apply Permutation_refl| |].
  - cbn. apply perm_skip. exact IH.
  - cbn [map snd]. change (accepted ((false, c) :: l)) with (accepted l). change (rejected ((false, c) :: l)) with (c :: rejected l).
    eapply perm_trans; [apply Permutation_sym, Permutation_middle|]. apply perm_skip. exact IH.
Qed.
Lemma accepted_perm : forall a b, Permutation a b -> Permutation (accepted a) (accepted b).
Proof. intros a b H. unfold accepted. apply Permutation_map, perm_filter. exact H. Qed.
Lemma all_true : forall l, Forall (fun e => fst e = true) l -> accepted l = map snd l.
Proof. induction l as [|[b c] l IH]; intros H; [reflexivity|]. inversion H; subst. cbn in H2. subst b. cbn. f_equal. apply IH. assumption. Qed.

(** The array: [good] (accepted, before [i]), the rest of the looked-at prefix, the tail. *)
Lemma fill_ok : forall rej i acc good rest tl A,
  length good = i -> i < acc -> length rest = acc + rej - i -> Forall (fun e => fst e = true) good ->
  length (rejected rest) = rej -> Permutation (accepted (good ++ rest)) A ->
  exists rej' good' rest' tl', fill i acc rej (good ++ rest ++ tl) = Some (rej', good' ++ rest' ++ tl') /\ length good' = S i /\
    length rest' = acc + rej' - S i /\ Forall (fun e => fst e = true) good' /\ length (rejected rest') = rej' /\ Permutation (accepted (good' ++ rest')) A.
Proof.
  induction rej as [|rej IH]; intros i acc good rest tl A Hg Hi Hr HF Hrej HP.
  - destruct rest as [|[[] c] rest]; [cbn in Hr; lia| |].
    + cbn [fill]. rewrite nth_error_app2 by lia. rewrite Hg, Nat.sub_diag. cbn [nth_error app].
      exists 0, (good ++ [(true, c)]), rest, tl. rewrite <- !app_assoc. cbn [app]. split; [reflexivity|].
      rewrite app_length. cbn in *. repeat split; [lia|lia| |exact Hrej|]. apply Forall_app; split; [exact HF|repeat constructor].
      exact HP.
    + cbn in Hrej. discriminate.
  - destruct rest as [|[[] c] rest]; [cbn in Hr; lia| |].
    + cbn [fill]. rewrite nth_error_app2 by lia. rewrite Hg, Nat.sub_diag. cbn [nth_error app].
      exists (S rej), (good ++ [(true, c)]), rest, tl. rewrite <- !app_assoc. cbn [app]. split; [reflexivity|].
      rewrite app_length. cbn in *. repeat split; [lia|lia| |exact Hrej|]. apply Forall_app; split; [exact HF|repeat constructor].
      exact HP.
    + cbn [fill]. rewrite nth_error_app2 by lia. rewrite Hg, Nat.sub_diag. cbn [nth_error app].
      destruct (@exists_last _ rest) as (q & y & Eq). { intros ->. cbn in Hr. lia. }
      subst rest. rewrite <- app_assoc. cbn [app].
      assert (Hq : length q = acc + S rej - i - 2) by (cbn in Hr; rewrite app_length in Hr; cbn in Hr; lia).
      assert (SW : swap i (acc + S rej - 1) (good ++ (false, c) :: q ++ y :: tl) = Some (good ++ y :: q ++ (false, c) :: tl)).
      { replace (acc + S rej - 1) with (length good + S (length q)) by lia. rewrite <- Hg at 1. apply swap_split. }
      rewrite SW.
      replace (good ++ y :: q ++ (false, c) :: tl) with (good ++ (y :: q) ++ (false, c) :: tl) by (cbn; reflexivity).
      apply IH; [exact Hg|exact Hi|cbn; lia|exact HF| |].
      * change ((false, c) :: q ++ [y]) with ([(false, c)] ++ q ++ [y]) in Hrej.
        rewrite !rejected_app, !app_length in Hrej. change (length (rejected [(false, c)])) with 1 in Hrej.
        change (y :: q) with ([y] ++ q). rewrite rejected_app, app_length. lia.
      * eapply perm_trans; [|exact HP]. rewrite !accepted_app. apply Permutation_app_head.
        change ((false, c) :: q ++ [y]) with ([(false, c)] ++ q ++ [y]). change (y :: q) with ([y] ++ q). rewrite !accepted_app.
        cbn [accepted filter fst map app]. apply Permutation_app_comm.
Qed.

Lemma compact_ok : forall n i acc rej good rest tl A,
  i + n = acc -> length good = i -> length rest = acc + rej - i -> Forall (fun e => fst e = true) good ->
  length (rejected rest) = rej -> Permutation (accepted (good ++ rest)) A ->
  exists a, compact (seq i n) acc rej (good ++ rest ++ tl) = Some a /\ Permutation (firstn acc (map snd a)) A.
Proof.
  induction n as [|n IH]; intros i acc rej good rest tl A Hn Hg Hr HF Hrej HP.
  - cbn [seq compact]. eexists. split; [reflexivity|].
    assert (HA : accepted rest = []).
    { assert (L := Permutation_length (acc_rej rest)). rewrite app_length, map_length in L. destruct (accepted rest); [reflexivity|cbn in L; lia]. }
    rewrite accepted_app, HA, app_nil_r, all_true in HP by exact HF.
    rewrite map_app, firstn_app, map_length. replace (acc - length good) with 0 by lia. cbn [firstn]. rewrite app_nil_r.
    rewrite firstn_all2 by (rewrite map_length; lia). exact HP.
  - cbn [seq compact]. destruct (fill_ok rej i acc good rest tl A) as (rej' & good' & rest' & tl' & E & H1 & H2 & H3 & H4 & H5); try assumption; [lia|].
    rewrite E. apply IH; try assumption; lia.
Qed.

(** ** Lists of candidates *)
Local Open Scope Z_scope.
Lemma into_app : forall a b t, into (a ++ b) t = into a t + into b t.
Proof. intros. unfold into. rewrite map_app, zsum_app. reflexivity. Qed.
Lemma into_perm : forall a b t, Permutation a b -> into a t = into b t.
Proof. intros a b t H. unfold into. apply zsum_perm. apply Permutation_map. exact H. Qed.
Lemma outof_app : forall a b t, outof (a ++ b) t = outof a t + outof b t.
Proof. intros. unfold outof. rewrite map_app, zsum_app. reflexivity. Qed.
Lemma outof_perm : forall a b t, Permutation a b -> outof a t = outof b t.
Proof. intros a b t H. unfold outof. apply zsum_perm. apply Permutation_map. exact H. Qed.

Inductive sublist {X} : list X -> list X -> Prop :=
| sub_nil : sublist [] []
| sub_keep : forall x a b, sublist a b -> sublist (x :: a) (x :: b)
| sub_drop : forall x a b, sublist a b -> sublist a (x :: b).
Lemma sublist_in {X} : forall (a b : list X), sublist a b -> forall x, In x a -> In x b.
Proof. induction 1; intros z Hz; [destruct Hz| |right; auto]. destruct Hz as [->|Hz]; [left; reflexivity|right; auto]. Qed.
Lemma sublist_perm {X} : forall (a b : list X), sublist a b -> exists r, Permutation (a ++ r) b.
Proof.
  induction 1 as [|x a b H (r & IH)|x a b H (r & IH)]; [exists []; apply Permutation_refl| |].
  - exists r. cbn. apply perm_skip. exact IH.
  - exists (x :: r). eapply perm_trans; [apply Permutation_sym, Permutation_middle|]. apply perm_skip. exact IH.
Qed.
Lemma sublist_sorted : forall a b, sublist a b -> sorted_from b -> sorted_from a.
Proof.
  unfold sorted_from. induction 1 as [|x a b H IH|x a b H IH]; intros HS; [constructor| |].
  - inversion HS; subst. constructor; [apply IH; assumption|]. rewrite Forall_forall in *. intros y Hy. apply H3. eapply sublist_in; eassumption.
  - inversion HS; subst. apply IH. assumption.
Qed.

Lemma span_ok : forall from l a b, span from l = (a, b) -> l = a ++ b /\ (forall c, In c a -> c_from c = from) /\
  (match b with [] => True | c :: _ => c_from c <> from end).
Proof.
  intros from. induction l as [|c t IH]; intros a b E; cbn [span] in E.
  - inversion E; subst. repeat split. intros c [].
  - destruct (Nat.eqb_spec (c_from c) from) as [H|H].
    + destruct (span from t) as [a' b'] eqn:Es. inversion E; subst. destruct (IH a' b eq_refl) as (I1 & I2 & I3). subst t.
      split; [reflexivity|]. split; [|exact I3]. intros x [<-|Hx]; [reflexivity|apply I2; exact Hx].
    + inversion E; subst. split; [reflexivity|]. split; [intros x []|exact H].
Qed.
Lemma sorted_app : forall a b, sorted_from (a ++ b) <-> sorted_from a /\ sorted_from b /\ (forall x y, In x a -> In y b -> (c_from x <= c_from y)%nat).
Proof.
  unfold sorted_from. induction a as [|x a IH]; intros b; cbn.
  - split; [intros H; split; [constructor|]; split; [exact H|intros x y []]|intros (_ & H & _); exact H].
  - split.
    + intros H. inversion H as [|z l H1 H2 E]; subst z l. apply IH in H1. destruct H1 as (A1 & A2 & A3). rewrite Forall_forall in H2. split; [|split; [exact A2|]].
      * constructor; [exact A1|]. apply Forall_forall. intros y Hy. apply H2. apply in_app_iff. left. exact Hy.
      * intros z y [<-|Hz] Hy; [apply H2; apply in_app_iff; right; exact Hy|apply A3; assumption].
    + intros (H1 & H2 & H3). inversion H1 as [|z l A1 A2 E]; subst z l. constructor.
      * apply IH. split; [exact A1|]. split; [exact H2|]. intros z y Hz Hy. apply H3; [right; exact Hz|exact Hy].
      * rewrite Forall_forall in *. intros y Hy. apply in_app_iff in Hy. destruct Hy as [Hy|Hy]; [apply A2; exact Hy|apply H3; [left; reflexivity|exact Hy]].
Qed.
Lemma same_from_sorted : forall f l, (forall c, In c l -> c_from c = f) -> sorted_from l.
Proof.
  unfold sorted_from. intros f. induction l as [|c t IH]; intros H; [constructor|]. constructor; [apply IH; intros x Hx; apply H; right; exact Hx|].
  apply Forall_forall. intros y Hy. rewrite (H c (or_introl eq_refl)), (H y (or_intror Hy)). lia.
Qed.
(** After the span of the smallest block only larger blocks remain. *)
Lemma span_rest : forall from l a b, sorted_from l -> (forall c, In c l -> (from <= c_from c)%nat) -> span from l = (a, b) ->
  forall c, In c b -> (from < c_from c)%nat.
Proof.
  intros from l a b HS HM E c Hc. destruct (span_ok _ _ _ _ E) as (-> & _ & H). apply sorted_app in HS. destruct HS as (_ & HS & _).
  destruct b as [|d b]; [destruct Hc|]. assert (from < c_from d)%nat.
  { assert (from <= c_from d)%nat by (apply HM; apply in_app_iff; right; left; reflexivity). lia. }
  destruct Hc as [<-|Hc]; [assumption|]. inversion HS as [|z l' A1 A2 Ez]; subst. rewrite Forall_forall in A2. specialize (A2 c Hc). cbn in A2. lia.
Qed.

Lemma outof_none : forall l b, (forall c, In c l -> c_from c <> b) -> outof l b = 0.
Proof.
  intros l b. induction l as [|c t IH]; intros H; [reflexivity|]. unfold outof in *. cbn [map]. cbn [zsum].
  destruct (Nat.eqb_spec (c_from c) b) as [E|E]; [destruct (H c (or_introl eq_refl) E)|]. rewrite IH; [lia|]. intros x Hx. apply H. right. exact Hx.
Qed.
Lemma outof_all : forall l b, (forall c, In c l -> c_from c = b) -> outof l b = zsum (map c_w l).
Proof.
  intros l b. induction l as [|c t IH]; intros H; [reflexivity|]. unfold outof in *. cbn [map]. cbn [zsum].
  rewrite (H c (or_introl eq_refl)), Nat.eqb_refl. rewrite IH; [lia|]. intros x Hx. apply H. right. exact Hx.
Qed.
Lemma outof_sublist : forall a b t, (forall c, In c b -> 0 <= c_w c) -> sublist a b -> outof a t <= outof b t.
Proof.
  intros a b t HW H. revert HW. unfold outof. induction H as [|x a b H IH|x a b H IH]; intros HW; [lia| |]; cbn [map]; cbn [zsum];
    assert (0 <= c_w x) by (apply HW; left; reflexivity); (assert (IH' := IH (fun c Hc => HW c (or_intror Hc)))); destruct (c_from x =? t)%nat; lia.
Qed.

(** ** The prefix of a block *)
Section Safe.
Variables bw mx : list Z.
Variable per_block k : nat.
Variable srt : list cand -> list cand.
Hypothesis Hsrt : forall l, Permutation (srt l) l.
Hypothesis Hbw : length bw = k.
Hypothesis Hmx : length mx = k.
Local Open Scope Z_scope.

(** The winners so far fit together; [delta] bounds what they bring. *)
Definition inv (delta : list Z) (ws : list cand) : Prop :=
  length delta = k /\ (forall t, (t < k)%nat -> into ws t <= nth t delta 0) /\ compatible bw mx ws.

Lemma inv_perm : forall delta a b, Permutation a b -> inv delta a -> inv delta b.
Proof.
  intros delta a b H (I1 & I2 & I3). split; [exact I1|]. split.
  - intros t Ht. rewrite <- (into_perm a b t H). apply I2. exact Ht.
  - intros c Hc Hr. rewrite <- (into_perm a b _ H). apply I3; [|exact Hr]. eapply Permutation_in; [apply Permutation_sym; exact H|exact Hc].
Qed.

Lemma fits_some : forall delta c, length delta = k -> (c_to c < k)%nat ->
  fits bw mx delta c = Some (nth (c_to c) bw 0 + nth (c_to c) delta 0 + c_w c <=? nth (c_to c) mx 0).
Proof.
  intros delta c Hd Hc. unfold fits.
  rewrite (nth_error_nth' bw 0), (nth_error_nth' delta 0), (nth_error_nth' mx 0) by lia. reflexivity.
Qed.

Lemma into_one : forall c t, into [c] t = if ((c_to c =? t)%nat && negb (c_from c =? t)%nat)%bool then c_w c else 0.
Proof. intros. unfold into. cbn. lia. Qed.

(** Adding a candidate that fits, or one without target. *)
Lemma inv_add : forall delta ws c, inv delta ws -> 0 <= c_w c -> (c_to c < k)%nat ->
  (c_from c = c_to c \/ nth (c_to c) bw 0 + nth (c_to c) delta 0 + c_w c <= nth (c_to c) mx 0) ->
  inv (bump delta c) (ws ++ [c]) /\ (c_from c = c_to c -> inv delta (ws ++ [c])).
Proof.
  intros delta ws c (I1 & I2 & I3) Hw Hc HF.
  assert (HB : forall t, (t < k)%nat -> nth t (bump delta c) 0 = nth t delta 0 + (if (c_to c =? t)%nat then c_w c else 0)).
  { intros t Ht. unfold bump. rewrite upd_nth. destruct (Nat.eqb_spec (c_to c) t) as [<-|E]; cbn [andb]; [|lia].
    destruct (Nat.ltb_spec (c_to c) (length delta)); lia. }
  assert (HC : compatible bw mx (ws ++ [c])).
  { intros d Hd Hr. apply in_app_iff in Hd. rewrite into_app, into_one. destruct (Nat.eqb_spec (c_to c) (c_to d)) as [E|E]; cbn [andb].
    - destruct (Nat.eqb_spec (c_from c) (c_to d)) as [E'|E']; cbn [negb].
      + rewrite Z.add_0_r. destruct Hd as [Hd|[<-|[]]]; [apply I3; assumption|]. exfalso. apply Hr. congruence.
      + destruct HF as [HF|HF]; [congruence|]. rewrite E in *. specialize (I2 (c_to d) Hc). lia.
    - rewrite Z.add_0_r. destruct Hd as [Hd|[<-|[]]]; [apply I3; assumption|contradiction]. }
  assert (L : length (bump delta c) = k) by (unfold bump; rewrite upd_length; exact I1).
  split.
  - split; [exact L|]. split; [|exact HC]. intros t Ht. rewrite HB, into_app, into_one by exact Ht. specialize (I2 t Ht).
    destruct (Nat.eqb_spec (c_to c) t); cbn [andb]; [|lia]. destruct (c_from c =? t)%nat; cbn [negb]; lia.
  - intros E. split; [exact I1|]. split; [|exact HC]. intros t Ht. rewrite into_app, into_one. specialize (I2 t Ht).
    rewrite E. destruct (c_to c =? t)%nat; cbn; lia.
Qed.

Lemma pick_ok : forall overload todo delta total acc rej done ws,
  (forall c, In c todo -> (c_to c < k)%nat /\ 0 <= c_w c) -> inv delta (ws ++ accepted done) ->
  length (accepted done) = acc -> length (rejected done) = rej -> 
  exists done' rest delta' acc' rej', pick bw mx per_block overload todo delta total acc rej done = Some (done', rest, delta', acc', rej') /\
    inv delta' (ws ++ accepted done') /\ length (accepted done') = acc' /\ length (rejected done') = rej' /\
    map snd done' ++ rest = map snd done ++ todo.
Proof.
  intros overload. induction todo as [|c t IH]; intros delta total acc rej done ws HT HI Ha Hr.
  - cbn [pick]. do 5 eexists. split; [reflexivity|]. repeat split; try assumption; apply HI.
  - destruct (HT c (or_introl eq_refl)) as [Hc Hw]. cbn [pick]. rewrite fits_some by (try exact Hc; apply HI).
    set (ok := (_ <=? _)%Z).
    destruct (negb (c_from c =? c_to c)%nat && negb ok)%bool eqn:E.
    + destruct (IH delta total acc (S rej) (done ++ [(false, c)]) ws) as (d' & r' & dl & a' & j' & E1 & E2 & E3 & E4 & E5).
      * intros x Hx. apply HT. right. exact Hx.
      * rewrite accepted_app. cbn. rewrite app_nil_r. exact HI.
      * rewrite accepted_app. cbn. rewrite app_nil_r. exact Ha.
      * rewrite rejected_app, app_length. cbn. lia.
      * do 5 eexists. split; [exact E1|]. repeat split; try assumption; try apply E2. rewrite E5, map_app, <- app_assoc. reflexivity.
    + assert (HF : c_from c = c_to c \/ nth (c_to c) bw 0 + nth (c_to c) delta 0 + c_w c <= nth (c_to c) mx 0).
      { destruct (Nat.eqb_spec (c_from c) (c_to c)); [left; assumption|right]. destruct ok eqn:Eo; [apply Z.leb_le; exact Eo|discriminate]. }
      destruct (inv_add delta (ws ++ accepted done) c HI Hw Hc HF) as [HI' _].
      assert (EA : accepted (done ++ [(true, c)]) = accepted done ++ [c]) by (rewrite accepted_app; reflexivity).
      assert (ER : rejected (done ++ [(true, c)]) = rejected done) by (rewrite rejected_app; cbn; apply app_nil_r).
      rewrite <- app_assoc in HI'. rewrite <- EA in HI'.
      destruct ((overload <=? total + c_w c)%Z || (per_block <=? S acc)%nat)%bool.
      * do 5 eexists. split; [reflexivity|]. split; [exact HI'|]. split; [rewrite EA, app_length; cbn; lia|]. split; [rewrite ER; exact Hr|].
        rewrite map_app, <- app_assoc. reflexivity.
      * destruct (IH (bump delta c) (total + c_w c) (S acc) rej (done ++ [(true, c)]) ws) as (d' & r' & dl & a' & j' & E1 & E2 & E3 & E4 & E5).
        -- intros x Hx. apply HT. right. exact Hx.
        -- exact HI'.
        -- rewrite EA, app_length. cbn. lia.
        -- rewrite ER. exact Hr.
        -- do 5 eexists. split; [exact E1|]. repeat split; try assumption; try apply E2. rewrite E5, map_app, <- app_assoc. reflexivity.
Qed.

(** The weight of the accepted candidates. *)
Lemma pick_total : forall overload maxw todo delta total acc rej done done' rest delta' acc' rej',
  (forall c, In c todo -> 0 <= c_w c <= maxw) -> 1 <= overload ->
  pick bw mx per_block overload todo delta total acc rej done = Some (done', rest, delta', acc', rej') ->
  total = zsum (map c_w (accepted done)) -> total <= overload - 1 ->
  0 <= maxw -> zsum (map c_w (accepted done')) <= overload - 1 + maxw.
Proof.
  intros overload maxw. induction todo as [|c t IH]; intros delta total acc rej done done' rest delta' acc' rej' HT Ho E Et Hle Hm.
  - cbn [pick] in E. inversion E; subst. lia.
  - destruct (HT c (or_introl eq_refl)) as [Hw Hw']. cbn [pick] in E. destruct (fits bw mx delta c) as [ok|]; [|discriminate].
    destruct (negb (c_from c =? c_to c)%nat && negb ok)%bool.
    + eapply IH in E; [exact E|intros x Hx; apply HT; right; exact Hx|exact Ho| |exact Hle|exact Hm]. rewrite accepted_app. cbn. rewrite app_nil_r. exact Et.
    + assert (EA : zsum (map c_w (accepted (done ++ [(true, c)]))) = total + c_w c).
      { rewrite accepted_app, map_app, zsum_app. cbn. lia. }
      destruct (Z.leb_spec overload (total + c_w c)) as [H|H]; cbn [orb] in E.
      * inversion E; subst done'. rewrite EA. lia.
      * destruct (per_block <=? S acc)%nat.
        -- inversion E; subst done'. rewrite EA. lia.
        -- eapply IH in E; [exact E|intros x Hx; apply HT; right; exact Hx|exact Ho|lia|lia|exact Hm].
Qed.

Lemma merge_block_ok : forall from l delta ws, (from < k)%nat ->
  (forall c, In c l -> (c_to c < k)%nat /\ 0 <= c_w c) -> inv delta ws ->
  exists out delta' rest, merge_block bw mx per_block srt from l delta = Some (out, delta') /\ inv delta' (ws ++ out) /\ Permutation (out ++ rest) l /\
    (forall maxw, 0 <= maxw -> (forall c, In c l -> c_w c <= maxw) -> nth from mx 0 < nth from bw 0 ->
       zsum (map c_w out) <= nth from bw 0 - nth from mx 0 - 1 + maxw).
Proof.
  intros from l delta ws Hf HT HI. unfold merge_block.
  rewrite (nth_error_nth' bw 0), (nth_error_nth' mx 0) by lia.
  assert (HT' : forall c, In c (srt l) -> (c_to c < k)%nat /\ 0 <= c_w c).
  { intros c Hc. apply HT. eapply Permutation_in; [apply Hsrt|exact Hc]. }
  destruct (pick_ok (nth from bw 0 - nth from mx 0) (srt l) delta 0 0 0 [] ws HT') as (done & rest & delta' & acc & rej & E1 & E2 & E3 & E4 & E5).
  { cbn. rewrite app_nil_r. exact HI. } { reflexivity. } { reflexivity. }
  rewrite E1.
  assert (L := Permutation_length (acc_rej done)). rewrite app_length, map_length in L.
  destruct (compact_ok acc 0 acc rej [] done (map (pair true) rest) (accepted done)) as (a & Ea & Pa);
    [lia|reflexivity|lia|constructor|exact E4|apply Permutation_refl|].
  cbn [app] in Ea. rewrite Ea. exists (firstn acc (map snd a)), delta', (rejected done ++ rest). split; [reflexivity|].
  split; [|split].
  - eapply inv_perm; [|exact E2]. apply Permutation_app_head, Permutation_sym. exact Pa.
  - rewrite app_assoc. eapply perm_trans; [apply Permutation_app_tail, Permutation_app_tail; exact Pa|].
    eapply perm_trans; [apply Permutation_app_tail, acc_rej|]. rewrite E5. cbn. apply Hsrt.
  - intros maxw Hm Hw Ho. rewrite (zsum_perm _ _ (Permutation_map c_w Pa)).
    eapply (pick_total (nth from bw 0 - nth from mx 0) maxw (srt l) delta 0 0 0 []); [|lia|exact E1|reflexivity|lia|exact Hm].
    intros c Hc. split; [apply HT'; exact Hc|]. apply Hw. eapply Permutation_in; [apply Hsrt|exact Hc].
Qed.

(** ** The rest *)
Lemma add_remaining_ok : forall l delta ws, (forall c, In c l -> (c_to c < k)%nat /\ 0 <= c_w c) -> inv delta ws ->
  exists delta' out, add_remaining bw mx l delta ws = Some (delta', ws ++ out) /\ inv delta' (ws ++ out) /\ sublist out l.
Proof.
  induction l as [|c t IH]; intros delta ws HT HI.
  - exists delta, []. cbn. rewrite app_nil_r. repeat split; try apply HI. constructor.
  - destruct (HT c (or_introl eq_refl)) as [Hc Hw]. cbn [add_remaining]. rewrite fits_some by (try exact Hc; apply HI). set (ok := (_ <=? _)%Z).
    assert (HT' : forall x, In x t -> (c_to x < k)%nat /\ 0 <= c_w x) by (intros x Hx; apply HT; right; exact Hx).
    destruct ((c_from c =? c_to c)%nat || ok)%bool eqn:E.
    + assert (HF : c_from c = c_to c \/ nth (c_to c) bw 0 + nth (c_to c) delta 0 + c_w c <= nth (c_to c) mx 0).
      { destruct (Nat.eqb_spec (c_from c) (c_to c)); [left; assumption|right]. cbn [orb] in E. apply Z.leb_le. exact E. }
      destruct (inv_add delta ws c HI Hw Hc HF) as [H1 H2].
      destruct (IH (if (c_from c =? c_to c)%nat then delta else bump delta c) (ws ++ [c]) HT') as (d' & out & E1 & E2 & E3).
      { destruct (Nat.eqb_spec (c_from c) (c_to c)); [apply H2; assumption|exact H1]. }
      exists d', (c :: out). rewrite E1, <- app_assoc in *. split; [reflexivity|]. split; [exact E2|]. constructor. exact E3.
    + destruct (IH delta ws HT' HI) as (d' & out & E1 & E2 & E3). exists d', out. split; [exact E1|]. split; [exact E2|]. constructor. exact E3.
Qed.

(** ** The merge *)
Notation out_ok := (out_bounded bw mx).
Lemma merge_ok : forall fuel lhs rhs delta ws, (length lhs + length rhs <= fuel)%nat ->
  (forall c, In c (lhs ++ rhs) -> (c_from c < k)%nat /\ (c_to c < k)%nat /\ 0 <= c_w c) ->
  sorted_from lhs -> sorted_from rhs -> inv delta ws ->
  exists out rest, merge bw mx per_block srt fuel lhs rhs delta ws = Some (ws ++ out) /\ compatible bw mx (ws ++ out) /\
    Permutation (out ++ rest) (lhs ++ rhs) /\ sorted_from out /\
    (forall maxw, 0 <= maxw -> (forall c, In c (lhs ++ rhs) -> c_w c <= maxw /\ nth (c_from c) mx 0 < nth (c_from c) bw 0) ->
       out_ok maxw lhs -> out_ok maxw rhs -> out_ok maxw out).
Proof.
  induction fuel as [|fuel IH]; intros lhs rhs delta ws Hlen HT HSl HSr HI.
  - assert (lhs = [] /\ rhs = []) as [-> ->] by (split; [destruct lhs|destruct rhs]; cbn in *; try reflexivity; lia).
    exists [], []. cbn. rewrite app_nil_r. repeat split; [apply HI|constructor|constructor|]. intros maxw _ _ _ _ c [].
  - assert (HW : forall l, (lhs = [] /\ l = rhs) \/ (rhs = [] /\ l = lhs) ->
       exists out, merge bw mx per_block srt (S fuel) lhs rhs delta ws = Some (ws ++ out) /\ compatible bw mx (ws ++ out) /\ sublist out l).
    { assert (HTl : forall l, (forall c, In c l -> In c (lhs ++ rhs)) -> forall c, In c l -> (c_to c < k)%nat /\ 0 <= c_w c).
      { intros l HL c Hc. split; apply HT, HL, Hc. }
      intros l [[-> ->]|[-> ->]].
      - destruct (add_remaining_ok rhs delta ws (HTl rhs (fun c H => H)) HI) as (d' & out & E1 & E2 & E3).
        exists out. cbn [merge add_remaining]. rewrite E1. split; [reflexivity|]. split; [apply E2|exact E3].
      - destruct (add_remaining_ok lhs delta ws) as (d' & out & E1 & E2 & E3); [|exact HI|].
        { apply HTl. intros c Hc. apply in_app_iff. left. exact Hc. }
        exists out. replace (merge bw mx per_block srt (S fuel) lhs [] delta ws) with
          (match add_remaining bw mx lhs delta ws with Some (delta', winners') => option_map snd (add_remaining bw mx [] delta' winners') | None => None end)
          by (destruct lhs; reflexivity).
        rewrite E1. cbn. split; [reflexivity|]. split; [apply E2|exact E3]. }
    assert (HW' : forall l, (lhs = [] /\ l = rhs) \/ (rhs = [] /\ l = lhs) -> exists out rest, merge bw mx per_block srt (S fuel) lhs rhs delta ws = Some (ws ++ out) /\ compatible bw mx (ws ++ out) /\
      Permutation (out ++ rest) (lhs ++ rhs) /\ sorted_from out /\
      (forall maxw, 0 <= maxw -> (forall c, In c (lhs ++ rhs) -> c_w c <= maxw /\ nth (c_from c) mx 0 < nth (c_from c) bw 0) ->
         out_ok maxw lhs -> out_ok maxw rhs -> out_ok maxw out)).
    { intros l HL. destruct (HW l HL) as (out & E1 & E2 & E3). destruct (sublist_perm _ _ E3) as (r & Pr). exists out, r.
      assert (El : lhs ++ rhs = l) by (destruct HL as [[-> ->]|[-> ->]]; [reflexivity|apply app_nil_r]).
      rewrite El. split; [exact E1|]. split; [exact E2|]. split; [exact Pr|]. split.
      - eapply sublist_sorted; [exact E3|]. destruct HL as [[_ ->]|[_ ->]]; assumption.
      - intros maxw _ _ O1 O2 c Hc. assert (O : out_ok maxw l) by (destruct HL as [[_ ->]|[_ ->]]; assumption).
        eapply Z.le_trans; [apply outof_sublist with (b := l); [|exact E3]|apply O; eapply sublist_in; eassumption].
        intros d Hd. apply HT. rewrite El. exact Hd. }
    destruct lhs as [|a lhs]; [apply (HW' rhs); left; split; reflexivity|].
    destruct rhs as [|b rhs]; [apply (HW' (a :: lhs)); right; split; reflexivity|]. clear HW HW'.
    cbn [merge]. set (L := a :: lhs) in *. set (R := b :: rhs) in *. set (from := Nat.min (c_from a) (c_from b)).
    destruct (span from L) as [l1 l2] eqn:El. destruct (span from R) as [r1 r2] eqn:Er.
    assert (ML : forall c, In c L -> (from <= c_from c)%nat).
    { intros c [<-|Hc]; [unfold from; lia|]. unfold sorted_from, L in HSl. inversion HSl as [|z l' A1 A2 Ez]; subst z l'. rewrite Forall_forall in A2. specialize (A2 c Hc). cbn in A2. unfold from. lia. }
    assert (MR : forall c, In c R -> (from <= c_from c)%nat).
    { intros c [<-|Hc]; [unfold from; lia|]. unfold sorted_from, R in HSr. inversion HSr as [|z l' A1 A2 Ez]; subst z l'. rewrite Forall_forall in A2. specialize (A2 c Hc). cbn in A2. unfold from. lia. }
    assert (GL := span_rest _ _ _ _ HSl ML El). assert (GR := span_rest _ _ _ _ HSr MR Er).
    destruct (span_ok _ _ _ _ El) as (DL & FL & _). destruct (span_ok _ _ _ _ Er) as (DR & FR & _).
    assert (Hlt : (length l2 + length r2 < length L + length R)%nat).
    { rewrite DL, DR, !app_length. unfold from in El, Er. destruct (Nat.min_spec (c_from a) (c_from b)) as [[_ Em]|[_ Em]].
      - unfold L in El. cbn [span] in El. rewrite Em, Nat.eqb_refl in El. destruct (span (c_from a) lhs). inversion El; subst. cbn. lia.
      - unfold R in Er. cbn [span] in Er. rewrite Em, Nat.eqb_refl in Er. destruct (span (c_from b) rhs). inversion Er; subst. cbn. lia. }
    assert (Hfk : (from < k)%nat).
    { assert (c_from a < k)%nat by (apply HT; left; reflexivity). unfold from. lia. }
    destruct (merge_block_ok from (l1 ++ r1) delta ws Hfk) as (out1 & delta1 & rest1 & E1 & E2 & E3 & E4); [|exact HI|].
    { intros c Hc. assert (In c (L ++ R)). { rewrite DL, DR. apply in_app_iff in Hc. rewrite !in_app_iff. tauto. } split; apply HT; assumption. }
    rewrite E1.
    assert (S2 : sorted_from l2) by (rewrite DL in HSl; apply sorted_app in HSl; apply HSl).
    assert (S2' : sorted_from r2) by (rewrite DR in HSr; apply sorted_app in HSr; apply HSr).
    destruct (IH l2 r2 delta1 (ws ++ out1)) as (out2 & rest2 & F1 & F2 & F3 & F4 & F5); [lia| |exact S2|exact S2'|exact E2|].
    { intros c Hc. apply HT. rewrite DL, DR. apply in_app_iff in Hc. rewrite !in_app_iff. tauto. }
    exists (out1 ++ out2), (rest1 ++ rest2). rewrite F1, <- app_assoc. split; [reflexivity|]. split; [rewrite app_assoc; exact F2|].
    assert (HO1 : forall c, In c out1 -> c_from c = from).
    { intros c Hc. assert (In c (l1 ++ r1)) by (eapply Permutation_in; [exact E3|apply in_app_iff; left; exact Hc]).
      apply in_app_iff in H. destruct H; [apply FL|apply FR]; assumption. }
    assert (HO2 : forall c, In c out2 -> In c (l2 ++ r2)) by (intros c Hc; eapply Permutation_in; [exact F3|apply in_app_iff; left; exact Hc]).
    assert (HG2 : forall c, In c out2 -> (from < c_from c)%nat) by (intros c Hc; apply HO2, in_app_iff in Hc; destruct Hc; [apply GL|apply GR]; assumption).
    split; [|split].
    + rewrite DL, DR. eapply perm_trans; [|eapply perm_trans; [apply Permutation_app; [exact E3|exact F3]|]].
      * rewrite <- !app_assoc. apply Permutation_app_head. rewrite !app_assoc. apply Permutation_app_tail. apply Permutation_app_comm.
      * rewrite <- !app_assoc. apply Permutation_app_head. rewrite !app_assoc. apply Permutation_app_tail. apply Permutation_app_comm.
    + apply sorted_app. split; [apply (same_from_sorted from); exact HO1|]. split; [exact F4|]. intros x y Hx Hy. rewrite (HO1 x Hx). apply Nat.lt_le_incl, HG2, Hy.
    + intros maxw Hm HB O1 O2 c Hc. rewrite outof_app. apply in_app_iff in Hc. destruct Hc as [Hc|Hc].
      * rewrite (HO1 c Hc). rewrite outof_all by exact HO1. rewrite outof_none; [|intros d Hd E; apply HG2 in Hd; lia].
        assert (HLR : forall d, In d (l1 ++ r1) -> In d (L ++ R)) by (intros d Hd; rewrite DL, DR; apply in_app_iff in Hd; rewrite !in_app_iff; tauto).
        assert (Hc' : In c (l1 ++ r1)) by (eapply Permutation_in; [exact E3|apply in_app_iff; left; exact Hc]).
        assert (nth from mx 0 < nth from bw 0) by (rewrite <- (HO1 c Hc); apply (HB c), HLR, Hc').
        specialize (E4 maxw Hm (fun d Hd => proj1 (HB d (HLR d Hd))) H). lia.
      * rewrite outof_none; [|intros d Hd E; rewrite (HO1 d Hd) in E; apply HG2 in Hc; lia]. cbn [Z.add].
        apply F5; [exact Hm| | | |exact Hc].
        -- intros d Hd. apply HB. rewrite DL, DR. apply in_app_iff in Hd. rewrite !in_app_iff. tauto.
        -- intros d Hd. assert (X := O1 d). rewrite DL in X. rewrite in_app_iff, outof_app in X. specialize (X (or_intror Hd)).
           rewrite (outof_none l1) in X; [lia|]. intros e He E. rewrite (FL e He) in E. apply GL in Hd. lia.
        -- intros d Hd. assert (X := O2 d). rewrite DR in X. rewrite in_app_iff, outof_app in X. specialize (X (or_intror Hd)).
           rewrite (outof_none r1) in X; [lia|]. intros e He E. rewrite (FR e He) in E. apply GR in Hd. lia.
Qed.
End Safe.
