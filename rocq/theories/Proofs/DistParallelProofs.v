(* The parallel round of the distributed node balancer. *)
From Verif Require Import Lib.Prelude Model.DistParallelModel Spec.DistParallelSpec.
From Coq Require Import QArith Permutation.
Open Scope nat_scope.
Ltac ifs := repeat match goal with |- context [if ?x then _ else _] => destruct x end; lia.

Lemma perm_upd {X} (y : X) : forall l i x, nth_error l i = Some x -> Permutation (x :: upd i y l) (y :: l).
Proof.
  induction l as [|z l IH]; intros [|i] x H; try discriminate; cbn [nth_error upd] in *; [injection H as ->; apply perm_swap|].
  eapply perm_trans; [apply perm_swap|]. eapply perm_trans; [apply perm_skip, IH; exact H|]. apply perm_swap.
Qed.
Lemma swap_perm i j l : Permutation (swap_at i j l) l.
Proof.
  unfold swap_at. destruct (nth_error l i) as [x|] eqn:Ei; [|apply Permutation_refl]. destruct (nth_error l j) as [y|] eqn:Ej; [|apply Permutation_refl].
  assert (E : nth_error (upd j x l) i = Some x).
  { rewrite upd_nth_error. destruct (Nat.eq_dec i j) as [->|N]; [rewrite Nat.eqb_refl|destruct (Nat.eqb_spec j i); [congruence|exact Ei]]. destruct (Nat.ltb_spec j (length l)) as [|L]; [reflexivity|apply nth_error_None in L; congruence]. }
  apply (Permutation_cons_inv (a := x)). eapply perm_trans; [apply perm_upd; exact E|]. apply perm_upd. exact Ej.
Qed.
Lemma swap_firstn i j l m : m <= i -> m <= j -> firstn m (swap_at i j l) = firstn m l.
Proof.
  assert (U : forall (x : pcand) a l n, n <= a -> firstn n (upd a x l) = firstn n l) by (intros x; induction a as [|a IH]; intros [|z l0] [|n] H; simpl; try reflexivity; try lia; f_equal; apply IH; lia).
  intros H1 H2. unfold swap_at. destruct (nth_error l i); [|reflexivity]. destruct (nth_error l j); [|reflexivity]. rewrite !U by assumption. reflexivity.
Qed.

(** ** Moves and block weights *)
Definition cgain (b : nat) (c : pcand) : Z := ((if Nat.eqb (pc_to c) b then pc_w c else 0) - (if Nat.eqb (pc_from c) b then pc_w c else 0))%Z.
Definition gains (cs : list pcand) (b : nat) : Z := zsum (map (cgain b) cs).
Lemma weight_upd : forall blk w u t b, length blk = length w -> u < length blk ->
  rank_weight w (upd u t blk) b = (rank_weight w blk b - (if Nat.eqb (nth u blk 0%nat) b then nth u w 0 else 0) + (if Nat.eqb t b then nth u w 0 else 0))%Z.
Proof.
  unfold rank_weight. induction blk as [|x blk IH]; intros [|y w] [|u] t b H Hu; cbn [length] in *; try lia.
  - simpl. destruct (Nat.eqb t b), (Nat.eqb x b); lia.
  - specialize (IH w u t b ltac:(lia) ltac:(lia)). change (upd (S u) t (x :: blk)) with (x :: upd u t blk). cbn [combine map zsum fst snd nth]. rewrite IH. destruct (Nat.eqb t b), (Nat.eqb x b), (Nat.eqb (nth u blk 0) b); lia.
Qed.
Definition good_cand (w : list Z) (blk : list nat) (c : pcand) : Prop := pc_node c < length blk /\ nth (pc_node c) blk 0 = pc_from c /\ nth (pc_node c) w 0%Z = pc_w c.
Lemma perform_length : forall cs blk, length (perform blk cs) = length blk.
Proof. unfold perform. induction cs as [|c cs IH]; intros blk; [reflexivity|]. cbn [fold_left]. rewrite IH. destruct (pc_from c =? pc_to c); [reflexivity|apply upd_length]. Qed.
Lemma perform_weight w b : forall cs blk, length blk = length w -> NoDup (map pc_node cs) -> (forall c, In c cs -> good_cand w blk c) ->
  rank_weight w (perform blk cs) b = (rank_weight w blk b + gains cs b)%Z.
Proof.
  unfold perform, gains. induction cs as [|c cs IH]; intros blk L ND H; [cbn [fold_left map zsum]; lia|]. cbn [fold_left map zsum] in *. inversion ND as [|? ? N1 N2]; subst. destruct (H c (or_introl eq_refl)) as (C1 & C2 & C3).
  set (blk' := if pc_from c =? pc_to c then blk else upd (pc_node c) (pc_to c) blk).
  assert (E : rank_weight w blk' b = (rank_weight w blk b + cgain b c)%Z).
  { unfold blk', cgain. destruct (Nat.eqb_spec (pc_from c) (pc_to c)) as [Q|N]; [rewrite Q; ifs|]. rewrite weight_upd by (assumption || congruence). rewrite C2, C3. ifs. }
  rewrite IH; [rewrite E; lia|unfold blk'; destruct (pc_from c =? pc_to c); [|rewrite upd_length]; exact L|exact N2|].
  intros c' Hc'. destruct (H c' (or_intror Hc')) as (D1 & D2 & D3). unfold blk'. destruct (pc_from c =? pc_to c); [split; auto|]. split; [rewrite upd_length; exact D1|]. split; [|exact D3].
  rewrite upd_nth_other; [exact D2|]. intros Q. apply N1. rewrite Q. apply in_map. exact Hc'.
Qed.
Lemma perform_other u : forall cs blk, (forall c, In c cs -> pc_node c <> u) -> nth u (perform blk cs) 0 = nth u blk 0.
Proof.
  unfold perform. induction cs as [|c cs IH]; intros blk H; [reflexivity|]. cbn [fold_left]. rewrite IH by (intros c' Hc'; apply H; right; exact Hc'). destruct (pc_from c =? pc_to c); [reflexivity|]. apply upd_nth_other, H. left. reflexivity.
Qed.
Lemma perform_moved u : forall cs blk, nth u (perform blk cs) 0 <> nth u blk 0 -> exists c, In c cs /\ pc_node c = u /\ pc_to c = nth u (perform blk cs) 0.
Proof.
  induction cs as [|c cs IH]; intros blk H; [contradiction|]. set (blk1 := if pc_from c =? pc_to c then blk else upd (pc_node c) (pc_to c) blk). change (perform blk (c :: cs)) with (perform blk1 cs) in *.
  destruct (Nat.eq_dec (nth u (perform blk1 cs) 0) (nth u blk1 0)) as [E|E]; [|destruct (IH blk1 E) as (x & X1 & X2); exists x; split; [right; exact X1|exact X2]].
  exists c. split; [left; reflexivity|]. rewrite E in H |- *. unfold blk1 in *. destruct (pc_from c =? pc_to c); [contradiction|]. destruct (Nat.eq_dec (pc_node c) u) as [N|N]; [|rewrite upd_nth_other in H by exact N; contradiction].
  split; [exact N|]. rewrite N in *. destruct (Nat.lt_ge_cases u (length blk)) as [L|L]; [rewrite upd_nth_same by exact L; reflexivity|]. rewrite !nth_overflow in H by (rewrite ?upd_length; exact L). contradiction.
Qed.
Lemma perform_lt k : forall cs blk, (forall c, In c cs -> pc_to c < k) -> (forall x, In x blk -> x < k) -> forall x, In x (perform blk cs) -> x < k.
Proof.
  unfold perform. induction cs as [|c cs IH]; intros blk H HB; [exact HB|]. cbn [fold_left]. apply IH; [intros c' Hc'; apply H; right; exact Hc'|]. destruct (pc_from c =? pc_to c); [exact HB|].
  intros x Hx. apply In_nth with (d := 0) in Hx. destruct Hx as (i & Hi & <-). rewrite upd_length in Hi. destruct (Nat.eq_dec i (pc_node c)) as [->|N]; [rewrite upd_nth_same by exact Hi; apply H; left; reflexivity|rewrite upd_nth_other by congruence; apply HB, nth_In; exact Hi].
Qed.

Section Round.
Variables (k : nat) (bw mx : list Z).
Lemma add_at_nth b w l x : b < length l -> nth x (add_at b w l) 0%Z = (nth x l 0 + if Nat.eqb b x then w else 0)%Z.
Proof. intros H. unfold add_at. destruct (Nat.eqb_spec b x) as [->|N]; [rewrite upd_nth_same by exact H; lia|rewrite upd_nth_other by exact N; lia]. Qed.
Lemma add_at_length b w l : length (add_at b w l) = length l.
Proof. apply upd_length. Qed.
Lemma feasible_lt : forall fuel from to w dto, 0 < k -> to < k -> feasible k bw mx fuel from to w dto < k.
Proof.
  induction fuel as [|f IH]; intros from to w dto K H; cbn [feasible]; (assert (L : (if S to =? k then 0 else S to) < k) by (destruct (Nat.eqb_spec (S to) k); lia)).
  - destruct (_ && _); exact L.
  - destruct (_ && _); [apply IH; [exact K|exact L]|exact L].
Qed.
(** ** Candidates *)
Notation good_rank := (good_rank k).
Definition from_over (c : pcand) : Prop := (0 < p_overload bw mx (pc_from c))%Z.
Definition cinv (r : prank) (rest : list nat) (s : list Z * list pcand) : Prop :=
  length (fst s) = k /\ (forall b, (0 <= nth b (fst s) 0)%Z) /\ NoDup (map pc_node (snd s) ++ rest) /\
  forall c, In c (snd s) -> good_cand (pr_w r) (pr_blk r) c /\ pc_from c < k /\ pc_to c < k /\ from_over c.
Lemma drop_mid {X} (a : list X) : forall b c, NoDup (a ++ b ++ c) -> NoDup (a ++ c).
Proof. induction b as [|x b IH]; intros c H; [exact H|]. apply IH. exact (NoDup_remove_1 a (b ++ c) x H). Qed.
Lemma target_lt r u : 0 < k -> good_rank r -> nth u (pr_target r) 0 < k.
Proof. intros K (_ & _ & T & _). destruct (Nat.lt_ge_cases u (length (pr_target r))) as [L|L]; [apply T, nth_In; exact L|rewrite nth_overflow by exact L; exact K]. Qed.
Lemma weight_nonneg r u : good_rank r -> (0 <= nth u (pr_w r) 0)%Z.
Proof. intros (_ & _ & _ & W & _). destruct (Nat.lt_ge_cases u (length (pr_w r))) as [L|L]; [apply W, nth_In; exact L|rewrite nth_overflow by exact L; lia]. Qed.
Lemma find_block_inv r from rest : 0 < k -> from < k -> good_rank r -> forall els dto dfrom out, (0 <= dfrom)%Z -> (forall u, In u els -> u < length (pr_blk r) /\ nth u (pr_blk r) 0 = from) ->
  cinv r (els ++ rest) (dto, out) -> cinv r rest (find_block k bw mx r from els dto dfrom out).
Proof.
  intros K HF GR. induction els as [|u t IH]; intros dto dfrom out Hd He I; [exact I|]. cbn [find_block].
  destruct (Z.leb_spec (p_overload bw mx from) dfrom) as [L|L]; [destruct I as (I1 & I2 & I3 & I4); split; [exact I1|split; [exact I2|split; [|exact I4]]]; exact (drop_mid _ _ _ I3)|].
  assert (He' : forall v, In v t -> v < length (pr_blk r) /\ nth v (pr_blk r) 0 = from) by (intros v Hv; apply He; right; exact Hv). destruct (He u (or_introl eq_refl)) as [U1 U2].
  destruct I as (I1 & I2 & I3 & I4). cbn [fst snd] in *. pose proof (weight_nonneg r u GR) as W0.
  destruct (nth u (pr_take r) false).
  - set (t0 := nth u (pr_target r) 0). set (w := nth u (pr_w r) 0%Z) in *. set (to := if from =? t0 then feasible k bw mx k from t0 w dto else t0).
    assert (T : to < k) by (unfold to; pose proof (target_lt r u K GR) as T0; fold t0 in T0; destruct (from =? t0); [apply feasible_lt; assumption|exact T0]).
    apply IH; [lia|exact He'|]. split; [cbn [fst]; rewrite add_at_length; exact I1|]. split; [intros b; cbn [fst]; rewrite add_at_nth by lia; specialize (I2 b); destruct (to =? b); lia|].
    split; [cbn [snd]; rewrite map_app, <- app_assoc; exact I3|]. cbn [snd]. intros c Hc. apply in_app_or in Hc. destruct Hc as [Hc|[<-|[]]]; [exact (I4 c Hc)|]. cbn [pc_from pc_to]. split; [split; [exact U1|split; [exact U2|reflexivity]]|].
    split; [exact HF|]. split; [exact T|]. unfold from_over. cbn [pc_from]. lia.
  - apply IH; [exact Hd|exact He'|]. split; [exact I1|]. split; [exact I2|]. split; [|exact I4]. exact (NoDup_remove_1 _ _ _ I3).
Qed.
Lemma find_inv r : 0 < k -> good_rank r -> length (pr_pq r) = k -> cinv r [] (find_candidates k bw mx r).
Proof.
  intros K GR LP. pose proof GR as (_ & _ & _ & _ & ND & PQ). unfold find_candidates.
  assert (Q : forall m s, m <= k -> cinv r (concat (skipn (k - m) (pr_pq r))) s -> cinv r [] (fold_left (fun s b => find_block k bw mx r b (nth b (pr_pq r) []) (fst s) 0%Z (snd s)) (seq (k - m) m) s)).
  { induction m as [|m IH]; intros s Hm I; [rewrite Nat.sub_0_r, <- LP, skipn_all in I; exact I|]. cbn [seq fold_left]. replace (S (k - S m)) with (k - m) by lia. apply IH; [lia|].
    apply find_block_inv; [exact K|lia|exact GR|lia|intros u Hu; exact (PQ _ u Hu)|]. destruct s as [s1 s2]. cbn [fst snd].
    assert (E : concat (skipn (k - S m) (pr_pq r)) = nth (k - S m) (pr_pq r) [] ++ concat (skipn (k - m) (pr_pq r))).
    { replace (k - m) with (S (k - S m)) by lia. clear - LP Hm. assert (L : k - S m < length (pr_pq r)) by lia. revert L. generalize (k - S m). generalize (pr_pq r). induction l as [|x l IH]; intros [|n] L; cbn [length] in L; try lia; [reflexivity|]. cbn [skipn nth]. apply (IH n). lia. }
    rewrite E in I. exact I. }
  specialize (Q k (repeat 0%Z k, []) (le_n k)). rewrite Nat.sub_diag in Q. apply Q. split; [apply repeat_length|]. split; [intros b; cbn [fst]; rewrite nth_repeat; lia|]. split; [exact ND|intros c []].
Qed.
(** ** Dicing *)
Lemma gains_snoc cs c b : gains (cs ++ [c]) b = (gains cs b + cgain b c)%Z.
Proof. unfold gains. rewrite map_app, zsum_app. cbn. lia. Qed.
Lemma firstn_snoc {X} : forall (l : list X) i x, nth_error l i = Some x -> firstn (S i) l = firstn i l ++ [x].
Proof. induction l as [|y l IH]; intros [|i] x H; try discriminate; [injection H as <-; reflexivity|]. cbn [nth_error] in H. cbn [firstn app]. f_equal. exact (IH i x H). Qed.
Lemma dice_inv (total : list Z) (ok : pcand -> Prop) : forall fuel q cs i rej delta, i + rej + fuel = length cs -> length delta = k -> (forall c, In c cs -> pc_from c < k /\ pc_to c < k) ->
  (forall n c, In c cs -> accepts bw mx total c (q n) = true -> ok c) ->
  (forall c, In c (firstn i cs) -> ok c) -> (forall b, nth b delta 0%Z = gains (firstn i cs) b) ->
  let '(cs', rej', delta') := dice bw mx fuel total q cs i rej delta in
  Permutation cs' cs /\ (forall c, In c (firstn (length cs' - rej') cs') -> ok c) /\ forall b, nth b delta' 0%Z = gains (firstn (length cs' - rej') cs') b.
Proof.
  induction fuel as [|f IH]; intros q cs i rej delta HF HL HK HA HO HD; cbn [dice].
  - replace (length cs - rej) with i by lia. auto using Permutation_refl.
  - destruct (Nat.ltb_spec i (length cs - rej)) as [L|L]; [|lia]. destruct (nth_error cs i) as [c|] eqn:E; [|apply nth_error_None in E; lia]. pose proof (nth_error_In _ _ E) as Hc. destruct (HK c Hc) as [K1 K2].
    destruct (accepts bw mx total c (q 0)) eqn:A.
    + apply IH; [lia|rewrite !add_at_length; exact HL|exact HK|intros n; apply (HA (S n))| |].
      * intros c' Hc'. rewrite (firstn_snoc _ _ _ E) in Hc'. apply in_app_or in Hc'. destruct Hc' as [Hc'|[<-|[]]]; [exact (HO c' Hc')|exact (HA 0 c Hc A)].
      * intros b. rewrite !add_at_nth by (rewrite ?add_at_length; lia). rewrite (firstn_snoc _ _ _ E), gains_snoc, HD. unfold cgain. destruct (pc_to c =? b), (pc_from c =? b); lia.
    + set (cs1 := swap_at i (length cs - S rej) cs). assert (P1 : Permutation cs1 cs) by apply swap_perm. assert (F1 : firstn i cs1 = firstn i cs) by (apply swap_firstn; lia).
      specialize (IH (fun n => q (S n)) cs1 i (S rej) delta). rewrite (Permutation_length P1) in IH. rewrite F1 in IH.
      assert (IN : forall x, In x cs1 -> In x cs) by (intros x; apply Permutation_in; exact P1).
      specialize (IH ltac:(lia) HL (fun x Hx => HK x (IN x Hx)) (fun n x Hx => HA (S n) x (IN x Hx)) HO HD).
      destruct (dice bw mx f total (fun n => q (S n)) cs1 i (S rej) delta) as [[cs' rej'] delta']. destruct IH as (I1 & I2). split; [exact (perm_trans I1 P1)|exact I2].
Qed.
Lemma dice_all total (ok : pcand -> Prop) q cs : (forall c, In c cs -> pc_from c < k /\ pc_to c < k) -> (forall n c, In c cs -> accepts bw mx total c (q n) = true -> ok c) ->
  let x := dice bw mx (length cs) total q cs 0 0 (repeat 0%Z k) in
  Permutation (fst (fst x)) cs /\ (forall c, In c (firstn (length (fst (fst x)) - snd (fst x)) (fst (fst x))) -> ok c) /\ forall b, nth b (snd x) 0%Z = gains (firstn (length (fst (fst x)) - snd (fst x)) (fst (fst x))) b.
Proof.
  intros HK HA. pose proof (dice_inv total ok (length cs) q cs 0 0 (repeat 0%Z k) eq_refl (repeat_length _ _) HK HA) as H. cbv zeta.
  destruct (dice bw mx (length cs) total q cs 0 0 (repeat 0%Z k)) as [[cs' rej'] delta']. cbn [fst snd]. apply H; [intros c []|]. intros b. cbn [firstn]. rewrite nth_repeat. reflexivity.
Qed.
Lemma nth_map_lt {X Y} (f : X -> Y) l i x y : i < length l -> nth i (map f l) y = f (nth i l x).
Proof. intros H. rewrite (nth_indep _ y (f x)) by (rewrite map_length; exact H). apply map_nth. Qed.
Definition taken_of (css acc : list (list pcand)) (ok : pcand -> Prop) : Prop := length acc = length css /\
  forall r, r < length css -> exists cs' m, Permutation cs' (nth r css []) /\ nth r acc [] = firstn m cs' /\ forall c, In c (nth r acc []) -> ok c.
Lemma attempts_inv (total : list Z) (ok : pcand -> Prop) : forall n qs css, (forall cs c, In cs css -> In c cs -> pc_from c < k /\ pc_to c < k) ->
  (forall a r m cs c, In cs css -> In c cs -> accepts bw mx total c (qs a r m) = true -> ok c) ->
  let x := attempts k bw mx n total qs css in
  taken_of css (fst (fst x)) ok /\ snd x = balanced k bw mx (snd (fst x)) /\ forall b, b < k -> nth b (snd (fst x)) 0%Z = zsum (map (fun cs => gains cs b) (fst (fst x))).
Proof.
  assert (STOP : forall qs css, (forall cs c, In cs css -> In c cs -> pc_from c < k /\ pc_to c < k) -> (forall a r m cs c, In cs css -> In c cs -> accepts bw mx total c (qs a r m) = true -> ok c) ->
    let res := attempt k bw mx total (qs 0) css in
    taken_of css (map (fun x => firstn (length (fst (fst x)) - snd (fst x)) (fst (fst x))) res) ok /\
    (forall b, b < k -> nth b (sum_lists k (map snd res)) 0%Z = zsum (map (fun cs => gains cs b) (map (fun x => firstn (length (fst (fst x)) - snd (fst x)) (fst (fst x))) res))) /\
    length (map (fun x => fst (fst x)) res) = length css /\ forall r, r < length css -> Permutation (nth r (map (fun x => fst (fst x)) res) []) (nth r css [])).
  { intros qs css HK HA res.
    assert (D : forall r, r < length css -> let x := dice bw mx (length (nth r css [])) total (qs 0 r) (nth r css []) 0 0 (repeat 0%Z k) in
      Permutation (fst (fst x)) (nth r css []) /\ (forall c, In c (firstn (length (fst (fst x)) - snd (fst x)) (fst (fst x))) -> ok c) /\ forall b, nth b (snd x) 0%Z = gains (firstn (length (fst (fst x)) - snd (fst x)) (fst (fst x))) b).
    { intros r Hr. assert (I : In (nth r css []) css) by (apply nth_In; exact Hr). apply dice_all; [intros c Hc; exact (HK _ c I Hc)|intros n c Hc; exact (HA 0 r n _ c I Hc)]. }
    assert (LR : length res = length css) by (unfold res, attempt; rewrite map_length, seq_length; reflexivity).
    split; [split; [rewrite map_length; exact LR|]|split; [|split; [rewrite map_length; exact LR|]]].
    - intros r Hr. destruct (D r Hr) as (D1 & D2 & _). unfold res, attempt. rewrite map_map. rewrite nth_map_seq by exact Hr. cbn [Nat.add]. eexists. eexists. split; [exact D1|]. split; [reflexivity|exact D2].
    - intros b Hb. unfold sum_lists. rewrite nth_map_seq by exact Hb. cbn [Nat.add]. unfold res, attempt. rewrite !map_map. apply zsum_map_ext. intros r Hr. apply in_seq in Hr. exact (proj2 (proj2 (D r ltac:(lia))) b).
    - intros r Hr. unfold res, attempt. rewrite map_map. rewrite nth_map_seq by exact Hr. exact (proj1 (D r Hr)). }
  induction n as [|n IH]; intros qs css HK HA; destruct (STOP qs css HK HA) as (S1 & S2 & S3 & S4); cbn [attempts].
  - split; [exact S1|]. split; [reflexivity|exact S2].
  - destruct (balanced k bw mx (sum_lists k (map snd (attempt k bw mx total (qs 0) css)))) eqn:B.
    + split; [exact S1|]. split; [symmetry; exact B|exact S2].
    + set (css1 := map (fun x => fst (fst x)) (attempt k bw mx total (qs 0) css)) in *.
      assert (SUB : forall cs, In cs css1 -> exists cs0, In cs0 css /\ forall c, In c cs -> In c cs0).
      { intros cs Hc. apply In_nth with (d := []) in Hc. destruct Hc as (r & Hr & <-). exists (nth r css []). split; [apply nth_In; lia|]. intros c. apply Permutation_in, S4. lia. }
      destruct (IH (fun a => qs (S a)) css1) as (I1 & I2 & I3).
      * intros cs c H1 H2. destruct (SUB cs H1) as (cs0 & A1 & A2). exact (HK cs0 c A1 (A2 c H2)).
      * intros a r m cs c H1 H2. destruct (SUB cs H1) as (cs0 & A1 & A2). exact (HA (S a) r m cs0 c A1 (A2 c H2)).
      * split; [|split; [exact I2|exact I3]]. destruct I1 as [J1 J2]. split; [rewrite J1; exact S3|]. intros r Hr. destruct (J2 r ltac:(lia)) as (cs' & m & X1 & X2). exists cs', m. split; [exact (perm_trans X1 (S4 r Hr))|exact X2].
Qed.

(** ** The round *)
Variables (tries : nat) (accept : bool) (qs : nat -> nat -> nat -> Q) (ranks : list prank).
Variable find : prank -> list Z * list pcand.
Hypothesis GR : forall r, In r ranks -> good_rank r.
Hypothesis GF : forall r, In r ranks -> cinv r [] (find r).
Variables (bw' : list Z) (blks' : list (list nat)).
Hypothesis HR : apply_round k bw mx (map find ranks) tries accept qs ranks = Some (bw', blks').
(** The moves of the ranks. *)
Definition moves_ok (ok : pcand -> Prop) (r : prank) (cs : list pcand) : Prop :=
  NoDup (map pc_node cs) /\ forall c, In c cs -> good_cand (pr_w r) (pr_blk r) c /\ pc_to c < k /\ from_over c /\ ok c /\ In c (snd (find r)).
Lemma forall2_nth {X Y} (R : X -> Y -> Prop) dx dy : forall l1 l2, length l1 = length l2 -> (forall i, i < length l1 -> R (nth i l1 dx) (nth i l2 dy)) -> Forall2 R l1 l2.
Proof. induction l1 as [|x l1 IH]; intros [|y l2] L H; try discriminate; constructor; [exact (H 0 ltac:(cbn; lia))|]. apply IH; [cbn in L; lia|]. intros i Hi. exact (H (S i) ltac:(cbn; lia)). Qed.
Lemma nodup_firstn {X} : forall m (l : list X), NoDup l -> NoDup (firstn m l).
Proof. intros m l H. rewrite <- (firstn_skipn m l) in H. rewrite <- (app_nil_r (firstn m l)). apply (drop_mid _ (skipn m l) []). rewrite app_nil_r. exact H. Qed.
Lemma round_facts (ok : pcand -> Prop) : (forall total c a r m, (forall b, (0 <= nth b total 0)%Z) -> (exists r0, In r0 ranks /\ In c (snd (find r0))) -> accepts bw mx total c (qs a r m) = true -> ok c) ->
  exists acc delta, Forall2 (moves_ok ok) ranks acc /\ (forall b, b < k -> nth b bw' 0%Z = (nth b bw 0 + nth b delta 0)%Z) /\ (balanced k bw mx delta || accept = true) /\
    (forall b, b < k -> nth b delta 0%Z = zsum (map (fun cs => gains cs b) acc)) /\ blks' = map (fun x => perform (pr_blk (fst x)) (snd x)) (combine ranks acc).
Proof.
  intros HA. unfold apply_round in HR. set (found := map find ranks) in *. set (total := sum_lists k (map fst found)) in *.
  assert (FI : forall i d, i < length ranks -> cinv (nth i ranks d) [] (find (nth i ranks d))) by (intros i d Hi; apply GF, nth_In; exact Hi).
  assert (T0 : forall b, (0 <= nth b total 0)%Z).
  { intros b. unfold total, sum_lists. destruct (Nat.lt_ge_cases b k) as [L|L]; [|rewrite nth_overflow by (rewrite map_length, seq_length; exact L); lia]. rewrite nth_map_seq by exact L. apply zsum_nonneg. intros x Hx. apply in_map_iff in Hx. destruct Hx as (l & <- & Hl).
    unfold found in Hl. rewrite map_map in Hl. apply in_map_iff in Hl. destruct Hl as (r & <- & Hr). destruct (GF r Hr) as (_ & F & _). apply F. }
  destruct (attempts_inv total ok (Nat.max 1 tries - 1) qs (map snd found)) as (A1 & A2 & A3).
  { intros cs c Hcs Hc. unfold found in Hcs. rewrite map_map in Hcs. apply in_map_iff in Hcs. destruct Hcs as (r & <- & Hr). destruct (GF r Hr) as (_ & _ & _ & F). destruct (F c Hc) as (_ & F1 & F2 & _). auto. }
  { intros a r m cs c Hcs Hc. apply HA; [exact T0|]. unfold found in Hcs. rewrite map_map in Hcs. apply in_map_iff in Hcs. destruct Hcs as (r0 & <- & Hr). exists r0. auto. }
  destruct (attempts k bw mx (Nat.max 1 tries - 1) total qs (map snd found)) as [[acc delta] b] eqn:E. cbn [fst snd] in A1, A2, A3. rewrite A2 in HR. destruct (balanced k bw mx delta || accept) eqn:B; [|discriminate]. injection HR as <- <-. exists acc, delta.
  destruct A1 as [L A1]. unfold found in L, A1. rewrite !map_length in L, A1.
  split; [|split; [intros x Hx; rewrite nth_map_seq by exact Hx; reflexivity|split; [exact B|split; [exact A3|reflexivity]]]].
  apply (forall2_nth _ (Prank [] [] [] [] []) []); [symmetry; exact L|]. intros i Hi. destruct (A1 i Hi) as (cs' & m & P1 & P2 & P3). rewrite map_map in P1. rewrite (nth_map_lt _ _ _ (Prank [] [] [] [] [])) in P1 by exact Hi.
  destruct (FI i (Prank [] [] [] [] []) Hi) as (_ & _ & F3 & F4). rewrite app_nil_r in F3. split.
  - rewrite P2, <- firstn_map. apply nodup_firstn. apply (Permutation_NoDup (Permutation_sym (Permutation_map pc_node P1))). exact F3.
  - intros c Hc. pose proof (P3 c Hc) as Oc. rewrite P2 in Hc. assert (Hc' : In c (snd (find (nth i ranks (Prank [] [] [] [] []))))) by (apply (Permutation_in _ P1); rewrite <- (firstn_skipn m cs'); apply in_or_app; left; exact Hc).
    destruct (F4 c Hc') as (G1 & _ & G3 & G4). auto 6.
Qed.
Lemma sums_after ok b : forall rs acc, (forall r, In r rs -> good_rank r) -> Forall2 (moves_ok ok) rs acc ->
  zsum (map (fun e => rank_weight (fst e) (snd e) b) (combine (map pr_w rs) (map (fun x => perform (pr_blk (fst x)) (snd x)) (combine rs acc)))) =
  (zsum (map (fun e => rank_weight (fst e) (snd e) b) (combine (map pr_w rs) (map pr_blk rs))) + zsum (map (fun cs => gains cs b) acc))%Z.
Proof.
  intros rs acc HG H. induction H as [|r cs rs acc [H1 H2] H IH]; [reflexivity|]. cbn [map combine zsum fst snd]. rewrite IH by (intros x Hx; apply HG; right; exact Hx).
  rewrite (perform_weight (pr_w r) b cs (pr_blk r)); [lia|exact (proj1 (HG r (or_introl eq_refl)))|exact H1|]. intros c Hc. exact (proj1 (H2 c Hc)).
Qed.
Theorem round_exact : exact_weights k (map pr_w ranks) (map pr_blk ranks) bw -> exact_weights k (map pr_w ranks) blks' bw'.
Proof.
  intros H b Hb. destruct (round_facts (fun _ => True)) as (acc & delta & F1 & F2 & _ & F4 & ->); [auto|]. rewrite (sums_after (fun _ => True) b ranks acc GR F1). rewrite F2, F4 by exact Hb. rewrite (H b Hb). reflexivity.
Qed.
Theorem round_blocks : length blks' = length ranks /\ forall i d, i < length ranks -> length (nth i blks' []) = length (pr_blk (nth i ranks d)) /\ (forall x, In x (nth i blks' []) -> x < k) /\
  forall u, nth u (nth i blks' []) 0 <> nth u (pr_blk (nth i ranks d)) 0 -> let b := nth u (pr_blk (nth i ranks d)) 0 in (nth b mx 0 < nth b bw 0)%Z.
Proof.
  destruct (round_facts (fun _ => True)) as (acc & delta & F1 & _ & _ & _ & ->); [auto|]. clear HR GF. induction F1 as [|r cs rs acc [H1 H2] F IH]; [split; [reflexivity|intros i d Hi; cbn in Hi; lia]|].
  destruct IH as [L I]; [intros x Hx; apply GR; right; exact Hx|]. split; [cbn [combine map length]; rewrite L; reflexivity|]. intros [|i] d Hi; cbn [combine map nth fst snd]; [|apply I; cbn [length] in Hi; lia].
  split; [apply perform_length|]. split; [apply perform_lt; [intros c Hc; exact (proj1 (proj2 (H2 c Hc)))|]; destruct (GR r (or_introl eq_refl)) as (_ & G & _); exact G|].
  intros u Hu. destruct (in_dec Nat.eq_dec u (map pc_node cs)) as [Hin|Hout].
  - apply in_map_iff in Hin. destruct Hin as (c & <- & Hc). destruct (H2 c Hc) as ((_ & Gf & _) & _ & O & _). cbv zeta. rewrite Gf. unfold from_over, p_overload in O. lia.
  - exfalso. apply Hu. apply perform_other. intros c Hc E. apply Hout. rewrite <- E. apply in_map. exact Hc.
Qed.
Theorem round_moves i d u : i < length ranks -> nth u (nth i blks' []) 0 <> nth u (pr_blk (nth i ranks d)) 0 -> exists c, In c (snd (find (nth i ranks d))) /\ pc_node c = u /\ pc_to c = nth u (nth i blks' []) 0.
Proof.
  destruct (round_facts (fun _ => True)) as (acc & delta & F1 & _ & _ & _ & ->); [auto|]. clear HR GF GR. revert i. induction F1 as [|r cs rs acc [H1 H2] F IH]; intros i Hi; [cbn in Hi; lia|].
  destruct i as [|i]; cbn [combine map nth fst snd]; [|apply IH; cbn [length] in Hi; lia]. intros H. destruct (perform_moved u cs (pr_blk r) H) as (c & C1 & C2 & C3). exists c. split; [apply (H2 c C1)|]. auto.
Qed.
Theorem round_no_new_overload : accept = false -> forall b, b < k -> (nth b bw 0 <= nth b mx 0)%Z -> (nth b bw' 0 <= nth b mx 0)%Z.
Proof.
  intros HAcc b Hb Hle. destruct (round_facts (fun _ => True)) as (acc & delta & _ & F2 & F3 & _ & _); [auto|]. rewrite HAcc, orb_false_r in F3. unfold balanced in F3. rewrite forallb_forall in F3. specialize (F3 b ltac:(apply in_seq; lia)).
  rewrite F2 by exact Hb. unfold p_overload, p_underload in F3. replace (Z.max 0 (nth b bw 0 - nth b mx 0))%Z with 0%Z in F3 by lia. cbn [Z.eqb andb] in F3.
  destruct (Z.ltb_spec (Z.max 0 (nth b mx 0 - nth b bw 0))%Z (nth b delta 0%Z)) as [L|L]; [discriminate|]. lia.
Qed.
Theorem shrinks_gen : (forall total c a r m, (forall b, (0 <= nth b total 0)%Z) -> (exists r0, In r0 ranks /\ In c (snd (find r0))) -> accepts bw mx total c (qs a r m) = true -> (nth (pc_to c) bw 0 <= nth (pc_to c) mx 0)%Z) ->
  forall b, b < k -> (nth b mx 0 < nth b bw 0)%Z -> (nth b bw' 0 <= nth b bw 0)%Z.
Proof.
  intros HA b Hb Hov. destruct (round_facts (fun c => (nth (pc_to c) bw 0 <= nth (pc_to c) mx 0)%Z) HA) as (acc & delta & F1 & F2 & _ & F4 & _).
  rewrite F2, F4 by exact Hb. assert (Q : (zsum (map (fun cs => gains cs b) acc) <= 0)%Z); [|lia]. clear - F1 Hov GR.
  induction F1 as [|r cs rs acc [H1 H2] F IH]; [cbn; lia|]. cbn [map zsum]. assert (IH' := IH (fun x Hx => GR x (or_intror Hx))). assert (Q : (gains cs b <= 0)%Z); [|lia]. unfold gains.
  assert (C : forall c, In c cs -> (cgain b c <= 0)%Z).
  { intros c Hc. destruct (H2 c Hc) as ((_ & _ & W) & _ & _ & O & _). pose proof (weight_nonneg r (pc_node c) (GR r (or_introl eq_refl))) as W0. rewrite W in W0. unfold cgain.
    destruct (Nat.eqb_spec (pc_to c) b) as [E|E]; [rewrite E in O; lia|]. destruct (Nat.eqb (pc_from c) b); lia. }
  clear - C. induction cs as [|c cs IH]; [cbn; lia|]. cbn [map zsum]. pose proof (C c (or_introl eq_refl)). specialize (IH (fun x Hx => C x (or_intror Hx))). lia.
Qed.
Theorem round_shrinks : (forall a r m, (0 < qs a r m)%Q) -> forall b, b < k -> (nth b mx 0 < nth b bw 0)%Z -> (nth b bw' 0 <= nth b bw 0)%Z.
Proof.
  intros HQ. apply shrinks_gen. intros total c a r m T _ A. assert (U0 : (0 < p_underload bw mx (pc_to c))%Z); [|unfold p_underload in U0; lia].
  unfold accepts in A. specialize (T (pc_to c)). destruct (Z.eqb_spec (nth (pc_to c) total 0%Z) 0) as [_|N]; [apply Z.ltb_lt; exact A|]. apply Qle_bool_iff in A. specialize (HQ a r m).
  set (t := nth (pc_to c) total 0%Z) in *. assert (T1 : (0 < inject_Z t)%Q) by (change 0%Q with (inject_Z 0); rewrite <- Zlt_Qlt; lia).
  assert (U : (0 < inject_Z (p_underload bw mx (pc_to c)))%Q) by (apply Qlt_le_trans with (qs a r m * inject_Z t)%Q; [apply Qmult_lt_0_compat; assumption|exact A]). change 0%Q with (inject_Z 0) in U. rewrite <- Zlt_Qlt in U. exact U.
Qed.
End Round.

(** ** Which nodes are moved *)
Section Picked.
Variables (k : nat) (bw mx : list Z).
Definition picked_ok (r : prank) (c : pcand) : Prop :=
  In (pc_node c) (nth (pc_from c) (pr_pq r) []) /\ nth (pc_node c) (pr_take r) false = true /\ (nth (pc_node c) (pr_target r) 0 <> pc_from c -> pc_to c = nth (pc_node c) (pr_target r) 0).
Lemma find_block_picked r from : forall els dto dfrom out, (forall u, In u els -> In u (nth from (pr_pq r) [])) -> (forall c, In c out -> picked_ok r c) -> forall c, In c (snd (find_block k bw mx r from els dto dfrom out)) -> picked_ok r c.
Proof.
  induction els as [|u els IH]; intros dto dfrom out E O; [exact O|]. cbn [find_block]. destruct (p_overload bw mx from <=? dfrom)%Z; [exact O|]. assert (E' : forall x, In x els -> In x (nth from (pr_pq r) [])) by (intros x Hx; apply E; right; exact Hx).
  destruct (nth u (pr_take r) false) eqn:T; [|apply IH; assumption]. cbv zeta. apply IH; [exact E'|]. intros c Hc. apply in_app_or in Hc. destruct Hc as [Hc|[<-|[]]]; [exact (O c Hc)|].
  split; [apply E; left; reflexivity|]. split; [exact T|]. cbn [pc_node pc_from pc_to]. intros N. destruct (Nat.eqb_spec from (nth u (pr_target r) 0)) as [X|_]; [exfalso; apply N; symmetry; exact X|reflexivity].
Qed.
Lemma find_picked r c : In c (snd (find_candidates k bw mx r)) -> picked_ok r c.
Proof.
  unfold find_candidates. revert c. assert (Q : forall l s, (forall c, In c (snd s) -> picked_ok r c) -> forall c, In c (snd (fold_left (fun s b => find_block k bw mx r b (nth b (pr_pq r) []) (fst s) 0%Z (snd s)) l s)) -> picked_ok r c).
  { induction l as [|b l IH]; intros s S; [exact S|]. cbn [fold_left]. apply IH. apply find_block_picked; [auto|exact S]. }
  apply Q. intros c [].
Qed.
Theorem moved_picked tries accept qs ranks bw' blks' : 0 < k -> (forall r, In r ranks -> good_rank k r /\ length (pr_pq r) = k) -> parallel_round k bw mx tries accept qs ranks = Some (bw', blks') ->
  forall i d u, i < length ranks -> let r := nth i ranks d in let from := nth u (pr_blk r) 0 in let to := nth u (nth i blks' []) 0 in
  to <> from -> In u (nth from (pr_pq r) []) /\ nth u (pr_take r) false = true /\ (nth u (pr_target r) 0 <> from -> to = nth u (pr_target r) 0).
Proof.
  intros K G H i d u Hi r from to Hm. assert (B : forall r, In r ranks -> cinv k bw mx r [] (find_candidates k bw mx r)) by (intros x Hx; apply find_inv; [exact K|apply G; exact Hx|apply G; exact Hx]).
  destruct (round_moves k bw mx tries accept qs _ _ B bw' blks' H i d u Hi Hm) as (c & C1 & C2 & C3). fold r in C1. destruct (B r (nth_In _ _ Hi)) as (_ & _ & _ & F). destruct (F c C1) as ((_ & F1 & _) & _).
  destruct (find_picked r c C1) as (P1 & P2 & P3). rewrite C2 in *. rewrite <- F1 in *. rewrite C3 in P3. auto.
Qed.
End Picked.

(** ** Clusters *)
Section Clusters.
Variables (k : nat) (bw mx : list Z).
Lemma find_clusters_inv r : 0 < k -> good_rank k r -> cinv k bw mx r [] (find_clusters k bw mx r).
Proof.
  intros K GR. pose proof GR as (L & B & _). unfold find_clusters.
  assert (Q : forall m s, cinv k bw mx r (seq m (length (pr_w r) - m)) s -> m <= length (pr_w r) -> cinv k bw mx r [] (fold_left (cluster_step k bw mx r) (seq m (length (pr_w r) - m)) s)).
  { intros m. remember (length (pr_w r) - m) as n eqn:En. revert m En. induction n as [|n IH]; intros m En s I Hm; [exact I|]. cbn [seq fold_left]. apply IH; [lia| |lia].
    destruct I as (I1 & I2 & I3 & I4). cbn [seq] in I3. unfold cluster_step, is_picked. set (from := nth m (pr_blk r) 0). set (w := nth m (pr_w r) 0%Z). set (t0 := nth m (pr_target r) 0).
    destruct ((0 <? p_overload bw mx from)%Z && nth m (pr_take r) false) eqn:E; [|split; [exact I1|split; [exact I2|split; [exact (NoDup_remove_1 _ _ _ I3)|exact I4]]]].
    apply andb_prop in E. destruct E as [E _]. apply Z.ltb_lt in E. pose proof (target_lt k r m K GR) as T. fold t0 in T. pose proof (weight_nonneg k r m GR) as W. fold w in W.
    assert (Hf : from < k) by (apply B, nth_In; lia). cbv zeta. set (to := if t0 =? from then feasible k bw mx k from t0 w (fst s) else t0). assert (T' : to < k) by (unfold to; destruct (t0 =? from); [apply feasible_lt; assumption|exact T]).
    split; [cbn [fst]; rewrite add_at_length; exact I1|]. split; [intros b; cbn [fst]; rewrite add_at_nth by lia; specialize (I2 b); destruct (t0 =? b); lia|]. split; [cbn [snd]; rewrite map_app, <- app_assoc; exact I3|].
    cbn [snd]. intros c Hc. apply in_app_or in Hc. destruct Hc as [Hc|[<-|[]]]; [exact (I4 c Hc)|]. split; [split; [cbn [pc_node]; lia|split; reflexivity]|]. split; [exact Hf|]. split; [exact T'|exact E]. }
  specialize (Q 0 (repeat 0%Z k, [])). rewrite Nat.sub_0_r in Q. apply Q; [|lia]. split; [apply repeat_length|]. split; [intros b; cbn [fst]; rewrite nth_repeat; lia|]. split; [apply seq_NoDup|intros c []].
Qed.
Lemma max_conn_spec conn from w b : max_conn k bw mx conn from w = Some b -> b < k /\ b <> from /\ (nth b bw 0 + w <= nth b mx 0)%Z.
Proof.
  unfold max_conn. assert (Q : forall l s, (forall x, In x l -> x < k) -> (forall x, snd s = Some x -> x < k /\ x <> from /\ (nth x bw 0 + w <= nth x mx 0)%Z) ->
    forall x, snd (fold_left (fun s b => if negb (b =? from) && (fst s <? nth b conn 0)%Z && (nth b bw 0 + w <=? nth b mx 0)%Z then (nth b conn 0%Z, Some b) else s) l s) = Some x -> x < k /\ x <> from /\ (nth x bw 0 + w <= nth x mx 0)%Z).
  { induction l as [|y l IH]; intros s L S x H; [exact (S x H)|]. cbn [fold_left] in H. revert H. apply IH; [intros z Hz; apply L; right; exact Hz|].
    destruct (negb (y =? from) && (fst s <? nth y conn 0)%Z && (nth y bw 0 + w <=? nth y mx 0)%Z) eqn:E; [|exact S]. intros z Z0. cbn [snd] in Z0. injection Z0 as <-. apply andb_prop in E. destruct E as [E E3]. apply andb_prop in E. destruct E as [E1 _].
    apply Z.leb_le in E3. apply negb_true_iff, Nat.eqb_neq in E1. split; [apply L; left; reflexivity|]. split; assumption. }
  apply Q; [intros x Hx; apply in_seq in Hx; lia|discriminate].
Qed.
Lemma max_conn_some conn from w b : (forall x, (0 <= nth x conn 0)%Z) -> b < k -> b <> from -> (nth b bw 0 + w <= nth b mx 0)%Z -> max_conn k bw mx conn from w <> None.
Proof.
  intros C Hb N R. unfold max_conn. assert (Q : forall l s, (snd s = None -> (fst s < 0)%Z) -> (In b l \/ snd s <> None) ->
    snd (fold_left (fun s b => if negb (b =? from) && (fst s <? nth b conn 0)%Z && (nth b bw 0 + w <=? nth b mx 0)%Z then (nth b conn 0%Z, Some b) else s) l s) <> None).
  { induction l as [|y l IH]; intros s S H; [destruct H as [[]|H]; exact H|]. cbn [fold_left]. destruct (negb (y =? from) && (fst s <? nth y conn 0)%Z && (nth y bw 0 + w <=? nth y mx 0)%Z) eqn:E.
    - apply IH; [discriminate|right; discriminate].
    - apply IH; [exact S|]. destruct H as [[->|H]|H]; [right|left; exact H|right; exact H]. intros Z0. specialize (S Z0). specialize (C b).
      rewrite (proj2 (Nat.eqb_neq b from) N), (proj2 (Z.ltb_lt (fst s) (nth b conn 0%Z)) ltac:(lia)), (proj2 (Z.leb_le _ _) R) in E. discriminate. }
  apply Q; [intros _; cbn; lia|left; apply in_seq; lia].
Qed.
Lemma max_conn_max conn from w b x : max_conn k bw mx conn from w = Some b -> x < k -> x <> from -> (nth x bw 0 + w <= nth x mx 0)%Z -> (nth x conn 0 <= nth b conn 0)%Z.
Proof.
  unfold max_conn. intros H Hx N R. revert H.
  assert (Q : forall l s, (In x l \/ (nth x conn 0 <= fst s)%Z) -> (forall y, snd s = Some y -> fst s = nth y conn 0%Z) ->
    snd (fold_left (fun s b => if negb (b =? from) && (fst s <? nth b conn 0)%Z && (nth b bw 0 + w <=? nth b mx 0)%Z then (nth b conn 0%Z, Some b) else s) l s) = Some b -> (nth x conn 0 <= nth b conn 0)%Z).
  { induction l as [|y l IH]; intros s I S H; [destruct I as [[]|I]; cbn [fold_left] in H; rewrite <- (S b H); exact I|]. cbn [fold_left] in H. revert H.
    destruct (negb (y =? from) && (fst s <? nth y conn 0)%Z && (nth y bw 0 + w <=? nth y mx 0)%Z) eqn:E.
    - apply IH; [|intros z Z0; cbn [snd] in Z0; injection Z0 as <-; reflexivity]. apply andb_prop in E. destruct E as [E _]. apply andb_prop in E. destruct E as [_ E]. apply Z.ltb_lt in E. cbn [fst].
      destruct I as [[->|I]|I]; [right; lia|left; exact I|right; lia].
    - apply IH; [|exact S]. destruct I as [[->|I]|I]; [right|left; exact I|right; exact I]. rewrite (proj2 (Nat.eqb_neq x from) N), (proj2 (Z.leb_le _ _) R), andb_true_r in E. cbn [negb andb] in E. apply Z.ltb_ge in E. exact E. }
  apply Q; [left; apply in_seq; lia|discriminate].
Qed.
Lemma with_good r : 0 < k -> good_clusters k r -> good_rank k (with_targets k bw mx r).
Proof.
  intros K (L & B & W). split; [exact L|]. split; [exact B|]. split; [|split; [exact W|split; [constructor|intros [|b] u []]]].
  intros x Hx. cbn [with_targets pr_target] in Hx. apply in_map_iff in Hx. destruct Hx as (c & <- & _). destruct (target_of k bw mx r c) as [b|] eqn:E; [exact (proj1 (max_conn_spec _ _ _ _ E))|exact K].
Qed.
Lemma candidate_target r c : no_target k bw mx r = false -> In c (snd (find_clusters k bw mx (with_targets k bw mx r))) ->
  pc_w c = nth (pc_node c) (cr_w r) 0%Z /\ nth (pc_node c) (cr_take r) false = true /\ target_of k bw mx r (pc_node c) = Some (pc_to c).
Proof.
  intros HN. unfold find_clusters. set (p := with_targets k bw mx r). set (G := fun c => pc_w c = nth (pc_node c) (cr_w r) 0%Z /\ nth (pc_node c) (cr_take r) false = true /\ target_of k bw mx r (pc_node c) = Some (pc_to c)).
  change (In c (snd (fold_left (cluster_step k bw mx p) (seq 0 (length (pr_w p))) (repeat 0%Z k, []))) -> G c). revert c.
  assert (Q : forall l s, (forall x, In x l -> x < length (cr_w r)) -> (forall c, In c (snd s) -> G c) -> forall c, In c (snd (fold_left (cluster_step k bw mx p) l s)) -> G c).
  { induction l as [|y l IH]; intros s L S; [exact S|]. cbn [fold_left]. apply IH; [intros z Hz; apply L; right; exact Hz|]. unfold cluster_step. destruct (is_picked bw mx p y) eqn:E; [|exact S].
    assert (Hy : y < length (cr_w r)) by (apply L; left; reflexivity). cbv zeta. cbn [snd]. intros x Hx. apply in_app_or in Hx. destruct Hx as [Hx|[<-|[]]]; [exact (S x Hx)|]. unfold G. cbn [pc_to pc_node pc_w].
    assert (TG : exists b, target_of k bw mx r y = Some b).
    { destruct (target_of k bw mx r y) as [b|] eqn:T; [exists b; reflexivity|]. exfalso. unfold no_target in HN. rewrite <- not_true_iff_false in HN. apply HN. apply existsb_exists. exists y. split; [apply in_seq; lia|]. fold p. rewrite E, T. reflexivity. }
    destruct TG as (b & T). assert (TN : nth y (pr_target p) 0 = b) by (unfold p, with_targets; cbn [pr_target]; rewrite nth_map_seq by exact Hy; cbn [Nat.add]; rewrite T; reflexivity). rewrite TN.
    destruct (max_conn_spec _ _ _ _ T) as (_ & N & R). change (nth y (pr_blk p) 0) with (nth y (cr_blk r) 0).
    destruct (Nat.eqb_spec b (nth y (cr_blk r) 0)) as [X|_]; [contradiction|]. split; [reflexivity|]. split; [exact (proj2 (andb_prop _ _ E))|exact T]. }
  apply Q; [|intros x []]. intros x Hx. apply in_seq in Hx. cbn in Hx. lia.
Qed.
Theorem clusters_defined tries accept qs ranks : (forall r c, In r ranks -> c < length (cr_w r) -> nth c (cr_take r) false = true -> let from := nth c (cr_blk r) 0 in (nth from mx 0 < nth from bw 0)%Z ->
    (forall x, (0 <= nth x (nth c (cr_conn r) []) 0)%Z) /\ exists b, b < k /\ b <> from /\ (nth b bw 0 + nth c (cr_w r) 0 <= nth b mx 0)%Z) ->
  cluster_round k bw mx tries accept qs ranks <> Undefined.
Proof.
  intros H. unfold cluster_round. destruct (existsb (no_target k bw mx) ranks) eqn:E; [|destruct (apply_round _ _ _ _ _ _ _ _) as [[x y]|]; discriminate].
  exfalso. apply existsb_exists in E. destruct E as (r & Hr & E). unfold no_target in E. apply existsb_exists in E. destruct E as (c & Hc & E). apply in_seq in Hc. apply andb_prop in E. destruct E as [P T].
  unfold is_picked in P. cbn [with_targets pr_blk pr_take] in P. apply andb_prop in P. destruct P as [P1 P2]. apply Z.ltb_lt in P1. unfold p_overload in P1.
  destruct (H r c Hr ltac:(lia) P2 ltac:(lia)) as (C & b & B1 & B2 & B3). destruct (target_of k bw mx r c) eqn:T0; [discriminate|]. exact (max_conn_some _ _ _ b C B1 B2 B3 T0).
Qed.

Variables (tries : nat) (accept : bool) (qs : nat -> nat -> nat -> Q) (ranks : list crank) (bw' : list Z) (blks' : list (list nat)).
Hypothesis K : 0 < k.
Hypothesis GC : forall r, In r ranks -> good_clusters k r.
Hypothesis HR : cluster_round k bw mx tries accept qs ranks = Done bw' blks'.
Lemma cr_facts : (forall r, In r (map (with_targets k bw mx) ranks) -> good_rank k r) /\ (forall r, In r (map (with_targets k bw mx) ranks) -> cinv k bw mx r [] (find_clusters k bw mx r)) /\
  apply_round k bw mx (map (find_clusters k bw mx) (map (with_targets k bw mx) ranks)) tries accept qs (map (with_targets k bw mx) ranks) = Some (bw', blks') /\ forall r, In r ranks -> no_target k bw mx r = false.
Proof.
  assert (A : forall r, In r (map (with_targets k bw mx) ranks) -> good_rank k r) by (intros r Hr; apply in_map_iff in Hr; destruct Hr as (x & <- & Hx); apply with_good; [exact K|apply GC; exact Hx]).
  split; [exact A|]. split; [intros r Hr; apply find_clusters_inv; [exact K|apply A; exact Hr]|]. unfold cluster_round in HR. destruct (existsb (no_target k bw mx) ranks) eqn:E; [discriminate|].
  split; [destruct (apply_round _ _ _ _ _ _ _ _) as [[x y]|]; [injection HR as -> ->; reflexivity|discriminate]|].
  intros r Hr. destruct (no_target k bw mx r) eqn:N; [|reflexivity]. rewrite <- E. symmetry. apply existsb_exists. exists r. auto.
Qed.
Theorem clusters_exact : exact_weights k (map cr_w ranks) (map cr_blk ranks) bw -> exact_weights k (map cr_w ranks) blks' bw'.
Proof.
  destruct cr_facts as (A & B & C & _). pose proof (round_exact k bw mx tries accept qs _ _ A B bw' blks' C) as H. rewrite !map_map in H. exact H.
Qed.
Theorem clusters_blocks : length blks' = length ranks /\ forall i d, i < length ranks -> length (nth i blks' []) = length (cr_blk (nth i ranks d)) /\ (forall x, In x (nth i blks' []) -> x < k) /\
  forall u, nth u (nth i blks' []) 0 <> nth u (cr_blk (nth i ranks d)) 0 -> let b := nth u (cr_blk (nth i ranks d)) 0 in (nth b mx 0 < nth b bw 0)%Z.
Proof.
  destruct cr_facts as (A & B & C & _). destruct (round_blocks k bw mx tries accept qs _ _ A B bw' blks' C) as [H1 H2]. rewrite map_length in H1, H2. split; [exact H1|]. intros i d Hi. specialize (H2 i (with_targets k bw mx d) Hi). rewrite map_nth in H2. exact H2.
Qed.
Theorem clusters_no_new : accept = false -> forall b, b < k -> (nth b bw 0 <= nth b mx 0)%Z -> (nth b bw' 0 <= nth b mx 0)%Z.
Proof. destruct cr_facts as (A & B & C & _). exact (round_no_new_overload k bw mx tries accept qs _ _ B bw' blks' C). Qed.
Theorem clusters_shrink : forall b, b < k -> (nth b mx 0 < nth b bw 0)%Z -> (nth b bw' 0 <= nth b bw 0)%Z.
Proof.
  destruct cr_facts as (A & B & C & D). apply (shrinks_gen k bw mx tries accept qs _ _ A B bw' blks' C). intros total c a r m _ (r0 & H1 & H2) _. pose proof (B r0 H1) as (_ & _ & _ & F). destruct (F c H2) as ((_ & _ & W) & _). pose proof (weight_nonneg k r0 (pc_node c) (A r0 H1)) as W0. rewrite W in W0.
  apply in_map_iff in H1. destruct H1 as (x & <- & Hx). destruct (candidate_target x c (D x Hx) H2) as (W1 & _ & T). destruct (max_conn_spec _ _ _ _ T) as (_ & _ & R). lia.
Qed.
Theorem clusters_best i d u : i < length ranks -> let r := nth i ranks d in let from := nth u (cr_blk r) 0 in let to := nth u (nth i blks' []) 0 in let w := nth u (cr_w r) 0%Z in let conn := nth u (cr_conn r) [] in
  to <> from -> nth u (cr_take r) false = true /\ (nth to bw 0 + w <= nth to mx 0)%Z /\ forall b, b < k -> b <> from -> (nth b bw 0 + w <= nth b mx 0)%Z -> (nth b conn 0 <= nth to conn 0)%Z.
Proof.
  intros Hi r from to w conn Hm. destruct cr_facts as (A & B & C & D). pose proof (round_moves k bw mx tries accept qs _ _ B bw' blks' C i (with_targets k bw mx d) u) as M. rewrite map_length, map_nth in M. fold r in M.
  destruct (M Hi Hm) as (c & C1 & C2 & C3). destruct (candidate_target r c (D r (nth_In _ _ Hi)) C1) as (_ & T1 & T2). rewrite C2 in T1, T2. rewrite C3 in T2. fold to in T2. split; [exact T1|]. split; [exact (proj2 (proj2 (max_conn_spec _ _ _ _ T2)))|].
  intros b Hb N R. exact (max_conn_max _ _ _ _ b T2 Hb N R).
Qed.
End Clusters.

(** Two ranks; block 0 is overloaded by 3, block 1 has room for 3. Both ranks want to move a node of weight 2. *)
Definition z_ranks := [Prank [2; 3; 4]%Z [0; 0; 1] [[0]; []] [1; 1; 1] [true; true; true]; Prank [2; 3]%Z [0; 0] [[0; 1]; []] [1; 1] [true; false]].
Lemma z_good r : In r z_ranks -> good_rank 2 r /\ length (pr_pq r) = 2.
Proof.
  intros [<-|[<-|[]]]; (split; [|reflexivity]); (split; [reflexivity|]); (split; [intros x H; cbn in H; lia|]); (split; [intros x H; cbn in H; lia|]); (split; [intros x H; cbn in H; lia|]); split;
    [repeat constructor; cbn; lia| |repeat constructor; cbn; lia|]; intros [|[|[|b]]] u H; cbn in H; try contradiction; destruct u as [|[|u]]; cbn; lia.
Qed.
Lemma z_exact : exact_weights 2 (map pr_w z_ranks) (map pr_blk z_ranks) [10; 4]%Z.
Proof. intros [|[|b]] H; [reflexivity|reflexivity|lia]. Qed.
Definition z_half : nat -> nat -> nat -> Q := fun _ _ _ => (1 # 2)%Q.
(** In the second attempt, rank 1 rejects. *)
Definition z_second : nat -> nat -> nat -> Q := fun a r _ => if (a =? 1) && (r =? 1) then (9 # 10)%Q else (1 # 2)%Q.
Lemma z_second_pos a r m : (0 < z_second a r m)%Q.
Proof. unfold z_second. destruct ((a =? 1) && (r =? 1)); reflexivity. Qed.
Lemma z_half_range a r m : (0 < z_half a r m /\ z_half a r m < 1)%Q.
Proof. split; reflexivity. Qed.
Theorem default_overloads : exists k bw mx qs ranks bw' blks' b, 0 < k /\ (forall r, In r ranks -> good_rank k r /\ length (pr_pq r) = k) /\ exact_weights k (map pr_w ranks) (map pr_blk ranks) bw /\
  (forall a r m, (0 < qs a r m /\ qs a r m < 1)%Q) /\ parallel_round k bw mx 0 true qs ranks = Some (bw', blks') /\ b < k /\ (nth b bw 0 <= nth b mx 0)%Z /\ (nth b mx 0 < nth b bw' 0)%Z.
Proof.
  exists 2, [10; 4]%Z, [7; 7]%Z, z_half, z_ranks. do 2 eexists. exists 1. split; [lia|]. split; [exact z_good|]. split; [exact z_exact|]. split; [exact z_half_range|]. split; [vm_compute; reflexivity|]. cbn. lia.
Qed.

(** Two ranks; block 0 is overloaded by 3, blocks 1 and 2 have room for 3 and 2. *)
Definition c_ranks := [Crank [2; 3; 4]%Z [0; 0; 1] [[0; 5; 1]; [0; 0; 0]; [0; 0; 0]]%Z [true; false; true]; Crank [2; 3; 5]%Z [0; 0; 2] [[0; 1; 0]; [1; 1; 1]; [0; 0; 0]]%Z [true; false; true]].
Lemma c_good r : In r c_ranks -> good_clusters 3 r.
Proof. intros [<-|[<-|[]]]; (split; [reflexivity|]); (split; intros x H; cbn in H; lia). Qed.
Lemma c_exact : exact_weights 3 (map cr_w c_ranks) (map cr_blk c_ranks) [10; 4; 5]%Z.
Proof. intros [|[|[|b]]] H; [reflexivity|reflexivity|reflexivity|lia]. Qed.
Theorem clusters_default : exists k bw mx qs ranks bw' blks' b, 0 < k /\ (forall r, In r ranks -> good_clusters k r) /\ exact_weights k (map cr_w ranks) (map cr_blk ranks) bw /\
  (forall a r m, (0 < qs a r m /\ qs a r m < 1)%Q) /\ cluster_round k bw mx 0 true qs ranks = Done bw' blks' /\ b < k /\ (nth b bw 0 <= nth b mx 0)%Z /\ (nth b mx 0 < nth b bw' 0)%Z.
Proof.
  exists 3, [10; 4; 5]%Z, [7; 7; 7]%Z, z_half, c_ranks. do 2 eexists. exists 1. split; [lia|]. split; [exact c_good|]. split; [exact c_exact|]. split; [exact z_half_range|]. split; [vm_compute; reflexivity|]. cbn. lia.
Qed.
Lemma c_room r c : In r c_ranks -> c < length (cr_w r) -> nth c (cr_take r) false = true -> let from := nth c (cr_blk r) 0 in (nth from [7; 7; 7] 0 < nth from [10; 4; 5] 0)%Z ->
  (forall x, (0 <= nth x (nth c (cr_conn r) []) 0)%Z) /\ exists b, b < 3 /\ b <> from /\ (nth b [10; 4; 5] 0 + nth c (cr_w r) 0 <= nth b [7; 7; 7] 0)%Z.
Proof.
  intros [<-|[<-|[]]]; destruct c as [|[|[|c]]]; cbn; intros L T O; try discriminate; try lia; (split; [intros [|[|[|[|x]]]]; lia|exists 1; lia]).
Qed.
(** A cluster of weight 4 in an overloaded block, and no other block has room for it, though there is enough room for all nodes. *)
Definition c_full := [Crank [4; 4; 5; 5]%Z [0; 0; 1; 2] [[0; 1; 0]; [1; 0; 0]; [0; 0; 0]; [0; 0; 0]]%Z [true; true; true; true]].
Theorem clusters_undefined : exists k bw mx ranks, 0 < k /\ (forall r, In r ranks -> good_clusters k r) /\ exact_weights k (map cr_w ranks) (map cr_blk ranks) bw /\ (zsum bw <= zsum mx)%Z /\
  forall tries accept qs, cluster_round k bw mx tries accept qs ranks = Undefined.
Proof.
  exists 3, [8; 5; 5]%Z, [7; 7; 7]%Z, c_full. split; [lia|]. split; [|split; [|split; [cbn; lia|reflexivity]]].
  - intros r [<-|[]]. split; [reflexivity|]. split; intros x H; cbn in H; lia.
  - intros [|[|[|b]]] H; [reflexivity|reflexivity|reflexivity|lia].
Qed.
