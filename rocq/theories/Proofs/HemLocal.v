(* Heavy edge matching: what the steps of one rank do to its array. *)
From Verif Require Import Lib.Prelude Model.GridModel Model.DistGraphModel Model.RearrangeModel Model.HemModel.

Lemma rd_same i x s : i < length s -> rd (upd i x s) i = x. Proof. apply upd_nth_same. Qed.
Lemma rd_other i j x s : i <> j -> rd (upd i x s) j = rd s j. Proof. apply upd_nth_other. Qed.
Lemma free_iff c : taken c = false <-> c = Free. Proof. destruct c; split; (discriminate || reflexivity). Qed.

Section Rank.
Variable d : dcsr.

Section Local.
Variables (maxw : Z) (ignore : bool) (s0 : list cell) (hidden : nat -> nat -> bool) (fails : nat -> bool).
Definition good_edge (u v : nat) : Prop :=
  rd s0 v = Free /\ (exists w, In (v, w) (row d u) /\ (0 < w)%Z) /\ (ignore = false -> (wt d u + wt d v <= maxw)%Z).
Lemma candidate_ok u : (0 < snd (candidate d maxw ignore s0 hidden u))%Z -> good_edge u (fst (candidate d maxw ignore s0 hidden u)).
Proof.
  unfold candidate. assert (H : forall es b, (forall e, In e es -> In (snd e) (row d u)) -> ((0 < snd b)%Z -> good_edge u (fst b)) ->
    let b' := fold_left (better d maxw ignore s0 hidden u) es b in (0 < snd b')%Z -> good_edge u (fst b')).
  { induction es as [|e es IH]; intros b Hin Hb; [exact Hb|]. cbn [fold_left]. apply IH; [intros x Hx; apply Hin; right; exact Hx|]. unfold better.
    destruct (taken (rd s0 (fst (snd e))) || hidden u (fst e)) eqn:E1; [exact Hb|]. destruct ((maxw <? wt d u + wt d (fst (snd e)))%Z && negb ignore) eqn:E2; [exact Hb|].
    destruct (snd (snd e) <? snd b)%Z; [exact Hb|]. cbn [fst snd]. intros Hw. apply orb_false_iff in E1. destruct E1 as [E1 _]. split; [apply free_iff; exact E1|]. split.
    - exists (snd (snd e)). split; [|exact Hw]. rewrite <- surjective_pairing. apply Hin. left. reflexivity.
    - intros ->. cbn [negb] in E2. rewrite andb_true_r in E2. apply Z.ltb_ge in E2. exact E2. }
  apply H; [|cbn; lia]. intros [i e] He. apply in_combine_r in He. exact He.
Qed.

(** [pick]: the matches that the nodes of [D] have made; [s]: the array by now. *)
Record picked (D : list nat) (pick : nat -> option nat) (s : list cell) : Prop := {
  pk_len : length s = length s0;
  pk_ok : forall u v, pick u = Some v -> In u D /\ rd s0 u = Free /\ good_edge u v /\ rd s u = To (glob d v) /\ rd s v = To (glob d v);
  pk_inj : forall u u' v, pick u = Some v -> pick u' = Some v -> u = u';
  pk_rest : forall l, rd s l = rd s0 l \/ (exists v, pick l = Some v) \/ (exists u, pick u = Some l)
}.
Variable all : list nat.
Hypothesis Hall : forall u v w, In u all -> In (v, w) (row d u) -> u < length s0 /\ v < length s0 /\ ~ In v all.

Lemma picked_step D pick s u : (forall x, In x D -> In x all) -> In u all -> ~ In u D -> picked D pick s ->
  exists pick', picked (u :: D) pick' (match_node d maxw ignore s0 hidden fails s u).
Proof.
  intros HDa Hu Hn [L OK IN RE].
  assert (Weak : picked (u :: D) pick s).
  { split; auto. intros x v Hx. destruct (OK x v Hx) as (A & B). split; [right; exact A|exact B]. }
  unfold match_node. destruct (taken (rd s u)) eqn:Eu; [exists pick; exact Weak|]. apply free_iff in Eu. pose proof (candidate_ok u) as Hc.
  destruct (candidate d maxw ignore s0 hidden u) as [v w]. cbn [fst snd] in *. destruct ((0 <? w)%Z && negb (fails u) && negb (taken (rd s v))) eqn:E; [|exists pick; exact Weak].
  apply andb_true_iff in E. destruct E as [E Ev]. apply andb_true_iff in E. destruct E as [E _]. apply Z.ltb_lt in E. specialize (Hc E). apply negb_true_iff, free_iff in Ev.
  destruct Hc as (C1 & (w' & C2 & C2') & C3). destruct (Hall u v w' Hu C2) as (Lu & Lv & Nv). assert (Nuv : u <> v) by (intros ->; exact (Nv Hu)).
  assert (Pu : forall x y, pick x = Some y -> x <> u /\ y <> u /\ x <> v /\ y <> v).
  { intros x y Hx. destruct (OK x y Hx) as (A & B & (C & (w2 & C5 & _) & _) & D1 & D2). repeat split; intros ->; try congruence. }
  assert (Fu : rd s0 u = Free).
  { destruct (RE u) as [H|[[y H]|[y H]]]; [congruence| |]; destruct (Pu _ _ H) as (A & B & _); congruence. }
  exists (fun x => if x =? u then Some v else pick x). split.
  - rewrite !upd_length. exact L.
  - intros x y. destruct (Nat.eqb_spec x u) as [->|Nx]; intros Hx.
    + injection Hx as <-. split; [left; reflexivity|]. split; [exact Fu|]. split; [split; [exact C1|split; [exists w'; auto|exact C3]]|]. split; [apply rd_same; rewrite upd_length; lia|].
      rewrite rd_other by exact Nuv. apply rd_same. lia.
    + destruct (Pu x y Hx) as (A1 & A2 & A3 & A4). destruct (OK x y Hx) as (A & B & C & D1 & D2). split; [right; exact A|]. split; [exact B|]. split; [exact C|].
      split; rewrite !rd_other by congruence; assumption.
  - intros x x' y. destruct (Nat.eqb_spec x u) as [->|Nx]; destruct (Nat.eqb_spec x' u) as [->|Nx']; intros Hx Hx'; try reflexivity.
    + injection Hx as <-. destruct (Pu _ _ Hx'). tauto.
    + injection Hx' as <-. destruct (Pu _ _ Hx). tauto.
    + exact (IN x x' y Hx Hx').
  - intros l. destruct (Nat.eq_dec l u) as [->|N1]; [right; left; exists v; rewrite Nat.eqb_refl; reflexivity|]. destruct (Nat.eq_dec l v) as [->|N2]; [right; right; exists u; rewrite Nat.eqb_refl; reflexivity|].
    rewrite !rd_other by congruence. destruct (RE l) as [H|[[y H]|[y H]]]; [left; exact H| |]; right; [left; exists y|right; exists y].
    + destruct (Nat.eqb_spec l u); [congruence|exact H].
    + destruct (Pu _ _ H) as [A _]. destruct (Nat.eqb_spec y u); [congruence|exact H].
Qed.
Lemma match_nodes_from todo : forall D pick s, NoDup todo -> (forall u, In u todo -> In u all /\ ~ In u D) -> (forall u, In u D -> In u all) -> picked D pick s ->
  exists pick', picked (rev todo ++ D) pick' (fold_left (match_node d maxw ignore s0 hidden fails) todo s).
Proof.
  induction todo as [|u t IH]; intros D pick s ND Ht HDa Hp; [exists pick; exact Hp|]. inversion ND as [|? ? N1 N2]; subst.
  destruct (Ht u (or_introl eq_refl)) as [U1 U2]. destruct (picked_step D pick s u HDa U1 U2 Hp) as [pick1 Hp1]. cbn [fold_left rev]. rewrite <- app_assoc. cbn [app].
  apply (IH (u :: D) pick1 _ N2); [| |exact Hp1].
  - intros x Hx. destruct (Ht x (or_intror Hx)) as [A B]. split; [exact A|]. intros [->|C]; [exact (N1 Hx)|exact (B C)].
  - intros x [<-|Hx]; [exact U1|exact (HDa x Hx)].
Qed.
Lemma match_nodes_ok order : NoDup order -> (forall u, In u order -> In u all) -> exists pick, picked all pick (match_nodes d maxw ignore s0 hidden fails order).
Proof.
  intros ND Ho. destruct (match_nodes_from order [] (fun _ => None) s0 ND) as [pick Hp].
  - intros u Hu. split; [exact (Ho u Hu)|intros []].
  - intros u [].
  - split; [reflexivity|discriminate|discriminate|left; reflexivity].
  - exists pick. destruct Hp as [A B C D0]. split; auto. intros u v Huv. destruct (B u v Huv) as [B1 B2]. split; [|exact B2]. apply Ho. rewrite app_nil_r in B1. apply in_rev. exact B1.
Qed.
End Local.

(** Conditional writes. *)
Definition put {X} (f : X -> option (nat * cell)) (s : list cell) (x : X) : list cell := match f x with Some (i, c) => upd i c s | None => s end.
Lemma puts_length {X} (f : X -> option (nat * cell)) xs : forall s, length (fold_left (put f) xs s) = length s.
Proof. induction xs as [|x t IH]; intros s; [reflexivity|]. cbn [fold_left]. rewrite IH. unfold put. destruct (f x) as [[i c]|]; [apply upd_length|reflexivity]. Qed.
Lemma puts_other {X} (f : X -> option (nat * cell)) t xs : (forall x i c, In x xs -> f x = Some (i, c) -> i <> t) -> forall s, rd (fold_left (put f) xs s) t = rd s t.
Proof.
  induction xs as [|x l IH]; intros H s; [reflexivity|]. cbn [fold_left]. rewrite IH by (intros y i c Hy; apply H; right; exact Hy). unfold put. destruct (f x) as [[i c]|] eqn:E; [|reflexivity].
  apply rd_other. exact (H x i c (or_introl eq_refl) E).
Qed.
Lemma puts_same {X} (f : X -> option (nat * cell)) t c xs : (exists x, In x xs /\ f x = Some (t, c)) -> (forall x c', In x xs -> f x = Some (t, c') -> c' = c) ->
  forall s, t < length s -> rd (fold_left (put f) xs s) t = c.
Proof.
  induction xs as [|x l IH] using rev_ind; intros (y & Hy & Ey) H s Ht; [destruct Hy|]. rewrite fold_left_app. cbn [fold_left]. unfold put at 1. destruct (f x) as [[i c']|] eqn:E.
  - destruct (Nat.eq_dec i t) as [->|N].
    + rewrite rd_same by (rewrite puts_length; exact Ht). apply (H x c'); [apply in_or_app; right; left; reflexivity|exact E].
    + rewrite rd_other by exact N. apply IH; [|intros z c2 Hz; apply H; apply in_or_app; left; exact Hz|exact Ht]. exists y. split; [|exact Ey]. apply in_app_or in Hy. destruct Hy as [Hy|[<-|[]]]; [exact Hy|]. congruence.
  - apply IH; [|intros z c2 Hz; apply H; apply in_or_app; left; exact Hz|exact Ht]. exists y. split; [|exact Ey]. apply in_app_or in Hy. destruct Hy as [Hy|[<-|[]]]; [exact Hy|]. congruence.
Qed.
Lemma fold_ext {X Y} (f g : X -> Y -> X) ys : (forall x y, f x y = g x y) -> forall x, fold_left f ys x = fold_left g ys x.
Proof. intros H. induction ys as [|y t IH]; intros x; [reflexivity|]. cbn [fold_left]. rewrite H. apply IH. Qed.

Lemma normalize_put s1 s2 qs : normalize d s1 s2 qs = fold_left (put (fun q => if won d s1 s2 q then Some (rq_mine q, To (glob d (rq_mine q))) else None)) qs s2.
Proof. apply fold_ext. intros s q. unfold put. destruct (won d s1 s2 q); reflexivity. Qed.
Lemma unmatch_put s ans : unmatch s ans = fold_left (put (fun a : nat * bool => if snd a then None else Some (fst a, Free))) ans s.
Proof. apply fold_ext. intros x a. unfold put. destruct (snd a); reflexivity. Qed.
Lemma receive_put s ms : receive_cells d s ms = fold_left (put (fun m : nat * (nat * cell) => Some (loc d (offset d (fst m) + fst (snd m)), snd (snd m)))) ms s.
Proof. reflexivity. Qed.

Lemma bids_ok s1 bids : length (place_bids d s1 bids) = length s1 /\ forall t, rd (place_bids d s1 bids) t = rd s1 t \/
  (rd s1 t = Free /\ exists q b, In (q, b) bids /\ rq_mine q = t /\ rd (place_bids d s1 bids) t = Bid (rq_w q) (their_node d q)).
Proof.
  unfold place_bids. induction bids as [|[q b] l [IHl IH]] using rev_ind; [split; [reflexivity|left; reflexivity]|]. rewrite fold_left_app. cbn [fold_left].
  set (s := fold_left (place_bid d s1) l s1) in *.
  assert (Keep : forall t, rd s t = rd s1 t \/ (rd s1 t = Free /\ exists q' b', In (q', b') (l ++ [(q, b)]) /\ rq_mine q' = t /\ rd s t = Bid (rq_w q') (their_node d q'))).
  { intros t. destruct (IH t) as [H|(H1 & q' & b' & H2 & H3)]; [left; exact H|right]. split; [exact H1|]. exists q', b'. split; [apply in_or_app; left; exact H2|exact H3]. }
  unfold place_bid. cbn [fst snd]. destruct (b || negb (accepted s1 q)) eqn:E; [split; [exact IHl|exact Keep]|]. apply orb_false_iff in E. destruct E as [_ E]. apply negb_false_iff in E.
  unfold accepted in E. apply negb_true_iff, free_iff in E. destruct (rq_w q <=? _)%Z; [split; [exact IHl|exact Keep]|]. split; [rewrite upd_length; exact IHl|]. intros t.
  destruct (Nat.eq_dec (rq_mine q) t) as [<-|N].
  - destruct (Nat.lt_ge_cases (rq_mine q) (length s)) as [L|L]; [|rewrite upd_oob by exact L; apply Keep]. right. split; [exact E|]. exists q, b. split; [apply in_or_app; right; left; reflexivity|]. split; [reflexivity|]. apply rd_same. exact L.
  - rewrite rd_other by exact N. apply Keep.
Qed.
End Rank.
