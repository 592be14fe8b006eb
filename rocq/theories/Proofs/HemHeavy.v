(* Heavy edge matching without races: the heaviest edges are preferred. *)
From Verif Require Import Lib.Prelude Model.DistGraphModel Model.HemModel Proofs.HemLocal.

Definition eligible (d : dcsr) (maxw : Z) (ignore : bool) (s : list cell) (u v : nat) : Prop :=
  rd s v = Free /\ (ignore = true \/ (wt d u + wt d v <= maxw)%Z).
Lemma eligible_dec d maxw ignore s hidden u e b : hidden = (fun _ _ => false) ->
  (eligible d maxw ignore s u (fst (snd e)) /\ better d maxw ignore s hidden u b e = (if (snd (snd e) <? snd b)%Z then b else snd e)) \/
  (~ eligible d maxw ignore s u (fst (snd e)) /\ better d maxw ignore s hidden u b e = b).
Proof.
  intros ->. unfold eligible, better. destruct (rd s (fst (snd e))) as [|g|w l] eqn:E1; cbn [taken orb]; [|right; split; [intros [A _]; discriminate|reflexivity]|right; split; [intros [A _]; discriminate|reflexivity]].
  destruct (Z.ltb_spec maxw (wt d u + wt d (fst (snd e)))) as [L|L]; destruct ignore; cbn [andb negb].
  - left. split; [auto|]. destruct e as [i [v w]]. reflexivity.
  - right. split; [|reflexivity]. intros [_ [A|A]]; [discriminate|lia].
  - left. split; [auto|]. destruct e as [i [v w]]. reflexivity.
  - left. split; [auto|]. destruct e as [i [v w]]. reflexivity.
Qed.
Lemma better_fold d maxw ignore s u es : forall b0, let b := fold_left (better d maxw ignore s (fun _ _ => false) u) es b0 in
  (b = b0 \/ exists e, In e es /\ b = snd e /\ eligible d maxw ignore s u (fst b)) /\ (snd b0 <= snd b)%Z /\
  forall e, In e es -> eligible d maxw ignore s u (fst (snd e)) -> (snd (snd e) <= snd b)%Z.
Proof.
  induction es as [|e es IH]; intros b0; cbn [fold_left]; cbv zeta.
  - split; [left; reflexivity|]. split; [lia|]. intros e [].
  - specialize (IH (better d maxw ignore s (fun _ _ => false) u b0 e)). cbv zeta in IH. destruct IH as (A & B & C). destruct (eligible_dec d maxw ignore s (fun _ _ => false) u e b0 eq_refl) as [[E1 E2]|[E1 E2]]; rewrite E2 in *.
    + destruct (Z.ltb_spec (snd (snd e)) (snd b0)) as [L|L].
      * split; [destruct A as [A|(x & X1 & X2)]; [left; exact A|right; exists x; split; [right; exact X1|exact X2]]|]. split; [exact B|]. intros x [<-|Hx] Hel; [lia|exact (C x Hx Hel)].
      * split; [destruct A as [A|(x & X1 & X2)]; [right; exists e; split; [left; reflexivity|]; split; [exact A|rewrite A; exact E1]|right; exists x; split; [right; exact X1|exact X2]]|]. split; [lia|]. intros x [<-|Hx] Hel; [exact B|exact (C x Hx Hel)].
    + split; [destruct A as [A|(x & X1 & X2)]; [left; exact A|right; exists x; split; [right; exact X1|exact X2]]|]. split; [exact B|]. intros x [<-|Hx] Hel; [contradiction|exact (C x Hx Hel)].
Qed.
Lemma in_numbered {X} (l : list X) : forall a x, In x l -> exists i, In (i, x) (combine (seq a (length l)) l).
Proof. induction l as [|y l IH]; intros a x Hx; [destruct Hx|]. cbn [length seq combine]. destruct Hx as [->|Hx]; [exists a; left; reflexivity|]. destruct (IH (S a) x Hx) as [i Hi]. exists i. right. exact Hi. Qed.
(** The neighbour a node proposes to. *)
Theorem heaviest_candidate d maxw ignore s u v w : candidate d maxw ignore s (fun _ _ => false) u = (v, w) ->
  ((0 < w)%Z -> In (v, w) (row d u) /\ eligible d maxw ignore s u v) /\
  forall v' w', In (v', w') (row d u) -> eligible d maxw ignore s u v' -> (w' <= w)%Z.
Proof.
  unfold candidate. intros E. pose proof (better_fold d maxw ignore s u (combine (seq 0 (length (row d u))) (row d u)) (0, 0%Z)) as H. cbv zeta in H. rewrite E in H. destruct H as (A & B & C). cbn [fst snd] in *. split.
  - intros Hw. destruct A as [A|([i e] & X1 & X2 & X3)]; [injection A as -> ->; lia|]. cbn [snd] in X2. subst e. split; [exact (in_combine_r _ _ _ _ X1)|exact X3].
  - intros v' w' Hin Hel. destruct (in_numbered (row d u) 0 (v', w') Hin) as [i Hi]. exact (C (i, (v', w')) Hi Hel).
Qed.

Section Bids.
Variables (d : dcsr) (s1 : list cell) (x : nat).
Hypothesis Hx : x < length s1.
Hypothesis Hfree : rd s1 x = Free.
Definition for_x (q : req) : Prop := rq_mine q = x.
Definition bid_inv (s : list cell) (done : list req) : Prop :=
  length s = length s1 /\
  ((rd s x = Free /\ forall q, In q done -> for_x q -> (rq_w q <= 0)%Z) \/
   exists q, In q done /\ for_x q /\ (0 < rq_w q)%Z /\ rd s x = Bid (rq_w q) (their_node d q) /\ forall q', In q' done -> for_x q' -> (rq_w q' <= rq_w q)%Z).
Lemma bids_fold bids : forall s done, (forall b, In b bids -> snd b = false) -> bid_inv s done -> bid_inv (fold_left (place_bid d s1) bids s) (done ++ map fst bids).
Proof.
  induction bids as [|[q f] bids IH]; intros s done Hf I; cbn [fold_left map]; [rewrite app_nil_r; exact I|].
  replace (done ++ fst (q, f) :: map fst bids) with ((done ++ [q]) ++ map fst bids) by (rewrite <- app_assoc; reflexivity). apply IH; [intros b Hb; apply Hf; right; exact Hb|].
  assert (f = false) by exact (Hf (q, f) (or_introl eq_refl)). subst f. destruct I as [L I]. unfold place_bid. cbn [fst snd orb].
  destruct (Nat.eq_dec (rq_mine q) x) as [Eq|Ne].
  - unfold accepted. rewrite Eq, Hfree. cbn [taken negb]. destruct I as [[F A]|(b & B1 & B2 & B3 & B4 & B5)].
    + rewrite F. destruct (Z.leb_spec (rq_w q) 0) as [Z0|Z0].
      * split; [exact L|]. left. split; [exact F|]. intros q' Hq' Hm. apply in_app_iff in Hq'. destruct Hq' as [Hq'|[<-|[]]]; [exact (A q' Hq' Hm)|exact Z0].
      * split; [rewrite upd_length; exact L|]. right. exists q. split; [apply in_app_iff; right; left; reflexivity|]. split; [exact Eq|]. split; [lia|]. split; [apply rd_same; lia|].
        intros q' Hq' Hm. apply in_app_iff in Hq'. destruct Hq' as [Hq'|[<-|[]]]; [specialize (A q' Hq' Hm); lia|lia].
    + rewrite B4. destruct (Z.leb_spec (rq_w q) (rq_w b)) as [Z0|Z0].
      * split; [exact L|]. right. exists b. split; [apply in_app_iff; left; exact B1|]. split; [exact B2|]. split; [exact B3|]. split; [exact B4|].
        intros q' Hq' Hm. apply in_app_iff in Hq'. destruct Hq' as [Hq'|[<-|[]]]; [exact (B5 q' Hq' Hm)|exact Z0].
      * split; [rewrite upd_length; exact L|]. right. exists q. split; [apply in_app_iff; right; left; reflexivity|]. split; [exact Eq|]. split; [lia|]. split; [apply rd_same; lia|].
        intros q' Hq' Hm. apply in_app_iff in Hq'. destruct Hq' as [Hq'|[<-|[]]]; [specialize (B5 q' Hq' Hm); lia|lia].
  - assert (Same : forall c, rd (upd (rq_mine q) c s) x = rd s x) by (intros c; apply rd_other; exact Ne).
    assert (K : forall s', length s' = length s1 -> rd s' x = rd s x -> bid_inv s' (done ++ [q])).
    { intros s' L' R'. split; [exact L'|]. rewrite R'. destruct I as [[F A]|(b & B1 & B2 & B3 & B4 & B5)].
      - left. split; [exact F|]. intros q' Hq' Hm. apply in_app_iff in Hq'. destruct Hq' as [Hq'|[<-|[]]]; [exact (A q' Hq' Hm)|contradiction].
      - right. exists b. split; [apply in_app_iff; left; exact B1|]. split; [exact B2|]. split; [exact B3|]. split; [exact B4|]. intros q' Hq' Hm. apply in_app_iff in Hq'. destruct Hq' as [Hq'|[<-|[]]]; [exact (B5 q' Hq' Hm)|contradiction]. }
    destruct (negb (accepted s1 q)); [apply K; [exact L|reflexivity]|]. destruct (rq_w q <=? _)%Z; [apply K; [exact L|reflexivity]|]. apply K; [rewrite upd_length; exact L|apply Same].
Qed.
End Bids.
(** The request that wins. *)
Theorem heaviest_bid d s1 bids q : (forall b, In b bids -> snd b = false) -> rq_mine q < length s1 -> rd s1 (rq_mine q) = Free -> In q (map fst bids) -> (0 < rq_w q)%Z ->
  (exists b, In b (map fst bids) /\ rq_mine b = rq_mine q /\ won d s1 (place_bids d s1 bids) b = true /\ forall q', In q' (map fst bids) -> rq_mine q' = rq_mine q -> (rq_w q' <= rq_w b)%Z) /\
  ((forall q', In q' (map fst bids) -> rq_mine q' = rq_mine q -> q' = q \/ (rq_w q' < rq_w q)%Z) ->
   won d s1 (place_bids d s1 bids) q = true /\ forall q', In q' (map fst bids) -> rq_mine q' = rq_mine q -> their_node d q' <> their_node d q -> won d s1 (place_bids d s1 bids) q' = false).
Proof.
  intros Hf Hx Hfree Hin Hw. unfold place_bids.
  assert (I0 : bid_inv d s1 (rq_mine q) s1 []) by (split; [reflexivity|left; split; [exact Hfree|intros ? []]]).
  destruct (bids_fold d s1 (rq_mine q) Hx Hfree bids s1 [] Hf I0) as [L [[F A]|(b & B1 & B2 & B3 & B4 & B5)]]; cbn [app] in *.
  - specialize (A q Hin eq_refl). lia.
  - unfold for_x in *. split.
    + exists b. split; [exact B1|]. split; [exact B2|]. split; [|exact B5]. unfold won, accepted. rewrite B2, Hfree, B4. cbn [taken negb andb]. apply Nat.eqb_refl.
    + intros Hu. destruct (Hu b B1 B2) as [->|Lt]; [|specialize (B5 q Hin eq_refl); lia]. split.
      * unfold won, accepted. rewrite Hfree, B4. cbn [taken negb andb]. apply Nat.eqb_refl.
      * intros q' _ Hm Hne. unfold won. rewrite Hm, B4. destruct (Nat.eqb_spec (their_node d q) (their_node d q')); [congruence|]. apply andb_false_r.
Qed.
