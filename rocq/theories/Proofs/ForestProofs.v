(* The heap family refines the priority queue specification. *)
From Verif Require Import Lib.Prelude Spec.PrioQueue Model.HeapModel Proofs.HeapProofs.
Local Open Scope Z_scope.

Section MX.
Context (mx : bool) (w : Z).

Record inv (f : forest) (A : pq) : Prop := mkInv {
  iv_linked : forall h, (h < length (fo_heaps f))%nat -> linked (fo_heap f h) (fo_ids f);
  iv_ordered : forall h, (h < length (fo_heaps f))%nat -> heap_ordered mx (fo_heap f h);
  iv_mem : forall id h key, A id = Some (h, key) <-> ((h < length (fo_heaps f))%nat /\ In (id, key) (fo_heap f h));
  iv_none : forall id, A id = None -> nth id (fo_ids f) None = None }.

Lemma in_nth_helem (l : list helem) x : In x l -> exists i, (i < length l)%nat /\ nth i l hd0 = x.
Proof. apply In_nth. Qed.

Lemma in_ids l id : In id (map fst l) -> exists i, (i < length l)%nat /\ hid l i = id.
Proof.
  intros H. apply in_map_iff in H. destruct H as (x & E & H). apply in_nth_helem in H.
  destruct H as (i & Hi & Ex). exists i. split; [exact Hi|]. unfold hid. rewrite Ex. exact E.
Qed.
Lemma linked_key l ids id k k' : linked l ids -> In (id, k) l -> In (id, k') l -> k = k'.
Proof.
  intros HL H1 H2. apply in_nth_helem in H1, H2. destruct H1 as (i & Hi & Ei), H2 as (j & Hj & Ej).
  assert (i = j) by (apply (linked_inj l ids); auto; unfold hid; rewrite Ei, Ej; reflexivity). subst j. congruence.
Qed.

Lemma fo_heap_set f h st h' : (h < length (fo_heaps f))%nat ->
  fo_heap (fo_set f h st) h' = if Nat.eqb h' h then fst st else fo_heap f h'.
Proof.
  intros Hh. unfold fo_heap, fo_set. cbn [fo_heaps]. rewrite upd_nth.
  rewrite (Nat.eqb_sym h' h). destruct (Nat.eqb_spec h h') as [<-|]; [|reflexivity].
  rewrite (proj2 (Nat.ltb_lt _ _) Hh). reflexivity.
Qed.

Lemma inv_set f A h l' ids' A' : inv f A -> (h < length (fo_heaps f))%nat ->
  linked l' ids' -> heap_ordered mx l' -> length ids' = length (fo_ids f) ->
  (forall j, ~ In j (map fst (fo_heap f h)) -> ~ In j (map fst l') -> nth j ids' None = nth j (fo_ids f) None) ->
  (forall j, In j (map fst (fo_heap f h)) -> ~ In j (map fst l') -> nth j ids' None = None) ->
  (forall j, In j (map fst l') -> In j (map fst (fo_heap f h)) \/ A j = None) ->
  (forall j h' k, A' j = Some (h', k) <-> ((h' = h /\ In (j, k) l') \/ (h' <> h /\ A j = Some (h', k)))) ->
  inv (fo_set f h (l', ids')) A'.
Proof.
  intros [I1 I2 I3 I4] Hh HL HO HN HK1 HK2 HNew HA.
  assert (Hlen : length (fo_heaps (fo_set f h (l', ids'))) = length (fo_heaps f)).
  { unfold fo_set. cbn [fo_heaps]. apply upd_length. }
  assert (Hdisj : forall h' j k, (h' < length (fo_heaps f))%nat -> h' <> h -> In (j, k) (fo_heap f h') ->
     ~ In j (map fst (fo_heap f h)) /\ ~ In j (map fst l')).
  { intros h' j k Hh' Hne Hin. assert (EA : A j = Some (h', k)) by (apply I3; auto).
    assert (H1 : ~ In j (map fst (fo_heap f h))).
    { intros Hin'. apply in_map_iff in Hin'. destruct Hin' as ([j' k'] & Ej & Hin'). cbn [fst] in Ej. subst j'.
      assert (A j = Some (h, k')) by (apply I3; auto). congruence. }
    split; [exact H1|]. intros Hin'. destruct (HNew j Hin') as [H|H]; [contradiction|congruence]. }
  constructor.
  - rewrite Hlen. intros h' Hh'. rewrite fo_heap_set by exact Hh. cbn [fst]. unfold fo_set. cbn [fo_ids snd].
    destruct (Nat.eqb_spec h' h) as [->|Hne]; [exact HL|].
    intros i Hi. destruct (I1 h' Hh' i Hi) as [P1 P2]. rewrite HN. split; [exact P1|].
    destruct (Hdisj h' (hid (fo_heap f h') i) (hkey (fo_heap f h') i) Hh' Hne) as [D1 D2].
    { unfold hid, hkey. rewrite <- surjective_pairing. apply nth_In. exact Hi. }
    rewrite HK1 by assumption. exact P2.
  - rewrite Hlen. intros h' Hh'. rewrite fo_heap_set by exact Hh.
    destruct (Nat.eqb_spec h' h) as [->|Hne]; [exact HO|apply I2; exact Hh'].
  - rewrite Hlen. intros id h' key. rewrite HA, fo_heap_set by exact Hh. cbn [fst].
    destruct (Nat.eqb_spec h' h) as [->|Hne].
    + split; [intros [[_ H]|[H _]]; [auto|congruence]|intros [_ H]; left; auto].
    + rewrite I3. split; [intros [[H _]|[_ H]]; [congruence|exact H]|intros H; right; auto].
  - intros id EN. unfold fo_set. cbn [fo_ids snd].
    assert (Hnl : ~ In id (map fst l')).
    { intros Hin. apply in_map_iff in Hin. destruct Hin as ([j k] & Ej & Hin). cbn [fst] in Ej. subst j.
      assert (A' id = Some (h, k)) by (apply HA; left; auto). congruence. }
    destruct (in_dec Nat.eq_dec id (map fst (fo_heap f h))) as [Hin|Hnin]; [apply HK2; assumption|].
    rewrite HK1 by assumption. apply I4. destruct (A id) as [[h' k]|] eqn:EA; [|reflexivity].
    destruct (Nat.eq_dec h' h) as [->|Hne].
    + exfalso. apply Hnin. apply in_map_iff. exists (id, k). split; [reflexivity|]. apply I3. exact EA.
    + assert (A' id = Some (h', k)) by (apply HA; right; auto). congruence.
Qed.

Lemma hid_app_l l x i : (i < length l)%nat -> hid (l ++ [x]) i = hid l i.
Proof. intros. unfold hid. rewrite app_nth1 by assumption. reflexivity. Qed.
Lemma hkey_app_l l x i : (i < length l)%nat -> hkey (l ++ [x]) i = hkey l i.
Proof. intros. unfold hkey. rewrite app_nth1 by assumption. reflexivity. Qed.

Lemma push_ok f A h id key : inv f A -> valid_hop mx w f (HPush h id key) ->
  exists f', fo_push mx f h id key = Some f' /\ inv f' (pq_set A id (Some (h, key))) /\ A id = None /\
    length (fo_heaps f') = length (fo_heaps f).
Proof.
  intros HI (Hh & Hid & Hc & Hk). pose proof HI as [I1 I2 I3 I4].
  assert (Hnone : nth id (fo_ids f) None = None).
  { unfold fo_contains in Hc. destruct (nth id (fo_ids f) None); [discriminate|reflexivity]. }
  assert (HAn : A id = None).
  { destruct (A id) as [[h' k]|] eqn:EA; [|reflexivity]. apply I3 in EA. destruct EA as [Hh' Hin].
    apply in_nth_helem in Hin. destruct Hin as (i & Hi & E). destruct (I1 h' Hh' i Hi) as [_ P]. unfold hid in P. rewrite E in P.
    cbn [fst] in P. congruence. }
  unfold fo_push. rewrite (proj2 (Nat.ltb_lt _ _) Hh), (proj2 (Nat.ltb_lt _ _) Hid), Hc. cbn [negb andb].
  set (l := fo_heap f h). rewrite app_length. cbn [length].
  replace (length l + 1 - 1)%nat with (length l) by lia.
  assert (HL0 : linked l (fo_ids f)) by (apply I1; exact Hh).
  assert (Hnid : forall i, (i < length l)%nat -> hid l i <> id).
  { intros i Hi E. destruct (HL0 i Hi) as [_ P]. rewrite E in P. congruence. }
  destruct (sift_up_ok mx (length l + 1) (length l) (l ++ [(id, key)], upd id (Some (length l)) (fo_ids f))) as (st & E & HS & HO).
  - lia.
  - cbn [fst]. rewrite app_length. cbn [length]. lia.
  - cbn [fst snd]. intros i Hi. rewrite app_length in Hi. cbn [length] in Hi. rewrite upd_length.
    destruct (Nat.eq_dec i (length l)) as [->|Hne].
    + unfold hid. rewrite nth_middle. cbn [fst]. split; [exact Hid|]. apply upd_nth_same. exact Hid.
    + rewrite hid_app_l by lia. destruct (HL0 i ltac:(lia)) as [P1 P2]. split; [exact P1|].
      rewrite upd_nth_other by (intros E; apply (Hnid i); [lia|congruence]). exact P2.
  - cbn [fst]. split.
    + intros i Hi Hne. rewrite app_length in Hi. cbn [length] in Hi. pose proof (par_lt i ltac:(lia)).
      unfold prk. rewrite !hkey_app_l by lia. apply (I2 h Hh). fold l. lia.
    + intros _ i Hi Hp. rewrite app_length in Hi. cbn [length] in Hi. apply par_iff in Hp; lia.
  - rewrite E. destruct st as [l' ids']. eexists. split; [reflexivity|].
    split; [|split; [exact HAn|unfold fo_set; cbn [fo_heaps]; apply upd_length]].
    destruct HS as (HP & HLk & HN & HKp). cbn [fst snd] in *. rewrite upd_length in HN.
    assert (Hmem : forall j k, In (j, k) l' <-> In (j, k) l \/ (j, k) = (id, key)).
    { intros j k. split; intros Hin.
      - apply (Permutation_in _ HP) in Hin. apply in_app_or in Hin. destruct Hin as [Hin|[Hin|[]]]; [left; exact Hin|right; congruence].
      - apply (Permutation_in _ (Permutation_sym HP)). apply in_or_app. destruct Hin as [Hin|Hin]; [left; exact Hin|right; left; congruence]. }
    assert (Hmem' : forall j, In j (map fst l') <-> In j (map fst l) \/ j = id).
    { intros j. rewrite !in_map_iff. split.
      - intros ([j' k] & <- & Hin). apply Hmem in Hin. destruct Hin as [Hin|Hin]; [left; exists (j', k); auto|right; cbn; congruence].
      - intros [([j' k] & <- & Hin)| ->]; [exists (j', k)|exists (id, key)]; (split; [reflexivity|]); apply Hmem; auto. }
    apply (inv_set f A h l' ids'); try assumption.
    + intros j Hj Hj'. rewrite HKp.
      * rewrite upd_nth_other; [reflexivity|]. intros <-. apply Hj'. apply Hmem'. auto.
      * rewrite map_app. intros Hin. apply in_app_or in Hin. destruct Hin as [Hin|[Hin|[]]]; [apply Hj; exact Hin|].
        apply Hj'. apply Hmem'. right. symmetry. exact Hin.
    + intros j Hj Hj'. exfalso. apply Hj'. apply Hmem'. left. exact Hj.
    + intros j Hj. apply Hmem' in Hj. destruct Hj as [Hj| ->]; [left; exact Hj|right; exact HAn].
    + intros j h' k. unfold pq_set. rewrite Hmem. destruct (Nat.eqb_spec j id) as [->|Hne].
      * split.
        -- intros [= <- <-]. left. auto.
        -- intros [[-> [Hin|Hin]]|[_ Hin]]; [|congruence|congruence].
           exfalso. assert (A id = Some (h, k)) by (apply I3; auto). congruence.
      * split.
        -- intros EA. destruct (Nat.eq_dec h' h) as [->|]; [|right; auto]. left. split; [reflexivity|]. left.
           apply I3 in EA. apply EA.
        -- intros [[-> [Hin|Hin]]|[_ Hin]]; [apply I3; auto|congruence|exact Hin].
Qed.

Lemma pop_shape (l : list helem) : (0 < length l)%nat ->
  let n := (length l - 1)%nat in
  let l2 := upd 0 (nth n l hd0) (upd n (nth 0 l hd0) l) in
  Permutation l (nth 0 l hd0 :: firstn n l2) /\ length (firstn n l2) = n /\
  forall i, (i < n)%nat -> nth i (firstn n l2) hd0 = if Nat.eqb i 0 then nth n l hd0 else nth i l hd0.
Proof.
  intros Hl n l2. assert (HL2 : length l2 = length l) by (unfold l2; rewrite !upd_length; reflexivity).
  assert (Hn : forall i, nth i l2 hd0 = nth (swp 0 n i) l hd0).
  { intros i. pose proof (hswap_nth 0 n l [] i) as H. unfold hswap in H. cbn [fst] in H. apply H; unfold n; lia. }
  assert (HP : Permutation l2 l).
  { pose proof (hswap_perm 0 n l []) as H. unfold hswap in H. cbn [fst] in H. apply H; unfold n; lia. }
  assert (Hlast : l2 = firstn n l2 ++ [nth 0 l hd0]).
  { rewrite <- (firstn_skipn n l2) at 1. f_equal.
    assert (HS : length (skipn n l2) = 1%nat) by (rewrite skipn_length; unfold n; lia).
    destruct (skipn n l2) as [|x [|y t]] eqn:E; try (cbn in HS; lia).
    f_equal. assert (Ex : nth n l2 hd0 = x).
    { rewrite <- (firstn_skipn n l2), E, app_nth2; rewrite firstn_length; [|lia].
      replace (n - Nat.min n (length l2))%nat with 0%nat by (unfold n in *; lia). reflexivity. }
    rewrite <- Ex, Hn. unfold swp. destruct (Nat.eqb_spec n 0) as [E0|]; [rewrite E0; reflexivity|].
    rewrite Nat.eqb_refl. reflexivity. }
  split; [|split].
  - apply Permutation_sym. eapply Permutation_trans; [|exact HP]. rewrite Hlast at 2.
    eapply Permutation_trans; [|apply Permutation_app_comm]. reflexivity.
  - rewrite firstn_length. unfold n. lia.
  - intros i Hi.
    assert (Ef : nth i (firstn n l2) hd0 = nth i l2 hd0).
    { rewrite Hlast at 2. rewrite app_nth1; [reflexivity|]. rewrite firstn_length. unfold n in *. lia. }
    rewrite Ef, Hn. unfold swp. destruct (Nat.eqb_spec i 0) as [->|]; [reflexivity|].
    rewrite (proj2 (Nat.eqb_neq i n)) by lia. reflexivity.
Qed.

Lemma pop_ok f A h : inv f A -> (0 < fo_size f h)%nat ->
  exists id key f', fo_peek f h = Some (id, key) /\ fo_pop mx f h = Some f' /\
    pq_first mx A h id key /\ inv f' (pq_set A id None) /\ length (fo_heaps f') = length (fo_heaps f).
Proof.
  intros HI Hs. pose proof HI as [I1 I2 I3 I4].
  assert (Hh : (h < length (fo_heaps f))%nat).
  { destruct (Nat.lt_ge_cases h (length (fo_heaps f))); [assumption|]. unfold fo_size, fo_heap in Hs.
    rewrite nth_overflow in Hs by assumption. cbn in Hs. lia. }
  unfold fo_size in Hs. unfold fo_pop, fo_peek. set (l := fo_heap f h) in *.
  pose proof (I1 h Hh) as HL. fold l in HL. pose proof (I2 h Hh) as HO. fold l in HO.
  destruct (pop_shape l Hs) as (HP & Hlen & Hnth). cbv zeta in *.
  set (n := (length l - 1)%nat) in *. set (front := nth 0 l hd0) in *. set (back := nth n l hd0) in *.
  set (l1 := firstn n (upd 0 back (upd n front l))) in *.
  set (ids1 := upd (fst front) None (upd (fst back) (Some 0%nat) (fo_ids f))).
  assert (Hfront : hid l 0 = fst front) by reflexivity.
  assert (Hback : hid l n = fst back) by reflexivity.
  assert (HL1 : linked l1 ids1).
  { intros i Hi. rewrite Hlen in Hi. unfold hid. rewrite Hnth by exact Hi. unfold ids1. rewrite !upd_length.
    destruct (Nat.eqb_spec i 0) as [->|Hi0].
    - destruct (HL n ltac:(unfold n; lia)) as [P1 P2]. rewrite Hback in *. split; [exact P1|].
      rewrite upd_nth_other; [apply upd_nth_same; exact P1|].
      intros E. rewrite <- Hfront, <- Hback in E. apply (linked_inj l (fo_ids f)) in E; auto; unfold n in *; lia.
    - fold (hid l i). destruct (HL i ltac:(unfold n in *; lia)) as [P1 P2]. split; [exact P1|].
      rewrite upd_nth_other; [rewrite upd_nth_other; [exact P2|]|].
      + intros E. rewrite <- Hback in E. apply (linked_inj l (fo_ids f)) in E; auto; unfold n in *; lia.
      + intros E. rewrite <- Hfront in E. apply (linked_inj l (fo_ids f)) in E; auto; unfold n in *; lia. }
  destruct (sift_down_ok mx (length l1) 0 (l1, ids1)) as (st & E & HS & HO').
  - cbn [fst]. lia.
  - exact HL1.
  - cbn [fst]. split; [|lia]. intros i Hi Hpi. rewrite Hlen in Hi. pose proof (par_lt i ltac:(lia)).
    unfold prk, hkey. rewrite !Hnth by lia. rewrite (proj2 (Nat.eqb_neq i 0)), (proj2 (Nat.eqb_neq (par i) 0)) by lia.
    apply (HO i). unfold n in *. lia.
  - assert (Em : forall (X : Type) (a b : X), match l with [] => a | _ :: _ => b end = b).
    { intros X a b. destruct l; [cbn in Hs; lia|reflexivity]. }
    exists (fst front), (snd front).
    assert (Epeek : nth_error l 0 = Some (fst front, snd front)).
    { rewrite <- surjective_pairing. apply nth_error_nth'. exact Hs. }
    rewrite Em. fold front back l1 ids1. rewrite E. destruct st as [l' ids'].
    exists (fo_set f h (l', ids')). split; [exact Epeek|]. split; [reflexivity|].
    destruct HS as (HP' & HLk & HN & HKp). cbn [fst snd] in *.
    assert (HPl : Permutation l (front :: l')).
    { eapply Permutation_trans; [exact HP|]. constructor. apply Permutation_sym. exact HP'. }
    assert (Hnf : ~ In (fst front) (map fst l')).
    { intros Hin. assert (Hin1 : In (fst front) (map fst l1)) by (eapply Permutation_in; [apply Permutation_map, HP'|exact Hin]).
      apply in_ids in Hin1. destruct Hin1 as (i & Hi & Ei). destruct (HL1 i Hi) as [P1 P2]. rewrite Ei in P1, P2.
      unfold ids1 in P2. rewrite upd_nth_same in P2 by (unfold ids1 in P1; rewrite upd_length in P1; exact P1). discriminate. }
    assert (Hmem : forall j k, In (j, k) l' <-> In (j, k) l /\ j <> fst front).
    { intros j k. split.
      - intros Hin. split; [apply (Permutation_in _ (Permutation_sym HPl)); right; exact Hin|].
        intros ->. apply Hnf. apply in_map_iff. exists (fst front, k). auto.
      - intros [Hin Hne]. apply (Permutation_in _ HPl) in Hin. destruct Hin as [Hin|Hin]; [|exact Hin].
        exfalso. apply Hne. rewrite Hin. reflexivity. }
    assert (Hmem' : forall j, In j (map fst l') <-> In j (map fst l) /\ j <> fst front).
    { intros j. rewrite !in_map_iff. split.
      - intros ([j' k] & <- & Hin). apply Hmem in Hin. destruct Hin. split; [exists (j', k); auto|assumption].
      - intros [([j' k] & <- & Hin) Hne]. exists (j', k). split; [reflexivity|]. apply Hmem. auto. }
    assert (HAf : A (fst front) = Some (h, snd front)).
    { apply I3. split; [exact Hh|]. fold l. rewrite <- surjective_pairing. apply nth_In. lia. }
    split; [|split; [|unfold fo_set; cbn [fo_heaps]; apply upd_length]].
    + split; [exact HAf|]. intros j k EA. apply I3 in EA. destruct EA as [_ Hin]. fold l in Hin.
      apply in_nth_helem in Hin. destruct Hin as (i & Hi & Ei). apply before_pr.
      pose proof (heap_top mx l HO i Hi) as Ht. unfold prk, hkey in Ht. rewrite Ei in Ht. cbn [snd] in Ht. exact Ht.
    + apply (inv_set f A h l' ids'); try assumption.
      * rewrite HN. unfold ids1. rewrite !upd_length. reflexivity.
      * intros j Hj Hj'. fold l in Hj. rewrite HKp.
        -- unfold ids1. rewrite !upd_nth_other; [reflexivity| |].
           ++ intros <-. apply Hj. rewrite <- Hback. apply hid_in. unfold n. lia.
           ++ intros <-. apply Hj. rewrite <- Hfront. apply hid_in. lia.
        -- intros Hin. apply Hj'. eapply Permutation_in; [apply Permutation_map, Permutation_sym, HP'|exact Hin].
      * intros j Hj Hj'. fold l in Hj.
        assert (j = fst front) as -> by (destruct (Nat.eq_dec j (fst front)); [assumption|exfalso; apply Hj'; apply Hmem'; auto]).
        rewrite HKp.
        -- unfold ids1. apply upd_nth_same. rewrite upd_length. destruct (HL 0%nat ltac:(lia)) as [P _]. exact P.
        -- intros Hin. apply Hj'. eapply Permutation_in; [apply Permutation_map, Permutation_sym, HP'|exact Hin].
      * intros j Hj. left. apply Hmem' in Hj. apply Hj.
      * intros j h' k. unfold pq_set. rewrite Hmem. destruct (Nat.eqb_spec j (fst front)) as [->|Hne].
        -- split; [discriminate|]. intros [[_ [_ Hne]]|[Hne Hin]]; [congruence|congruence].
        -- split.
           ++ intros EA. destruct (Nat.eq_dec h' h) as [->|]; [left|right; auto]. apply I3 in EA. destruct EA. auto.
           ++ intros [[-> [Hin _]]|[_ Hin]]; [apply I3; auto|exact Hin].
Qed.

Lemma member_handle f A h id old : inv f A -> A id = Some (h, old) ->
  exists p, (h < length (fo_heaps f))%nat /\ nth id (fo_ids f) None = Some p /\ (p < length (fo_heap f h))%nat /\
    nth p (fo_heap f h) hd0 = (id, old).
Proof.
  intros [I1 I2 I3 I4] EA. apply I3 in EA. destruct EA as [Hh Hin]. apply in_nth_helem in Hin.
  destruct Hin as (p & Hp & E). exists p. destruct (I1 h Hh p Hp) as [_ P]. unfold hid in P. rewrite E in P. auto.
Qed.

Lemma set_key_nth l p key i : (p < length l)%nat ->
  nth i (set_key l p key) hd0 = if Nat.eqb i p then (hid l p, key) else nth i l hd0.
Proof.
  intros Hp. unfold set_key. rewrite upd_nth, (Nat.eqb_sym i p).
  destruct (Nat.eqb_spec p i) as [<-|]; [|reflexivity]. rewrite (proj2 (Nat.ltb_lt _ _) Hp). reflexivity.
Qed.
Lemma set_key_hid l p key i : (p < length l)%nat -> hid (set_key l p key) i = hid l i.
Proof.
  intros Hp. unfold hid at 1. rewrite set_key_nth by exact Hp. destruct (Nat.eqb_spec i p) as [->|]; reflexivity.
Qed.
Lemma set_key_prk l p key i : (p < length l)%nat ->
  prk mx (set_key l p key) i = if Nat.eqb i p then pr mx key else prk mx l i.
Proof.
  intros Hp. unfold prk, hkey. rewrite set_key_nth by exact Hp. destruct (Nat.eqb i p); reflexivity.
Qed.
Lemma set_key_length l p key : length (set_key l p key) = length l.
Proof. apply upd_length. Qed.
Lemma set_key_linked l ids p key : (p < length l)%nat -> linked l ids -> linked (set_key l p key) ids.
Proof. intros Hp HL i Hi. rewrite set_key_length in Hi. rewrite set_key_hid by exact Hp. apply HL. exact Hi. Qed.

Lemma set_key_mem l ids p key : (p < length l)%nat -> linked l ids -> forall j k,
  In (j, k) (set_key l p key) <-> (j <> hid l p /\ In (j, k) l) \/ (j, k) = (hid l p, key).
Proof.
  intros Hp HL j k. split.
  - intros Hin. apply in_nth_helem in Hin. destruct Hin as (i & Hi & E). rewrite set_key_length in Hi.
    rewrite set_key_nth in E by exact Hp. destruct (Nat.eqb_spec i p) as [->|Hne]; [right; congruence|left].
    split; [|rewrite <- E; apply nth_In; exact Hi].
    intros Ej. apply Hne. apply (linked_inj l ids); auto. unfold hid at 1. rewrite E. exact Ej.
  - intros [[Hne Hin]|E].
    + apply in_nth_helem in Hin. destruct Hin as (i & Hi & E).
      assert (Hip : i <> p) by (intros ->; apply Hne; unfold hid; rewrite E; reflexivity).
      assert (E' : nth i (set_key l p key) hd0 = (j, k)).
      { rewrite set_key_nth by exact Hp. rewrite (proj2 (Nat.eqb_neq i p)) by exact Hip. exact E. }
      rewrite <- E'. apply nth_In. rewrite set_key_length. exact Hi.
    + assert (E' : nth p (set_key l p key) hd0 = (j, k)) by (rewrite set_key_nth, Nat.eqb_refl by exact Hp; congruence).
      rewrite <- E'. apply nth_In. rewrite set_key_length. exact Hp.
Qed.

Lemma changed_inv f A h id old p key st : inv f A -> A id = Some (h, old) ->
  (h < length (fo_heaps f))%nat -> (p < length (fo_heap f h))%nat -> nth p (fo_heap f h) hd0 = (id, old) ->
  sifted (set_key (fo_heap f h) p key, fo_ids f) st -> heap_ordered mx (fst st) ->
  inv (fo_set f h st) (pq_set A id (Some (h, key))).
Proof.
  intros HI EA Hh Hp Ep (HP & HLk & HN & HKp) HO. pose proof HI as [I1 I2 I3 I4].
  destruct st as [l' ids']. cbn [fst snd] in *. set (l := fo_heap f h) in *.
  assert (Hidp : hid l p = id) by (unfold hid; rewrite Ep; reflexivity).
  assert (Hmem : forall j k, In (j, k) l' <-> (j <> id /\ In (j, k) l) \/ (j, k) = (id, key)).
  { intros j k. rewrite <- Hidp, <- (set_key_mem l (fo_ids f) p key Hp (I1 h Hh)). split; apply Permutation_in; [|apply Permutation_sym]; exact HP. }
  assert (Hidl : In id (map fst l)) by (rewrite <- Hidp; apply hid_in; exact Hp).
  assert (Hmem' : forall j, In j (map fst l') <-> In j (map fst l)).
  { intros j. split.
    - intros Hin. apply in_map_iff in Hin. destruct Hin as ([j' k] & <- & Hin). apply Hmem in Hin. cbn [fst].
      destruct Hin as [[_ Hin]|Hin]; [apply in_map_iff; exists (j', k); auto|]. injection Hin as -> ->. exact Hidl.
    - intros Hin. destruct (Nat.eq_dec j id) as [->|Hne].
      + apply in_map_iff. exists (id, key). split; [reflexivity|]. apply Hmem. auto.
      + apply in_map_iff in Hin. destruct Hin as ([j' k] & <- & Hin). cbn [fst] in *. apply in_map_iff.
        exists (j', k). split; [reflexivity|]. apply Hmem. auto. }
  apply (inv_set f A h l' ids'); try assumption.
  - intros j Hj Hj'. apply HKp. intros Hin. apply Hj'. eapply Permutation_in; [apply Permutation_map, Permutation_sym, HP|exact Hin].
  - intros j Hj Hj'. exfalso. apply Hj'. apply Hmem'. exact Hj.
  - intros j Hj. left. apply Hmem' in Hj. exact Hj.
  - intros j h' k. unfold pq_set. rewrite Hmem. destruct (Nat.eqb_spec j id) as [->|Hne].
    + split; [intros [= <- <-]; left; auto|]. intros [[-> [[Hne _]|Hin]]|[Hne Hin]]; [congruence|congruence|congruence].
    + split.
      * intros E. destruct (Nat.eq_dec h' h) as [->|]; [left|right; auto]. split; [reflexivity|]. left. split; [exact Hne|].
        apply I3 in E. apply E.
      * intros [[-> [[_ Hin]|Hin]]|[_ Hin]]; [apply I3; auto|congruence|exact Hin].
Qed.

Lemma decrease_ok f A h id old key : inv f A -> A id = Some (h, old) -> pr mx old <= pr mx key ->
  exists f', fo_decrease_priority mx f h id key = Some f' /\ inv f' (pq_set A id (Some (h, key))) /\
    length (fo_heaps f') = length (fo_heaps f).
Proof.
  intros HI EA Hle. destruct (member_handle f A h id old HI EA) as (p & Hh & Eh & Hp & Ep).
  unfold fo_decrease_priority. rewrite Eh. pose proof HI as [I1 I2 I3 I4].
  destruct (sift_up_ok mx p p (set_key (fo_heap f h) p key, fo_ids f)) as (st & E & HS & HO).
  - lia.
  - cbn [fst]. rewrite set_key_length. exact Hp.
  - cbn [fst snd]. apply set_key_linked; auto.
  - cbn [fst]. pose proof (I2 h Hh) as HO. set (l := fo_heap f h) in *.
    assert (Hold : prk mx l p = pr mx old) by (unfold prk, hkey; rewrite Ep; reflexivity).
    split.
    + intros i Hi Hne. rewrite set_key_length in Hi. rewrite !set_key_prk by exact Hp.
      rewrite (proj2 (Nat.eqb_neq i p)) by exact Hne. pose proof (HO i Hi) as Ho.
      destruct (Nat.eqb_spec (par i) p) as [E|]; [rewrite E in Ho; lia|exact Ho].
    + intros Hp0 i Hi Epar. rewrite set_key_length in Hi. rewrite !set_key_prk by exact Hp.
      pose proof (par_lt i ltac:(lia)). pose proof (par_lt p Hp0).
      rewrite (proj2 (Nat.eqb_neq i p)) by lia. rewrite (proj2 (Nat.eqb_neq (par p) p)) by lia.
      pose proof (HO i Hi) as H1. rewrite Epar in H1. pose proof (HO p ltac:(lia)). lia.
  - rewrite E. eexists. split; [reflexivity|]. split; [|unfold fo_set; cbn [fo_heaps]; apply upd_length].
    eapply changed_inv; eassumption.
Qed.

Lemma increase_ok f A h id old key : inv f A -> A id = Some (h, old) -> pr mx key <= pr mx old ->
  exists f', fo_increase_priority mx f h id key = Some f' /\ inv f' (pq_set A id (Some (h, key))) /\
    length (fo_heaps f') = length (fo_heaps f).
Proof.
  intros HI EA Hle. destruct (member_handle f A h id old HI EA) as (p & Hh & Eh & Hp & Ep).
  unfold fo_increase_priority. rewrite Eh. pose proof HI as [I1 I2 I3 I4].
  destruct (sift_down_ok mx (length (fo_heap f h)) p (set_key (fo_heap f h) p key, fo_ids f)) as (st & E & HS & HO).
  - cbn [fst]. rewrite set_key_length. lia.
  - cbn [fst snd]. apply set_key_linked; auto.
  - cbn [fst]. pose proof (I2 h Hh) as HO. set (l := fo_heap f h) in *.
    assert (Hold : prk mx l p = pr mx old) by (unfold prk, hkey; rewrite Ep; reflexivity).
    split.
    + intros i Hi Hne. rewrite set_key_length in Hi. rewrite !set_key_prk by exact Hp.
      rewrite (proj2 (Nat.eqb_neq (par i) p)) by exact Hne. pose proof (HO i Hi) as Ho.
      destruct (Nat.eqb_spec i p) as [->|]; [lia|exact Ho].
    + intros Hp0 i Hi Epar. rewrite set_key_length in Hi. rewrite !set_key_prk by exact Hp.
      pose proof (par_lt i ltac:(lia)). pose proof (par_lt p Hp0).
      rewrite (proj2 (Nat.eqb_neq i p)) by lia. rewrite (proj2 (Nat.eqb_neq (par p) p)) by lia.
      pose proof (HO i Hi) as H1. rewrite Epar in H1. pose proof (HO p ltac:(lia)). lia.
  - rewrite E. eexists. split; [reflexivity|]. split; [|unfold fo_set; cbn [fo_heaps]; apply upd_length].
    eapply changed_inv; eassumption.
Qed.

Lemma key_of f A h id old : inv f A -> A id = Some (h, old) -> fo_key f h id = Some old.
Proof.
  intros HI EA. destruct (member_handle f A h id old HI EA) as (p & Hh & Eh & Hp & Ep).
  unfold fo_key. rewrite Eh. rewrite (nth_error_nth' _ hd0 Hp), Ep. reflexivity.
Qed.

Lemma pq_set_same (A : pq) id v : A id = v -> forall j, pq_set A id v j = A j.
Proof. intros E j. unfold pq_set. destruct (Nat.eqb_spec j id) as [->|]; congruence. Qed.

Lemma inv_ext f A B : (forall j, B j = A j) -> inv f A -> inv f B.
Proof.
  intros E [I1 I2 I3 I4]. constructor; auto.
  - intros id h key. rewrite E. apply I3.
  - intros id. rewrite E. apply I4.
Qed.

Lemma pr_inj a b : pr mx a = pr mx b -> a = b.
Proof. unfold pr. destruct mx; lia. Qed.

Lemma change_ok f A h id old key : inv f A -> A id = Some (h, old) ->
  exists f', fo_change_priority mx f h id key = Some f' /\ inv f' (pq_set A id (Some (h, key))) /\
    length (fo_heaps f') = length (fo_heaps f).
Proof.
  intros HI EA. unfold fo_change_priority. rewrite (key_of f A h id old HI EA), !hcmp_pr.
  destruct (Z.ltb_spec (pr mx key) (pr mx old)); [apply (increase_ok f A h id old); auto; lia|].
  destruct (Z.ltb_spec (pr mx old) (pr mx key)); [apply (decrease_ok f A h id old); auto; lia|].
  exists f. split; [reflexivity|]. split; [|reflexivity].
  assert (key = old) as -> by (apply pr_inj; lia).
  eapply inv_ext; [|exact HI]. apply pq_set_same. exact EA.
Qed.

Definition keysA (A : pq) : Prop := forall id h key, A id = Some (h, key) -> key_ok mx w key.

Lemma key_ok_pr key : key_ok mx w key -> pr mx key < pr mx (hextreme mx w).
Proof. unfold key_ok, hextreme, pr. destruct mx; lia. Qed.

Lemma remove_ok f A h id old : inv f A -> keysA A -> A id = Some (h, old) ->
  exists f', fo_remove mx w f h id = Some f' /\ inv f' (pq_set A id None) /\
    length (fo_heaps f') = length (fo_heaps f).
Proof.
  intros HI HK EA. unfold fo_remove. rewrite (key_of f A h id old HI EA).
  pose proof (key_ok_pr _ (HK _ _ _ EA)) as Hk.
  destruct (decrease_ok f A h id old (hextreme mx w) HI EA ltac:(lia)) as (f1 & E1 & HI1 & HN1). rewrite E1.
  set (A1 := pq_set A id (Some (h, hextreme mx w))) in *.
  assert (EA1 : A1 id = Some (h, hextreme mx w)) by (unfold A1, pq_set; rewrite Nat.eqb_refl; reflexivity).
  assert (Hs : (0 < fo_size f1 h)%nat).
  { pose proof (proj1 (iv_mem _ _ HI1 id h _) EA1) as [_ Hin]. unfold fo_size. destruct (fo_heap f1 h); [destruct Hin|cbn; lia]. }
  destruct (pop_ok f1 A1 h HI1 Hs) as (id' & key' & f' & Epk & Ep & [HA' Hfirst] & HI' & HN').
  assert (id' = id) as ->.
  { destruct (Nat.eq_dec id' id) as [|Hne]; [assumption|exfalso].
    pose proof (Hfirst id _ EA1) as Hb. apply before_pr in Hb.
    unfold A1, pq_set in HA'. rewrite (proj2 (Nat.eqb_neq id' id)) in HA' by exact Hne.
    pose proof (key_ok_pr _ (HK _ _ _ HA')). lia. }
  exists f'. split; [exact Ep|]. split; [|lia]. eapply inv_ext; [|exact HI'].
  intros j. unfold A1, pq_set. destruct (Nat.eqb j id); reflexivity.
Qed.

Lemma clear_ids : forall (l : list helem) (ids : list (option nat)),
  length (fold_left (fun ids e => upd (fst e) None ids) l ids) = length ids /\
  forall j, nth j (fold_left (fun ids e => upd (fst e) None ids) l ids) None =
    if in_dec Nat.eq_dec j (map fst l) then None else nth j ids None.
Proof.
  induction l as [|e l IH]; intros ids; cbn [fold_left]; [split; [reflexivity|]; intros j; destruct (in_dec _ _ _) as [[]|]; reflexivity|].
  destruct (IH (upd (fst e) None ids)) as [IH1 IH2]. split; [rewrite IH1, upd_length; reflexivity|].
  intros j. rewrite IH2. cbn [map]. destruct (in_dec Nat.eq_dec j (map fst l)) as [H|H];
    destruct (in_dec Nat.eq_dec j (fst e :: map fst l)) as [H'|H']; try reflexivity.
  - exfalso. apply H'. right. exact H.
  - destruct H' as [<-|H']; [|contradiction]. rewrite upd_nth, Nat.eqb_refl.
    destruct (Nat.ltb_spec (fst e) (length ids)); [reflexivity|]. apply nth_overflow. assumption.
  - apply upd_nth_other. intros E. apply H'. left. exact E.
Qed.

Lemma clear_ok f A h : inv f A -> (h < length (fo_heaps f))%nat ->
  exists f', fo_clear f h = Some f' /\
    inv f' (fun j => match A j with Some (h', k) => if Nat.eqb h' h then None else Some (h', k) | None => None end) /\
    length (fo_heaps f') = length (fo_heaps f).
Proof.
  intros HI Hh. unfold fo_clear. rewrite (proj2 (Nat.ltb_lt _ _) Hh). eexists. split; [reflexivity|].
  split; [|unfold fo_set; cbn [fo_heaps]; apply upd_length]. pose proof HI as [I1 I2 I3 I4].
  destruct (clear_ids (fo_heap f h) (fo_ids f)) as [C1 C2].
  apply (inv_set f A h []); try assumption.
  - intros i Hi. cbn in Hi. lia.
  - intros i Hi. cbn in Hi. lia.
  - intros j Hj _. rewrite C2. destruct (in_dec _ _ _); [contradiction|reflexivity].
  - intros j Hj _. rewrite C2. destruct (in_dec _ _ _); [reflexivity|contradiction].
  - intros j [].
  - intros j h' k. destruct (A j) as [[h'' k'']|] eqn:EA.
    + destruct (Nat.eqb_spec h'' h) as [->|Hne].
      * split; [discriminate|]. intros [[_ []]|[Hne E]]. congruence.
      * split; [intros [= <- <-]; right; auto|]. intros [[_ []]|[_ E]]. exact E.
    + split; [discriminate|]. intros [[_ []]|[_ E]]. exact E.
Qed.

Lemma step_ok f A o : inv f A -> keysA A -> valid_hop mx w f o ->
  exists f' A', fo_step mx w f o = Some f' /\ pq_step mx A o A' /\ inv f' A' /\ keysA A' /\
    length (fo_heaps f') = length (fo_heaps f).
Proof.
  intros HI HK HV.
  assert (Hmem : forall h id, In id (map fst (fo_heap f h)) -> exists old, A id = Some (h, old)).
  { intros h id Hin. apply in_map_iff in Hin. destruct Hin as ([j k] & <- & Hin). exists k.
    apply (iv_mem _ _ HI). split; [|exact Hin].
    destruct (Nat.lt_ge_cases h (length (fo_heaps f))); [assumption|]. unfold fo_heap in Hin. rewrite nth_overflow in Hin by assumption. destruct Hin. }
  destruct o as [h id key|h|h id key|h id|h]; cbn [fo_step pq_step].
  - destruct (push_ok f A h id key HI HV) as (f' & E & HI' & EA & HN).
    exists f', (pq_set A id (Some (h, key))). split; [exact E|]. split; [split; [exact EA|reflexivity]|]. split; [exact HI'|]. split; [|exact HN].
    intros j h' k. unfold pq_set. destruct (Nat.eqb_spec j id); [intros [= <- <-]; apply HV|apply HK].
  - destruct (pop_ok f A h HI HV) as (id & key & f' & _ & E & HF & HI' & HN).
    exists f', (pq_set A id None). split; [exact E|]. split; [exists id, key; auto|]. split; [exact HI'|]. split; [|exact HN].
    intros j h' k. unfold pq_set. destruct (Nat.eqb_spec j id); [discriminate|apply HK].
  - destruct HV as [HV Hkey]. destruct (Hmem h id HV) as [old EA].
    destruct (change_ok f A h id old key HI EA) as (f' & E & HI' & HN).
    exists f', (pq_set A id (Some (h, key))). split; [exact E|]. split; [split; [exists old; exact EA|reflexivity]|].
    split; [exact HI'|]. split; [|exact HN].
    intros j h' k. unfold pq_set. destruct (Nat.eqb_spec j id); [intros [= <- <-]; exact Hkey|apply HK].
  - destruct (Hmem h id HV) as [old EA].
    destruct (remove_ok f A h id old HI HK EA) as (f' & E & HI' & HN).
    exists f', (pq_set A id None). split; [exact E|]. split; [split; [exists old; exact EA|reflexivity]|].
    split; [exact HI'|]. split; [|exact HN].
    intros j h' k. unfold pq_set. destruct (Nat.eqb_spec j id); [discriminate|apply HK].
  - destruct (clear_ok f A h HI HV) as (f' & E & HI' & HN).
    eexists f', _. split; [exact E|]. split; [reflexivity|]. split; [exact HI'|]. split; [|exact HN].
    intros j h' k. cbn beta. destruct (A j) as [[h'' k'']|] eqn:EA; [|discriminate].
    destruct (Nat.eqb h'' h); [discriminate|]. intros [= <- <-]. apply (HK j h''). exact EA.
Qed.

Lemma run_ok : forall ops f A, inv f A -> keysA A -> valid_hops mx w ops f ->
  exists f' A', fo_run mx w ops f = Some f' /\ pq_run mx ops A A' /\ inv f' A' /\ length (fo_heaps f') = length (fo_heaps f).
Proof.
  induction ops as [|o t IH]; intros f A HI HK HV; cbn [fo_run].
  - exists f, A. split; [reflexivity|]. split; [constructor|]. auto.
  - destruct HV as [HV1 HV2]. destruct (step_ok f A o HI HK HV1) as (f1 & A1 & E1 & HS & HI1 & HK1 & HN1).
    rewrite E1. destruct (IH f1 A1 HI1 HK1 (HV2 f1 E1)) as (f' & A' & E' & HR & HI' & HN').
    exists f', A'. split; [exact E'|]. split; [econstructor; eassumption|]. split; [exact HI'|lia].
Qed.

Lemma inv_init cap heaps : inv (forest_init cap heaps) pq_empty.
Proof.
  assert (Hh : forall h, fo_heap (forest_init cap heaps) h = []).
  { intros h. unfold fo_heap, forest_init. cbn [fo_heaps]. apply nth_repeat. }
  constructor.
  - intros h _ i Hi. rewrite Hh in Hi. cbn in Hi. lia.
  - intros h _ i Hi. rewrite Hh in Hi. cbn in Hi. lia.
  - intros id h key. rewrite Hh. split; [discriminate|intros [_ []]].
  - intros id _. unfold forest_init. cbn [fo_ids]. apply nth_repeat.
Qed.

Lemma inv_observes f A : inv f A -> observes mx f A.
Proof.
  intros HI. pose proof HI as [I1 I2 I3 I4].
  assert (Hm : forall h id key, In (id, key) (fo_heap f h) <-> A id = Some (h, key)).
  { intros h id key. rewrite I3. split; [|tauto]. intros Hin. split; [|exact Hin].
    destruct (Nat.lt_ge_cases h (length (fo_heaps f))); [assumption|]. unfold fo_heap in Hin. rewrite nth_overflow in Hin by assumption. destruct Hin. }
  split; [|split; [|split; [|split]]].
  - intros id. unfold fo_contains. split.
    + intros H E. rewrite (I4 id E) in H. discriminate.
    + intros H. destruct (A id) as [[h key]|] eqn:EA; [|congruence].
      destruct (member_handle f A h id key HI EA) as (p & _ & Eh & _). rewrite Eh. reflexivity.
  - intros h id key EA. exact (key_of f A h id key HI EA).
  - exact Hm.
  - intros h. destruct (Nat.lt_ge_cases h (length (fo_heaps f))) as [Hh|Hh].
    + apply (NoDup_nth _ 0%nat). rewrite map_length. intros i j Hi Hj E.
      change 0%nat with (fst hd0) in E. rewrite !map_nth in E. exact (linked_inj _ _ i j (I1 h Hh) Hi Hj E).
    + unfold fo_heap. rewrite nth_overflow by assumption. constructor.
  - intros h. destruct (fo_peek f h) as [[id key]|] eqn:Epk.
    + destruct (pop_ok f A h HI) as (id' & key' & f' & Epk' & _ & HF & _).
      { unfold fo_size. unfold fo_peek in Epk. destruct (fo_heap f h); [discriminate|cbn; lia]. }
      rewrite Epk in Epk'. injection Epk' as -> ->. exact HF.
    + intros id key EA. apply Hm in EA. unfold fo_peek in Epk. destruct (fo_heap f h); [destruct EA|discriminate].
Qed.

Lemma forest_refines cap heaps ops : valid_hops mx w ops (forest_init cap heaps) ->
  exists f A, fo_run mx w ops (forest_init cap heaps) = Some f /\ pq_run mx ops pq_empty A /\ observes mx f A.
Proof.
  intros HV. destruct (run_ok ops _ pq_empty (inv_init cap heaps) ltac:(intros ? ? ?; discriminate) HV) as (f & A & E & HR & HI & _).
  exists f, A. split; [exact E|]. split; [exact HR|]. apply inv_observes. exact HI.
Qed.

Lemma pop_removes_peek cap heaps ops f h id key f' : valid_hops mx w ops (forest_init cap heaps) ->
  fo_run mx w ops (forest_init cap heaps) = Some f -> fo_peek f h = Some (id, key) ->
  fo_pop mx f h = Some f' ->
  fo_contains f' id = false /\ (forall j, j <> id -> fo_contains f' j = fo_contains f j) /\
  (forall h' j, j <> id -> In j (map fst (fo_heap f h')) -> fo_key f' h' j = fo_key f h' j).
Proof.
  intros HV ER Epk Epop.
  destruct (run_ok ops _ pq_empty (inv_init cap heaps) ltac:(intros ? ? ?; discriminate) HV) as (f0 & A & E & HR & HI & _).
  rewrite ER in E. injection E as <-.
  destruct (pop_ok f A h HI) as (id' & key' & f1 & Epk' & Ep & _ & HI' & _).
  { unfold fo_size. unfold fo_peek in Epk. destruct (fo_heap f h); [discriminate|cbn; lia]. }
  rewrite Epk in Epk'. injection Epk' as <- <-. rewrite Epop in Ep. injection Ep as <-.
  destruct (inv_observes f A HI) as (O1 & O2 & O3 & _). destruct (inv_observes f' _ HI') as (O1' & O2' & O3' & _).
  split; [|split].
  - destruct (fo_contains f' id) eqn:Ec; [|reflexivity]. apply O1' in Ec. unfold pq_set in Ec. rewrite Nat.eqb_refl in Ec. congruence.
  - intros j Hne. apply Bool.eq_iff_eq_true. rewrite O1, O1'. unfold pq_set. rewrite (proj2 (Nat.eqb_neq j id)) by exact Hne. reflexivity.
  - intros h' j Hne Hin. apply in_map_iff in Hin. destruct Hin as ([j' k] & Ej & Hin). cbn [fst] in Ej. subst j'.
    apply O3 in Hin. rewrite (O2 _ _ _ Hin). apply O2'. unfold pq_set. rewrite (proj2 (Nat.eqb_neq j id)) by exact Hne. exact Hin.
Qed.
End MX.
