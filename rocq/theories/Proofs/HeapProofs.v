(* Proofs about the addressable heaps (Model/HeapModel.v). *)
From Verif Require Import Lib.Prelude Spec.PrioQueue Model.HeapModel.
Local Open Scope Z_scope.

(** Priority of a key: larger is better. *)
Definition pr (mx : bool) (k : Z) : Z := if mx then k else - k.
Lemma hcmp_pr mx a b : hcmp mx a b = (pr mx a <? pr mx b).
Proof. unfold hcmp, pr. destruct mx; lia. Qed.
Lemma before_pr mx a b : before mx a b <-> pr mx b <= pr mx a.
Proof. unfold before, pr. destruct mx; lia. Qed.

(** 4-ary trees. *)
Definition par (i : nat) : nat := ((i - 1) / 4)%nat.
Lemma par_iff i p : (0 < i)%nat -> (par i = p <-> (4 * p + 1 <= i <= 4 * p + 4)%nat).
Proof. intros Hi. unfold par. split; intros; [subst p|]; dlia. Qed.
Lemma par_lt i : (0 < i)%nat -> (par i < i)%nat.
Proof. intros. unfold par. dlia. Qed.

Lemma list_ext_nth {A} (d : A) (l l' : list A) : length l = length l' ->
  (forall i, (i < length l)%nat -> nth i l d = nth i l' d) -> l = l'.
Proof.
  revert l'. induction l as [|x t IH]; intros [|y t'] HL H; cbn in *; try lia; auto.
  f_equal; [apply (H 0%nat); lia|]. apply IH; [lia|]. intros i Hi. apply (H (S i)). lia.
Qed.

Section MX.
Context (mx : bool).

Definition prk (l : list helem) (i : nat) : Z := pr mx (hkey l i).

(** The handles point to the elements. *)
Definition linked (l : list helem) (ids : list (option nat)) : Prop :=
  forall i, (i < length l)%nat -> (hid l i < length ids)%nat /\ nth (hid l i) ids None = Some i.

Lemma linked_inj l ids i j : linked l ids -> (i < length l)%nat -> (j < length l)%nat -> hid l i = hid l j -> i = j.
Proof. intros H Hi Hj E. destruct (H i Hi) as [_ A]. destruct (H j Hj) as [_ B]. rewrite E in A. congruence. Qed.

Definition swp (a b i : nat) : nat := if Nat.eqb i a then b else if Nat.eqb i b then a else i.

Lemma hswap_nth a b l ids i : (a < length l)%nat -> (b < length l)%nat ->
  nth i (fst (hswap a b (l, ids))) hd0 = nth (swp a b i) l hd0.
Proof.
  intros Ha Hb. unfold hswap, swp. cbn [fst]. rewrite upd_nth, upd_length.
  destruct (Nat.eqb_spec a i) as [->|Hai].
  - rewrite (proj2 (Nat.ltb_lt _ _) Ha), Nat.eqb_refl. reflexivity.
  - cbn [andb]. rewrite upd_nth. rewrite (proj2 (Nat.eqb_neq i a)) by lia.
    destruct (Nat.eqb_spec b i) as [->|Hbi]; [rewrite Nat.eqb_refl, (proj2 (Nat.ltb_lt _ _) Hb); reflexivity|].
    rewrite (proj2 (Nat.eqb_neq i b)) by lia. reflexivity.
Qed.
Lemma hswap_length a b l ids : length (fst (hswap a b (l, ids))) = length l.
Proof. unfold hswap. cbn [fst]. rewrite !upd_length. reflexivity. Qed.
Lemma hswap_ids_length a b l ids : length (snd (hswap a b (l, ids))) = length ids.
Proof. unfold hswap. cbn [snd]. rewrite !upd_length. reflexivity. Qed.
Lemma hswap_key a b l ids i : (a < length l)%nat -> (b < length l)%nat ->
  hkey (fst (hswap a b (l, ids))) i = hkey l (swp a b i).
Proof. intros. unfold hkey. rewrite hswap_nth by assumption. reflexivity. Qed.
Lemma hswap_hid a b l ids i : (a < length l)%nat -> (b < length l)%nat ->
  hid (fst (hswap a b (l, ids))) i = hid l (swp a b i).
Proof. intros. unfold hid. rewrite hswap_nth by assumption. reflexivity. Qed.

Lemma swp_lt a b i n : (a < n)%nat -> (b < n)%nat -> (i < n)%nat -> (swp a b i < n)%nat.
Proof. intros. unfold swp. destruct (Nat.eqb i a); [|destruct (Nat.eqb i b)]; lia. Qed.
Lemma swp_invol a b i : swp a b (swp a b i) = i.
Proof.
  unfold swp. destruct (Nat.eqb_spec i a); [subst|destruct (Nat.eqb_spec i b); [subst|]].
  - rewrite Nat.eqb_refl. destruct (Nat.eqb_spec b a); congruence.
  - rewrite Nat.eqb_refl. reflexivity.
  - rewrite (proj2 (Nat.eqb_neq _ _)) by assumption. rewrite (proj2 (Nat.eqb_neq i b)) by assumption. reflexivity.
Qed.

Lemma hswap_linked a b l ids : (a < length l)%nat -> (b < length l)%nat -> linked l ids ->
  linked (fst (hswap a b (l, ids))) (snd (hswap a b (l, ids))).
Proof.
  intros Ha Hb HL i Hi. rewrite hswap_length in Hi. rewrite hswap_ids_length, hswap_hid by assumption.
  pose proof (swp_lt a b i _ Ha Hb Hi) as Hs. destruct (HL _ Hs) as [H1 H2]. split; [exact H1|].
  destruct (HL a Ha) as [A1 A2]. destruct (HL b Hb) as [B1 B2].
  unfold hswap. cbn [snd]. fold (hid l a) (hid l b). rewrite A2, B2.
  rewrite upd_nth, upd_length.
  destruct (Nat.eqb_spec (hid l a) (hid l (swp a b i))) as [E|E].
  - rewrite (proj2 (Nat.ltb_lt _ _) A1). cbn [andb].
    apply (linked_inj l ids) in E; auto. f_equal. rewrite <- (swp_invol a b i), <- E.
    unfold swp. rewrite Nat.eqb_refl. reflexivity.
  - cbn [andb]. rewrite upd_nth.
    destruct (Nat.eqb_spec (hid l b) (hid l (swp a b i))) as [E'|E'].
    + rewrite (proj2 (Nat.ltb_lt _ _) B1). cbn [andb].
      apply (linked_inj l ids) in E'; auto. f_equal. rewrite <- (swp_invol a b i), <- E'.
      unfold swp. rewrite Nat.eqb_refl. destruct (Nat.eqb_spec b a); congruence.
    + cbn [andb]. rewrite H2. f_equal. unfold swp in E, E' |- *.
      destruct (Nat.eqb_spec i a); [congruence|]. destruct (Nat.eqb_spec i b); congruence.
Qed.

(** IDs outside the heap keep their handles. *)
Definition keeps (l : list helem) (ids ids' : list (option nat)) : Prop :=
  length ids' = length ids /\ forall j, ~ In j (map fst l) -> nth j ids' None = nth j ids None.

Lemma hid_in l i : (i < length l)%nat -> In (hid l i) (map fst l).
Proof. intros. unfold hid. apply in_map, nth_In. assumption. Qed.

Lemma hswap_keeps a b l ids : (a < length l)%nat -> (b < length l)%nat ->
  keeps l ids (snd (hswap a b (l, ids))).
Proof.
  intros Ha Hb. split; [apply hswap_ids_length|]. intros j Hj. unfold hswap. cbn [snd].
  pose proof (hid_in l a Ha) as A. pose proof (hid_in l b Hb) as B. unfold hid in A, B.
  rewrite upd_nth_other by (intros E; rewrite E in A; contradiction).
  rewrite upd_nth_other by (intros E; rewrite E in B; contradiction). reflexivity.
Qed.

Lemma hswap_perm a b l ids : (a < length l)%nat -> (b < length l)%nat ->
  Permutation (fst (hswap a b (l, ids))) l.
Proof.
  intros Ha Hb.
  apply (Permutation_nth _ _ hd0). rewrite hswap_length. split; [reflexivity|].
  exists (swp a b). split; [|split].
  - intros i Hi. apply swp_lt; lia.
  - intros x y Hx Hy E. rewrite <- (swp_invol a b x), <- (swp_invol a b y), E. reflexivity.
  - intros i Hi. symmetry. rewrite (hswap_nth a b l ids (swp a b i)) by assumption. rewrite swp_invol. reflexivity.
Qed.

(** What a sift operation preserves. *)
Definition sifted (st st' : list helem * list (option nat)) : Prop :=
  Permutation (fst st') (fst st) /\ linked (fst st') (snd st') /\ keeps (fst st) (snd st) (snd st').

Lemma sifted_refl st : linked (fst st) (snd st) -> sifted st st.
Proof. intros H. split; [apply Permutation_refl|]. split; [exact H|]. split; auto. Qed.
Lemma sifted_swap a b st : (a < length (fst st))%nat -> (b < length (fst st))%nat -> linked (fst st) (snd st) ->
  sifted st (hswap a b st).
Proof.
  destruct st as [l ids]. intros Ha Hb HL. cbn [fst snd] in *. split; [|split].
  - apply hswap_perm; assumption.
  - apply hswap_linked; assumption.
  - apply hswap_keeps; assumption.
Qed.
Lemma sifted_trans st1 st2 st3 : sifted st1 st2 -> sifted st2 st3 -> sifted st1 st3.
Proof.
  intros (P1 & L1 & K1) (P2 & L2 & K2). split; [eapply Permutation_trans; eassumption|]. split; [exact L2|].
  destruct K1 as [N1 K1], K2 as [N2 K2]. split; [congruence|].
  intros j Hj. rewrite K2; [apply K1; exact Hj|].
  intros Hin. apply Hj. eapply Permutation_in; [apply Permutation_map, P1|exact Hin].
Qed.

(** Heap order, and heap order except at one position. *)
Definition heap_ordered (l : list helem) : Prop :=
  forall i, (0 < i < length l)%nat -> prk l i <= prk l (par i).
Definition ordered_up (l : list helem) (p : nat) : Prop :=
  (forall i, (0 < i < length l)%nat -> i <> p -> prk l i <= prk l (par i)) /\
  ((0 < p)%nat -> forall i, (0 < i < length l)%nat -> par i = p -> prk l i <= prk l (par p)).
Definition ordered_down (l : list helem) (p : nat) : Prop :=
  (forall i, (0 < i < length l)%nat -> par i <> p -> prk l i <= prk l (par i)) /\
  ((0 < p)%nat -> forall i, (0 < i < length l)%nat -> par i = p -> prk l i <= prk l (par p)).

Lemma ordered_up_of l p : heap_ordered l -> (p < length l)%nat -> ordered_up l p.
Proof.
  intros H Hp. split; [intros; apply H; assumption|].
  intros Hp0 i Hi E. pose proof (H i Hi). pose proof (H p (conj Hp0 Hp)). rewrite E in *. lia.
Qed.

Lemma prk_swap a b l ids i : (a < length l)%nat -> (b < length l)%nat ->
  prk (fst (hswap a b (l, ids))) i = prk l (swp a b i).
Proof. intros. unfold prk. rewrite hswap_key by assumption. reflexivity. Qed.

Lemma sift_up_ok : forall fuel pos st, (pos <= fuel)%nat -> (pos < length (fst st))%nat ->
  linked (fst st) (snd st) -> ordered_up (fst st) pos ->
  exists st', sift_up mx fuel pos st = Some st' /\ sifted st st' /\ heap_ordered (fst st').
Proof.
  induction fuel as [|fuel IH]; intros pos st Hf Hp HL HO.
  - assert (pos = 0%nat) as -> by lia. exists st. split; [reflexivity|]. split; [apply sifted_refl; exact HL|].
    intros i Hi. apply HO; lia.
  - destruct (Nat.eq_dec pos 0) as [->|Hp0].
    + exists st. split; [reflexivity|]. split; [apply sifted_refl; exact HL|].
      intros i Hi. apply HO; lia.
    + cbn [sift_up]. rewrite (proj2 (Nat.eqb_neq _ _)) by exact Hp0. fold (par pos).
      rewrite hcmp_pr. change (pr mx (hkey (fst st) (par pos))) with (prk (fst st) (par pos)).
      change (pr mx (hkey (fst st) pos)) with (prk (fst st) pos).
      pose proof (par_lt pos ltac:(lia)) as Hpp. destruct HO as [HO1 HO2].
      destruct (Z.ltb_spec (prk (fst st) (par pos)) (prk (fst st) pos)) as [Hlt|Hge].
      * destruct st as [l ids]. cbn [fst snd] in *.
        assert (Hpar : (par pos < length l)%nat) by lia.
        destruct (IH (par pos) (hswap pos (par pos) (l, ids))) as (st' & E & HS & HH).
        -- lia.
        -- rewrite hswap_length. exact Hpar.
        -- apply hswap_linked; assumption.
        -- split.
           ++ intros i Hi Hne. rewrite hswap_length in Hi. rewrite !prk_swap by assumption.
              unfold swp at 1. rewrite (proj2 (Nat.eqb_neq i (par pos))) by exact Hne.
              destruct (Nat.eqb_spec i pos) as [->|Hip].
              ** unfold swp. rewrite (proj2 (Nat.eqb_neq (par pos) pos)) by lia. rewrite Nat.eqb_refl. lia.
              ** unfold swp. destruct (Nat.eqb_spec (par i) pos) as [Epi|Hpi].
                 --- apply HO2; [lia|exact Hi|exact Epi].
                 --- destruct (Nat.eqb_spec (par i) (par pos)) as [Ee|Hn].
                     +++ pose proof (HO1 i Hi Hip) as Hle. rewrite Ee in Hle. lia.
                     +++ apply HO1; assumption.
           ++ intros Hpar0 i Hi Epar. rewrite hswap_length in Hi. rewrite !prk_swap by assumption.
              pose proof (par_lt (par pos) Hpar0) as Hppp.
              assert (E2 : swp pos (par pos) (par (par pos)) = par (par pos)).
              { unfold swp. rewrite (proj2 (Nat.eqb_neq _ _)) by lia. rewrite (proj2 (Nat.eqb_neq _ _)) by lia. reflexivity. }
              rewrite E2. pose proof (HO1 (par pos) ltac:(lia) ltac:(lia)) as Hgp.
              unfold swp. destruct (Nat.eqb_spec i pos) as [->|Hip]; [exact Hgp|].
              rewrite (proj2 (Nat.eqb_neq i (par pos))) by (pose proof (par_lt i ltac:(lia)); lia).
              pose proof (HO1 i Hi Hip) as Hle. rewrite Epar in Hle. lia.
        -- exists st'. split; [exact E|]. split; [|exact HH].
           eapply sifted_trans; [|exact HS]. apply sifted_swap; cbn [fst snd]; assumption.
      * apply IH; [lia|lia|exact HL|]. apply ordered_up_of; [|lia].
        intros i Hi. destruct (Nat.eq_dec i pos) as [->|Hne]; [lia|apply HO1; assumption].
Qed.

Lemma select_fold l : forall cs s,
  In (fold_left (fun s c => if hcmp mx (hkey l s) (hkey l c) then c else s) cs s) (s :: cs) /\
  forall c, In c (s :: cs) -> prk l c <= prk l (fold_left (fun s c => if hcmp mx (hkey l s) (hkey l c) then c else s) cs s).
Proof.
  induction cs as [|c cs IH]; intros s; cbn [fold_left].
  - split; [left; reflexivity|]. intros c [->|[]]. lia.
  - rewrite hcmp_pr. change (pr mx (hkey l s)) with (prk l s). change (pr mx (hkey l c)) with (prk l c).
    destruct (Z.ltb_spec (prk l s) (prk l c)) as [Hlt|Hge].
    + destruct (IH c) as [I1 I2]. split; [destruct I1 as [I1|I1]; [right; left; exact I1|right; right; exact I1]|].
      intros x [->|[->|Hx]]; [pose proof (I2 c (or_introl eq_refl)); lia|apply I2; left; reflexivity|apply I2; right; exact Hx].
    + destruct (IH s) as [I1 I2]. split; [destruct I1 as [I1|I1]; [left; exact I1|right; right; exact I1]|].
      intros x [->|[->|Hx]]; [apply I2; left; reflexivity|pose proof (I2 s (or_introl eq_refl)); lia|apply I2; right; exact Hx].
Qed.

Lemma select_child_ok l pos : (4 * pos + 1 < length l)%nat ->
  let c := select_child mx l pos in
  (0 < c < length l)%nat /\ par c = pos /\
  forall i, (0 < i < length l)%nat -> par i = pos -> prk l i <= prk l c.
Proof.
  intros Hl. cbv zeta. unfold select_child.
  destruct (select_fold l (seq (S (4 * pos + 1)) (Nat.min (4 * pos + 4 + 1) (length l) - S (4 * pos + 1))) (4 * pos + 1)) as [I1 I2].
  match goal with |- context [fold_left ?f ?cs ?s] => set (c := fold_left f cs s) in * end.
  assert (Hr : (4 * pos + 1 <= c <= 4 * pos + 4 /\ c < length l)%nat).
  { destruct I1 as [<-|I1]; [lia|]. apply in_seq in I1. lia. }
  split; [lia|]. split; [apply par_iff; lia|].
  intros i Hi Hpi. apply par_iff in Hpi; [|lia]. apply I2.
  destruct (Nat.eq_dec i (4 * pos + 1)) as [->|]; [left; reflexivity|right; apply in_seq; lia].
Qed.

Lemma sift_down_ok : forall fuel pos st, (length (fst st) <= pos + fuel)%nat ->
  linked (fst st) (snd st) -> ordered_down (fst st) pos ->
  exists st', sift_down mx fuel pos st = Some st' /\ sifted st st' /\ heap_ordered (fst st').
Proof.
  induction fuel as [|fuel IH]; intros pos st Hf HL HO.
  - exists st. cbn [sift_down]. rewrite (proj2 (Nat.leb_le _ _)) by lia. split; [reflexivity|].
    split; [apply sifted_refl; exact HL|]. intros i Hi. apply HO; [exact Hi|]. intros E. apply par_iff in E; lia.
  - cbn [sift_down]. destruct (Nat.leb_spec (length (fst st)) (4 * pos + 1)) as [Hle|Hgt].
    + exists st. split; [reflexivity|]. split; [apply sifted_refl; exact HL|].
      intros i Hi. apply HO; [exact Hi|]. intros E. apply par_iff in E; lia.
    + destruct (select_child_ok (fst st) pos Hgt) as (Hc & Hpc & Hbest). cbv zeta.
      set (c := select_child mx (fst st) pos) in *.
      destruct HO as [HO1 HO2].
      pose proof (par_lt c ltac:(lia)) as Hlt'. rewrite Hpc in Hlt'.
      rewrite hcmp_pr. change (pr mx (hkey (fst st) c)) with (prk (fst st) c).
      change (pr mx (hkey (fst st) pos)) with (prk (fst st) pos).
      destruct ((prk (fst st) c <? prk (fst st) pos) || (hkey (fst st) c =? hkey (fst st) pos)) eqn:Eb.
      * exists st. split; [reflexivity|]. split; [apply sifted_refl; exact HL|].
        assert (Hcp : prk (fst st) c <= prk (fst st) pos).
        { apply Bool.orb_true_iff in Eb. destruct Eb as [Eb|Eb]; [lia|]. unfold prk. apply Z.eqb_eq in Eb. rewrite Eb. lia. }
        intros i Hi. destruct (Nat.eq_dec (par i) pos) as [E|E]; [|apply HO1; assumption].
        pose proof (Hbest i Hi E). rewrite E. lia.
      * apply Bool.orb_false_iff in Eb. destruct Eb as [Eb _]. apply Z.ltb_ge in Eb.
        destruct st as [l ids]. cbn [fst snd] in *.
        assert (Hpl : (pos < length l)%nat) by lia. assert (Hcl : (c < length l)%nat) by lia.
        destruct (IH c (hswap pos c (l, ids))) as (st' & E & HS & HH).
        -- rewrite hswap_length. lia.
        -- apply hswap_linked; assumption.
        -- split.
           ++ intros i Hi Hne. rewrite hswap_length in Hi. rewrite !prk_swap by assumption.
              pose proof (par_lt i ltac:(lia)) as Hpi.
              destruct (Nat.eq_dec i pos) as [->|Hip].
              ** assert (E1 : swp pos c pos = c) by (unfold swp; rewrite Nat.eqb_refl; reflexivity).
                 assert (E2 : swp pos c (par pos) = par pos).
                 { unfold swp. rewrite (proj2 (Nat.eqb_neq _ _)) by lia. rewrite (proj2 (Nat.eqb_neq _ _)) by lia. reflexivity. }
                 rewrite E1, E2. apply HO2; [lia|exact Hc|exact Hpc].
              ** destruct (Nat.eq_dec (par i) pos) as [Ep|Ep].
                 --- rewrite Ep. assert (E1 : swp pos c pos = c) by (unfold swp; rewrite Nat.eqb_refl; reflexivity).
                     rewrite E1. unfold swp. rewrite (proj2 (Nat.eqb_neq i pos)) by exact Hip.
                     destruct (Nat.eqb_spec i c) as [->|]; [lia|apply Hbest; assumption].
                 --- unfold swp. rewrite (proj2 (Nat.eqb_neq i pos)), (proj2 (Nat.eqb_neq (par i) pos)) by assumption.
                     rewrite (proj2 (Nat.eqb_neq (par i) c)) by exact Hne.
                     destruct (Nat.eqb_spec i c) as [->|]; [congruence|apply HO1; assumption].
           ++ intros _ i Hi Epar. rewrite hswap_length in Hi. rewrite !prk_swap by assumption. rewrite Hpc.
              assert (E1 : swp pos c pos = c) by (unfold swp; rewrite Nat.eqb_refl; reflexivity).
              rewrite E1. pose proof (par_lt i ltac:(lia)) as Hpi.
              unfold swp. rewrite (proj2 (Nat.eqb_neq i pos)) by lia. rewrite (proj2 (Nat.eqb_neq i c)) by lia.
              pose proof (HO1 i Hi ltac:(lia)) as Hle. rewrite Epar in Hle. lia.
        -- exists st'. split; [exact E|]. split; [|exact HH].
           eapply sifted_trans; [|exact HS]. apply sifted_swap; cbn [fst snd]; assumption.
Qed.

Lemma heap_top l : heap_ordered l -> forall i, (i < length l)%nat -> prk l i <= prk l 0.
Proof.
  intros H i. induction i as [i IH] using (well_founded_induction lt_wf). intros Hi.
  destruct (Nat.eq_dec i 0) as [->|]; [lia|]. pose proof (par_lt i ltac:(lia)) as Hp.
  pose proof (H i ltac:(lia)). pose proof (IH (par i) Hp ltac:(lia)). lia.
Qed.
End MX.
