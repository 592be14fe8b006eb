(* StreamVByte: decoding returns what was encoded. *)
From Coq Require Import Sorting.Sorted.
From Verif Require Import Lib.Prelude Lib.Count Model.MathModel Model.VarintModel Model.StreamVByteModel Proofs.MathProofs Proofs.StreamVByteProofs.
Local Open Scope Z_scope.

(** The state that the differences refer to. *)
Record gst := { g1 : Z; g2 : Z; g3 : Z; g4 : Z; gm : Z }.
Definition gst_of (s : enc) : gst := {| g1 := e_p1 s; g2 := e_p2 s; g3 := e_p3 s; g4 := e_p4 s; gm := e_pmax s |}.
Section Groups.
Variables (W : nat) (gap : gapkind).
Definition sub2 (a b : list Z) : list Z := map (fun p => sub W (fst p) (snd p)) (combine a b).
Definition deltas (s : gst) (vs : list Z) : list Z :=
  match gap with
  | G_NONE => vs
  | G_D1 => sub2 vs (g1 s :: vs)
  | G_D2 => sub2 vs (g2 s :: g1 s :: vs)
  | G_DM => map (fun v => sub W v (gm s)) vs
  | G_D4 => sub2 vs (g4 s :: g3 s :: g2 s :: g1 s :: vs)
  end.
Definition next (s : gst) (a b c d : Z) : gst :=
  match gap with
  | G_NONE => s
  | G_D1 => {| g1 := d; g2 := g2 s; g3 := g3 s; g4 := g4 s; gm := gm s |}
  | G_D2 => {| g1 := d; g2 := c; g3 := g3 s; g4 := g4 s; gm := gm s |}
  | G_DM => {| g1 := g1 s; g2 := g2 s; g3 := g3 s; g4 := g4 s; gm := Z.max (gm s) d |}
  | G_D4 => {| g1 := d; g2 := c; g3 := b; g4 := a; gm := gm s |}
  end.
Fixpoint dgroups (s : gst) (vs : list Z) : list (list Z) :=
  match vs with
  | a :: b :: c :: d :: t => deltas s [a; b; c; d] :: dgroups (next s a b c d) t
  | [] => []
  | l => [deltas s l]
  end.
Definition gbytes (g : list Z) : list Z := concat (map (value_bytes W) g).
Definition gwidth (g : list Z) : nat := fold_right Nat.add 0%nat (map (required_byte_width W) g).
(** Flushing what is left. *)
Definition finish (r : option (enc * nat)) : option (enc * nat) :=
  match r with None => None | Some (s, k) => match enc_flush W s with None => None | Some s => Some (s, k) end end.

End Groups.

Lemma four_ind (P : list Z -> Prop) : P [] -> (forall a, P [a]) -> (forall a b, P [a; b]) -> (forall a b c, P [a; b; c]) ->
  (forall a b c d t, P t -> P (a :: b :: c :: d :: t)) -> forall l, P l.
Proof.
  intros H0 H1 H2 H3 H4 l. assert (Q : forall n l, (length l <= n)%nat -> P l); [|exact (Q _ l (le_n _))].
  induction n as [|n IH]; intros [|a [|b [|c [|d t]]]] L; auto; cbn in L; try lia. apply H4, IH. lia.
Qed.
Lemma dgroups_count W gap s vs : length (dgroups W gap s vs) = ((length vs + 3) / 4)%nat.
Proof.
  revert s. induction vs using four_ind; intros s; try reflexivity. cbn [dgroups length]. rewrite IHvs.
  replace (S (S (S (S (length vs)))) + 3)%nat with (length vs + 3 + 1 * 4)%nat by lia. rewrite Nat.div_add by lia. lia.
Qed.

Section Enc.
Variables (W : nat) (gap : gapkind) (base : nat) (mem0 : list Z).
Lemma enc_ok : forall vs s ctls dats, written base mem0 s ctls dats -> e_buf s = [] ->
  (length ctls + length (dgroups W gap (gst_of s) vs) <= base)%nat ->
  (base + length dats + length (concat (map (gbytes W) (dgroups W gap (gst_of s) vs))) <= length mem0)%nat ->
  exists s', finish W (enc_adds W gap s vs) = Some (s', (length (dgroups W gap (gst_of s) vs) + fold_right Nat.add 0 (map (gwidth W) (dgroups W gap (gst_of s) vs)))%nat) /\
    written base mem0 s' (ctls ++ map (control_byte W) (dgroups W gap (gst_of s) vs)) (dats ++ concat (map (gbytes W) (dgroups W gap (gst_of s) vs))).
Proof.
  assert (Tail : forall s0 s ctls dats l, written base mem0 s0 ctls dats -> e_mem s = e_mem s0 -> e_ctl s = e_ctl s0 -> e_dat s = e_dat s0 -> e_buf s = l ->
    (length ctls + 1 <= base)%nat -> (base + length dats + length (gbytes W l) <= length mem0)%nat ->
    exists s', unchecked_flush W s = Some s' /\ written base mem0 s' (ctls ++ [control_byte W l]) (dats ++ gbytes W l) /\
      e_buf s' = [] /\ gst_of s' = gst_of s).
  { intros s0 s ctls dats l Hw Em Ec Ed El Lc Ld.
    assert (Hw' : written base mem0 s ctls dats) by (unfold written in *; rewrite Em, Ec, Ed; exact Hw).
    destruct (flush_ok W base mem0 s ctls dats Hw' ltac:(lia)) as (s' & E & Hw2 & B & P1 & P2 & P3 & P4 & P5); [rewrite El; exact Ld|].
    exists s'. rewrite El in Hw2. split; [exact E|]. split; [exact Hw2|]. split; [exact B|]. unfold gst_of. congruence. }
  induction vs using four_ind; intros s ctls dats Hw Hb Hc Hd.
  - cbn. unfold enc_flush. rewrite Hb. exists s. rewrite !app_nil_r. split; [reflexivity|exact Hw].
  - cbn [dgroups map concat length fold_right] in *. rewrite app_nil_r in *.
    cbn [enc_adds]. unfold enc_add. rewrite Hb. cbn [length Nat.eqb app].
    destruct gap; cbn [finish enc_flush e_buf];
    (match goal with |- context [unchecked_flush W ?S] => match type of Hd with context [deltas W ?G _] => destruct (Tail s S ctls dats (deltas W G (gst_of s) [a]) Hw eq_refl eq_refl eq_refl eq_refl ltac:(lia) ltac:(lia)) as (s' & E & Hw2 & _) end end;
     rewrite E; exists s'; split; [f_equal; f_equal; cbn; lia|exact Hw2]).
  - cbn [dgroups map concat length fold_right] in *. rewrite app_nil_r in *.
    cbn [enc_adds]. unfold enc_add. rewrite Hb. cbn [length Nat.eqb app].
    destruct gap; cbn [finish enc_flush e_buf length Nat.eqb app e_p1 e_p2 e_p3 e_p4 e_pmax];
    (match goal with |- context [unchecked_flush W ?S] => match type of Hd with context [deltas W ?G _] => destruct (Tail s S ctls dats (deltas W G (gst_of s) [a; b]) Hw eq_refl eq_refl eq_refl eq_refl ltac:(lia) ltac:(lia)) as (s' & E & Hw2 & _) end end;
     rewrite E; exists s'; split; [f_equal; f_equal; cbn; lia|exact Hw2]).
  - cbn [dgroups map concat length fold_right] in *. rewrite app_nil_r in *.
    cbn [enc_adds]. unfold enc_add. rewrite Hb. cbn [length Nat.eqb app].
    destruct gap; cbn [finish enc_flush e_buf length Nat.eqb app e_p1 e_p2 e_p3 e_p4 e_pmax];
    (match goal with |- context [unchecked_flush W ?S] => match type of Hd with context [deltas W ?G _] => destruct (Tail s S ctls dats (deltas W G (gst_of s) [a; b; c]) Hw eq_refl eq_refl eq_refl eq_refl ltac:(lia) ltac:(lia)) as (s' & E & Hw2 & _) end end;
     rewrite E; exists s'; split; [f_equal; f_equal; cbn; lia|exact Hw2]).
  - cbn [dgroups map concat length fold_right] in *. rewrite app_length in Hd.
    assert (Four : exists s' k, enc_adds W gap s (a :: b :: c :: d :: vs) =
        match enc_adds W gap s' vs with None => None | Some (s2, k2) => Some (s2, (k + k2)%nat) end /\
        k = (1 + gwidth W (deltas W gap (gst_of s) [a; b; c; d]))%nat /\
        written base mem0 s' (ctls ++ [control_byte W (deltas W gap (gst_of s) [a; b; c; d])]) (dats ++ gbytes W (deltas W gap (gst_of s) [a; b; c; d])) /\ e_buf s' = [] /\
        gst_of s' = next gap (gst_of s) a b c d).
    { cbn [enc_adds]. unfold enc_add. rewrite Hb. cbn [length Nat.eqb app].
      destruct gap; cbn [e_buf length Nat.eqb app e_p1 e_p2 e_p3 e_p4 e_pmax e_nmax];
      (match goal with |- context [unchecked_flush W ?S] => match type of Hd with context [deltas W ?G _] => destruct (Tail s S ctls dats (deltas W G (gst_of s) [a; b; c; d]) Hw eq_refl eq_refl eq_refl eq_refl ltac:(lia) ltac:(lia)) as (s' & E & Hw2 & B2 & G2) end end;
       rewrite E; exists s'; eexists; split;
       [destruct (enc_adds W _ s' vs) as [[s2 k2]|]; [|reflexivity]; f_equal; f_equal; shelve
       |split; [reflexivity|split; [exact Hw2|split; [exact B2|rewrite G2; reflexivity]]]]). 
      Unshelve. all: cbn; lia. }
    destruct Four as (s' & k & Ef & Ek & Hw2 & B2 & G2). rewrite Ef.
    specialize (IHvs s' _ _ Hw2 B2). rewrite G2 in IHvs. rewrite !app_length in IHvs. cbn [length] in IHvs.
    destruct IHvs as (s2 & E2 & W2); [lia|lia|]. unfold finish in E2 |- *.
    destruct (enc_adds W gap s' vs) as [[s3 k3]|]; [|discriminate]. destruct (enc_flush W s3) as [s4|]; [|discriminate].
    injection E2 as -> E2. exists s2. split; [f_equal; f_equal; lia|]. rewrite <- !app_assoc in W2. cbn [app] in W2. exact W2.
Qed.
End Enc.

(* ---------------------------------------------------------------------------------------------- decoder, 32 bit *)
Definition in32 (v : Z) : Prop := 0 <= v < 2 ^ 32.
Lemma sub_in32 a b : in32 (sub 4 a b).
Proof. unfold in32, sub, w_bits, wrap_u. apply Z.mod_pos_bound. reflexivity. Qed.
Lemma deltas_length W gap s vs : (length vs <= 4)%nat -> length (deltas W gap s vs) = length vs.
Proof. intros H. destruct vs as [|a [|b [|c [|d [|e t]]]]]; cbn in H; try lia; destruct gap; reflexivity. Qed.
Lemma deltas_in32 gap s vs : Forall in32 vs -> Forall in32 (deltas 4 gap s vs).
Proof.
  intros H. unfold deltas, sub2. destruct gap; auto; apply Forall_forall; intros x Hx; apply in_map_iff in Hx; destruct Hx as (y & <- & _); apply sub_in32.
Qed.
Lemma pow_in32 v : in32 v -> 0 <= v < 256 ^ Z.of_nat 4.
Proof. intros H. exact H. Qed.
Lemma gbytes_count g : Forall in32 g -> length (gbytes 4 g) = gwidth 4 g.
Proof.
  unfold gbytes, gwidth. induction g as [|v g IH]; intros H; [reflexivity|]. inversion H; subst. cbn [map concat fold_right]. rewrite app_length, IH by assumption.
  destruct (value_bytes_ok 4 v ltac:(left; reflexivity) (pow_in32 _ H2)) as (-> & _). reflexivity.
Qed.
Lemma gbytes_pos g : Forall in32 g -> g <> [] -> (1 <= length (gbytes 4 g))%nat.
Proof.
  intros H N. destruct g as [|v g]; [congruence|]. inversion H; subst. unfold gbytes. cbn [map concat]. rewrite app_length.
  destruct (value_bytes_ok 4 v ltac:(left; reflexivity) (pow_in32 _ H2)) as (-> & _ & B). lia.
Qed.
(** One group: the lanes and the number of bytes that the length table gives. *)
Lemma group32 g pre rest mem : Forall in32 g -> (length g <= 4)%nat -> mem = pre ++ gbytes 4 g ++ rest -> (16 <= length (gbytes 4 g ++ rest))%nat ->
  exists data, decode_reg 4 mem (length pre) (control_byte 4 g) = Some data /\ length data = 4%nat /\ firstn (length g) data = g /\
    length_table 4 (control_byte 4 g) = (length (gbytes 4 g) + (4 - length g))%nat.
Proof.
  intros Hg Hl -> Hr. unfold decode_reg, gbytes in *. rewrite load_ok by exact Hr. eexists. split; [reflexivity|]. split; [reflexivity|].
  assert (In0 : forall i, in32 (nth i g 0)). { intros i. destruct (Nat.lt_ge_cases i (length g)); [rewrite Forall_forall in Hg; apply Hg, nth_In; assumption|rewrite nth_overflow by assumption; unfold in32; lia]. }
  assert (W4 : width_ok 4) by (left; reflexivity).
  assert (Rr : forall i, (bwidth (nth i g 0%Z) <= required_byte_width 4 (nth i g 0%Z) <= 4)%nat /\ 0 <= encoded_byte_width 4 (nth i g 0) <= 3 /\ actual_length 4 (encoded_byte_width 4 (nth i g 0)) = required_byte_width 4 (nth i g 0)).
  { intros i. apply (required_range 4 _ W4). apply pow_in32, In0. }
  assert (EL : lengths 4 (control_byte 4 g) = map (fun i => bwidth (nth i g 0)) (seq 0 4)).
  { unfold lengths. change (lanes_per_reg 4) with 4%nat. unfold control_byte.
    destruct (ctl_headers (encoded_byte_width 4 (nth 0 g 0)) (encoded_byte_width 4 (nth 1 g 0)) (encoded_byte_width 4 (nth 2 g 0)) (encoded_byte_width 4 (nth 3 g 0))) as (H0 & H1 & H2 & H3 & _); try apply Rr.
    cbn [seq map]. rewrite H0, H1, H2, H3.
    destruct (Rr 0%nat) as (_ & _ & ->), (Rr 1%nat) as (_ & _ & ->), (Rr 2%nat) as (_ & _ & ->), (Rr 3%nat) as (_ & _ & ->). reflexivity. }
  assert (Lv : forall v, in32 v -> length (value_bytes 4 v) = bwidth v) by (intros v Hv; apply (value_bytes_ok 4 v W4 (pow_in32 _ Hv))).
  assert (Ev : forall v, in32 v -> le_bytes (value_bytes 4 v) = v) by (intros v Hv; apply (value_bytes_ok 4 v W4 (pow_in32 _ Hv))).
  split.
  - unfold shuffle_table. rewrite EL.
    replace (length g) with (length (map (value_bytes 4) g)) by apply map_length. rewrite reg_ok; auto.
    + rewrite map_map. rewrite <- (map_id g) at 2. apply map_ext_in. intros v Hv. apply Ev. rewrite Forall_forall in Hg. auto.
    + rewrite Forall_forall. intros x Hx. apply in_map_iff in Hx. destruct Hx as (i & <- & _). destruct (Rr i) as (? & _). lia.
    + rewrite map_length. rewrite map_map. rewrite (map_ext_in _ bwidth) by (intros v Hv; apply Lv; rewrite Forall_forall in Hg; auto).
      destruct g as [|a [|b [|c [|d [|e t]]]]]; cbn in Hl; try lia; reflexivity.
    + rewrite !map_length, seq_length. exact Hl.
  - unfold length_table. rewrite EL. rewrite <- sum_len, map_map. rewrite (map_ext_in _ bwidth) by (intros v Hv; apply Lv; rewrite Forall_forall in Hg; auto).
    assert (B0 : bwidth 0 = 1%nat) by reflexivity.
    destruct g as [|a [|b [|c [|d [|e t]]]]]; cbn in Hl; try lia; cbn [seq map nth fold_right length]; rewrite ?B0; lia.
Qed.

Definition agree (gap : gapkind) (s : gst) (prev : list Z) : Prop :=
  match gap with
  | G_NONE => True
  | G_D1 => g1 s = nth 3 prev 0
  | G_D2 => g1 s = nth 3 prev 0 /\ g2 s = nth 2 prev 0
  | G_DM => gm s = nth 3 prev 0
  | G_D4 => g1 s = nth 3 prev 0 /\ g2 s = nth 2 prev 0 /\ g3 s = nth 1 prev 0 /\ g4 s = nth 0 prev 0
  end.
Lemma add32_q x y : exists k, add32 x y = x + y + 4294967296 * k /\ 0 <= add32 x y < 4294967296.
Proof.
  unfold add32, wrap_u. change (2 ^ 32) with 4294967296. exists (- ((x + y) / 4294967296)).
  pose proof (Z.div_mod (x + y) 4294967296 ltac:(lia)). pose proof (Z.mod_pos_bound (x + y) 4294967296 ltac:(lia)). lia.
Qed.
Lemma sub_q x y : exists k, sub 4 x y = x - y + 4294967296 * k /\ 0 <= sub 4 x y < 4294967296.
Proof.
  unfold sub, w_bits, wrap_u. change (2 ^ (8 * Z.of_nat 4)) with 4294967296. exists (- ((x - y) / 4294967296)).
  pose proof (Z.div_mod (x - y) 4294967296 ltac:(lia)). pose proof (Z.mod_pos_bound (x - y) 4294967296 ltac:(lia)). lia.
Qed.
Ltac quotients := repeat match goal with
  | |- context [sub 4 ?x ?y] => let k := fresh "k" in let E := fresh "E" in let r := fresh "r" in
      destruct (sub_q x y) as (k & E); set (r := sub 4 x y) in *; clearbody r
  | |- context [add32 ?x ?y] => lazymatch x with context [add32] => fail | _ => lazymatch y with context [add32] => fail | _ =>
      let k := fresh "k" in let E := fresh "E" in let r := fresh "r" in
      destruct (add32_q x y) as (k & E); set (r := add32 x y) in *; clearbody r end end
  end.
Lemma gaps_ok gap s prev vs data : agree gap s prev -> Forall in32 vs -> (length vs <= 4)%nat -> length data = 4%nat -> length prev = 4%nat ->
  firstn (length vs) data = deltas 4 gap s vs -> firstn (length vs) (decode_gaps gap prev data) = vs /\ length (decode_gaps gap prev data) = 4%nat.
Proof.
  intros Ha Hv Hl Hd Hp E.
  destruct data as [|x0 [|x1 [|x2 [|x3 [|]]]]]; try discriminate. destruct prev as [|q0 [|q1 [|q2 [|q3 [|]]]]]; try discriminate. clear Hd Hp.
  split; [|destruct gap; reflexivity].
  destruct gap; cbn [agree nth] in Ha;
  destruct vs as [|a [|b [|c [|d [|e t]]]]]; cbn in Hl; try lia; clear Hl;
  repeat match goal with H : Forall _ (_ :: _) |- _ => apply Forall_cons_iff in H; destruct H end;
  unfold in32 in *; change (2 ^ 32) with 4294967296 in *;
  cbn [deltas sub2 firstn length map combine fst snd] in E; try (injection E; clear E; intros);
  repeat match goal with H : _ /\ _ |- _ => destruct H end;
  cbn [decode_gaps slli bcast add4 firstn repeat app combine map fst snd nth length];
  repeat match goal with |- _ :: _ = _ :: _ => f_equal end; try reflexivity; try assumption;
  subst; quotients; lia.
Qed.

(** Largest-value coding needs the values to be non-decreasing. *)
Definition dm_ok (gap : gapkind) (s : gst) (vs : list Z) : Prop := gap = G_DM -> Sorted Z.le (gm s :: vs).
Lemma dm_next gap s a b c d t : dm_ok gap s (a :: b :: c :: d :: t) -> (gap = G_DM -> gm (next gap s a b c d) = d) /\ dm_ok gap (next gap s a b c d) t.
Proof.
  intros H. assert (Q : gap = G_DM -> gm s <= d /\ Sorted Z.le (d :: t)).
  { intros E. specialize (H E). repeat match goal with H : Sorted _ (_ :: _) |- _ => apply Sorted_inv in H; destruct H end.
    repeat match goal with H : HdRel _ _ (_ :: _) |- _ => apply HdRel_inv in H end. split; [lia|]. constructor; assumption. }
  split; [intros ->; cbn; specialize (Q eq_refl); lia|]. intros ->. specialize (Q eq_refl). cbn. rewrite Z.max_r by lia. apply Q.
Qed.
Lemma agree_next gap s a b c d : (gap = G_DM -> gm (next gap s a b c d) = d) -> agree gap (next gap s a b c d) [a; b; c; d].
Proof. intros H. destruct gap; cbn in *; auto. Qed.

Lemma groups32_ok gap mem rest : (15 <= length rest)%nat -> forall vs s prev A B,
  mem = A ++ map (control_byte 4) (dgroups 4 gap s vs) ++ B ++ concat (map (gbytes 4) (dgroups 4 gap s vs)) ++ rest ->
  Forall in32 vs -> agree gap s prev -> length prev = 4%nat -> dm_ok gap s vs ->
  exists s' prev' G, dgroups 4 gap s vs = G ++ dgroups 4 gap s' (skipn (4 * (length vs / 4)) vs) /\ length G = (length vs / 4)%nat /\
    agree gap s' prev' /\ length prev' = 4%nat /\
    groups32 gap mem (length vs / 4) (length A) (length A + length (dgroups 4 gap s vs) + length B) prev =
      Some (firstn (4 * (length vs / 4)) vs, (length A + length (dgroups 4 gap s vs) + length B + length (concat (map (gbytes 4) G)))%nat, prev').
Proof.
  intros Hr. induction vs using four_ind; intros s prev A B Em Hv Ha Hp Hm;
    [exists s, prev, []; repeat split; auto; cbn [length]; rewrite ?Nat.add_0_r; reflexivity
    |exists s, prev, []; repeat split; auto; change (length [a] / 4)%nat with 0%nat; cbn [groups32 map concat length]; rewrite ?Nat.add_0_r; reflexivity
    |exists s, prev, []; repeat split; auto; change (length [a; b] / 4)%nat with 0%nat; cbn [groups32 map concat length]; rewrite ?Nat.add_0_r; reflexivity
    |exists s, prev, []; repeat split; auto; change (length [a; b; c] / 4)%nat with 0%nat; cbn [groups32 map concat length]; rewrite ?Nat.add_0_r; reflexivity
    |].
  assert (Ed : (length (a :: b :: c :: d :: vs) / 4 = S (length vs / 4))%nat).
  { cbn [length]. replace (S (S (S (S (length vs))))) with (length vs + 1 * 4)%nat by lia. rewrite Nat.div_add by lia. lia. }
  rewrite Ed. cbn [dgroups]. set (g := deltas 4 gap s [a; b; c; d]). set (s1 := next gap s a b c d).
  do 4 (apply Forall_cons_iff in Hv; destruct Hv as (? & Hv)). rename Hv into Hvs.
  assert (H4 : Forall in32 [a; b; c; d]) by (do 4 (apply Forall_cons; [assumption|]); apply Forall_nil).
  assert (Hg : Forall in32 g) by (apply deltas_in32, H4).
  assert (Lg : length g = 4%nat) by (unfold g; rewrite deltas_length; cbn; lia).
  cbn [dgroups map concat] in Em. fold g s1 in Em. set (gs := dgroups 4 gap s1 vs) in *.
  destruct (dm_next gap s a b c d vs Hm) as (N1 & N2). fold s1 in N1, N2.
  destruct (group32 g (A ++ (control_byte 4 g :: map (control_byte 4) gs) ++ B) (concat (map (gbytes 4) gs) ++ rest) mem Hg ltac:(lia)) as (data & Er & Ld & Ef & Et).
  { rewrite Em. now rewrite <- !app_assoc. }
  { rewrite !app_length. pose proof (gbytes_pos g Hg ltac:(intros Q; rewrite Q in Lg; discriminate)). lia. }
  destruct (gaps_ok gap s prev [a; b; c; d] data Ha H4 ltac:(cbn; lia) Ld Hp) as (Ev & Lv).
  { cbn [length]. rewrite Lg in Ef. exact Ef. }
  assert (Ev' : decode_gaps gap prev data = [a; b; c; d]) by (rewrite firstn_all2 in Ev by (cbn [length]; lia); exact Ev).
  destruct (IHvs s1 [a; b; c; d] (A ++ [control_byte 4 g]) (B ++ gbytes 4 g)) as (s' & prev' & G & EG & LG & Ag & Lp & Eg); auto.
  { fold gs. rewrite Em. rewrite <- !app_assoc. reflexivity. }
  { apply agree_next, N1. }
  exists s', prev', (g :: G). fold gs in EG.
  assert (Es : skipn (4 * S (length vs / 4)) (a :: b :: c :: d :: vs) = skipn (4 * (length vs / 4)) vs).
  { replace (4 * S (length vs / 4))%nat with (S (S (S (S (4 * (length vs / 4)))))) by lia. reflexivity. }
  assert (Ei : firstn (4 * S (length vs / 4)) (a :: b :: c :: d :: vs) = [a; b; c; d] ++ firstn (4 * (length vs / 4)) vs).
  { replace (4 * S (length vs / 4))%nat with (S (S (S (S (4 * (length vs / 4)))))) by lia. reflexivity. }
  rewrite Es, Ei. split; [cbn [app]; f_equal; exact EG|]. split; [cbn [length]; lia|]. split; [exact Ag|]. split; [exact Lp|].
  cbn [groups32]. assert (En : nth_error mem (length A) = Some (control_byte 4 g)). { rewrite Em, nth_error_app2, Nat.sub_diag by lia. reflexivity. }
  rewrite En. rewrite !app_length in Er. cbn [length] in Er. rewrite map_length in Er.
  replace (length A + (S (length gs) + length B))%nat with (length A + length (g :: gs) + length B)%nat in Er by (cbn [length]; lia).
  rewrite Er, Ev'. fold gs in Eg. rewrite !app_length in Eg. cbn [length] in Eg. rewrite Et, Lg. cbn [length]. 
  replace (S (length A)) with (length A + 1)%nat by lia.
  replace (length A + S (length gs) + length B + (length (gbytes 4 g) + (4 - 4)))%nat with (length A + 1 + length gs + (length B + length (gbytes 4 g)))%nat by lia.
  rewrite Eg. cbn [map concat]. rewrite app_length. f_equal. f_equal. f_equal. lia.
Qed.

(** The last group. *)
Lemma dgroups_small W gap s vs : (0 < length vs < 4)%nat -> dgroups W gap s vs = [deltas W gap s vs].
Proof. intros H. destruct vs as [|a [|b [|c [|d t]]]]; cbn in H; try lia; reflexivity. Qed.
Lemma div_ceil4 n : N.to_nat (div_ceil (N.of_nat n) 4) = ((n + 3) / 4)%nat.
Proof.
  unfold div_ceil. pose proof (Nat.div_mod n 4 ltac:(lia)) as D. pose proof (Nat.mod_upper_bound n 4 ltac:(lia)) as M.
  assert (Ed : (N.of_nat n / 4 = N.of_nat (n / 4))%N) by (symmetry; change 4%N with (N.of_nat 4); apply Nat2N.inj_div).
  assert (Em : (N.of_nat n mod 4 = N.of_nat (n mod 4))%N) by (symmetry; change 4%N with (N.of_nat 4); apply Nat2N.inj_mod).
  rewrite Ed, Em. assert (Ec : ((n + 3) / 4 = n / 4 + (n mod 4 + 3) / 4)%nat).
  { rewrite D at 1. replace (4 * (n / 4) + n mod 4 + 3)%nat with ((n mod 4 + 3) + (n / 4) * 4)%nat by lia. rewrite Nat.div_add by lia. apply Nat.add_comm. }
  rewrite Ec. clear Ec Ed Em D. generalize (n / 4)%nat as q. intros q. destruct (n mod 4)%nat as [|[|[|[|k]]]]; [| | | |lia];
    rewrite N2Nat.inj_add, Nat2N.id; reflexivity.
Qed.
Lemma groups_start n : (n / 4 + (if Nat.eqb (n mod 4) 0 then 0 else 1) = (n + 3) / 4)%nat.
Proof.
  pose proof (Nat.div_mod n 4 ltac:(lia)) as D. pose proof (Nat.mod_upper_bound n 4 ltac:(lia)) as M.
  assert (Ec : ((n + 3) / 4 = n / 4 + (n mod 4 + 3) / 4)%nat).
  { rewrite D at 1. replace (4 * (n / 4) + n mod 4 + 3)%nat with ((n mod 4 + 3) + (n / 4) * 4)%nat by lia. rewrite Nat.div_add by lia. apply Nat.add_comm. }
  rewrite Ec. destruct (n mod 4)%nat as [|[|[|[|k]]]]; try lia; reflexivity.
Qed.
Definition st0 : gst := {| g1 := 0; g2 := 0; g3 := 0; g4 := 0; gm := 0 |}.
Definition dat (W : nat) (gap : gapkind) (vs : list Z) : list Z := concat (map (gbytes W) (dgroups W gap st0 vs)).
Definition ctl (W : nat) (gap : gapkind) (vs : list Z) : list Z := map (control_byte W) (dgroups W gap st0 vs).
Lemma encode_ok W gap vs mem : ((length vs + 3) / 4 + length (dat W gap vs) <= length mem)%nat ->
  svb_encode W gap vs mem = Some (ctl W gap vs ++ dat W gap vs ++ skipn ((length vs + 3) / 4 + length (dat W gap vs)) mem, ((length vs + 3) / 4 + length (dat W gap vs))%nat) /\
  exists s, enc_adds W gap (enc_init (length vs) mem) vs = Some (s, ((length vs + 3) / 4 + fold_right Nat.add 0 (map (gwidth W) (dgroups W gap st0 vs)))%nat).
Proof.
  intros H. set (s0 := enc_init (length vs) mem). set (base := ((length vs + 3) / 4)%nat) in *.
  assert (Hw : written base mem s0 [] []).
  { split; [reflexivity|]. split; [change (e_dat s0) with (N.to_nat (div_ceil (N.of_nat (length vs)) 4)); rewrite div_ceil4; fold base; cbn [length]; lia|]. exists (firstn base mem). split; [cbn [length]; rewrite firstn_length; lia|].
    cbn [length e_mem s0 enc_init app]. rewrite Nat.add_0_r. symmetry. apply firstn_skipn. }
  destruct (enc_ok W gap base mem vs s0 [] [] Hw eq_refl) as (s' & E & W2 & W3 & mid & Lm & Em).
  { change (gst_of s0) with st0. rewrite dgroups_count. fold base. cbn [length]. lia. }
  { change (gst_of s0) with st0. fold (dat W gap vs). cbn [length]. lia. }
  change (gst_of s0) with st0 in *. cbn [app] in *. fold (dat W gap vs) in *. fold (ctl W gap vs) in *.
  assert (Lc : length (ctl W gap vs) = base) by (unfold ctl; rewrite map_length, dgroups_count; reflexivity).
  assert (mid = []) by (destruct mid; [reflexivity|cbn [length] in Lm; lia]). subst mid. cbn [app] in Em.
  unfold svb_encode. fold s0. unfold finish in E. rewrite dgroups_count in E. fold base in E. destruct (enc_adds W gap s0 vs) as [[s1 k]|]; [|discriminate].
  destruct (enc_flush W s1) as [s2|]; [|discriminate]. injection E as -> ->. split; [|eauto]. rewrite Em, W3. reflexivity.
Qed.

Theorem decode32_ok gap vs rest : Forall in32 vs -> dm_ok gap st0 vs -> (15 <= length rest)%nat ->
  let mem := ctl 4 gap vs ++ dat 4 gap vs ++ rest in
  (exists pos, svb_decode32 gap mem (length vs) = Some (vs, pos)) /\
  (Nat.even (length vs) = true -> svb_decode32_pairs gap mem (length vs) = Some (pairs_of vs, ((length vs + 3) / 4 + length (dat 4 gap vs))%nat)).
Proof.
  intros Hv Hm Hr mem. unfold svb_decode32, svb_decode32_pairs. rewrite groups_start.
  destruct (groups32_ok gap mem rest Hr vs st0 [0; 0; 0; 0] [] []) as (s' & prev' & G & EG & LG & Ag & Lp & E); auto.
  { destruct gap; cbn; auto. }
  cbn [length Nat.add] in E. rewrite dgroups_count, Nat.add_0_r in E. rewrite E. clear E.
  pose proof (Nat.div_mod (length vs) 4 ltac:(lia)) as D. pose proof (Nat.mod_upper_bound (length vs) 4 ltac:(lia)) as M.
  set (r := skipn (4 * (length vs / 4)) vs) in *. assert (Lr : length r = (length vs mod 4)%nat) by (unfold r; rewrite skipn_length; lia).
  assert (Evs : firstn (4 * (length vs / 4)) vs ++ r = vs) by apply firstn_skipn.
  destruct (Nat.eqb_spec (length vs mod 4) 0) as [Z0|Nz].
  - assert (r = []) by (apply length_zero_iff_nil; lia). rewrite H, app_nil_r in Evs. rewrite Evs. split; [eauto|]. intros _. rewrite Z0. cbn [Nat.eqb].
    f_equal. f_equal. f_equal. unfold dat. rewrite EG, H. cbn [dgroups]. rewrite app_nil_r. reflexivity.
  - assert (Hrr : Forall in32 r). { rewrite Forall_forall in *. intros x Hx. apply Hv. rewrite <- Evs. apply in_or_app. auto. }
    rewrite (dgroups_small 4 gap s' r) in EG by lia. set (g := deltas 4 gap s' r) in *. assert (Lg : length g = length r) by (apply deltas_length; lia).
    assert (Hg : Forall in32 g) by (apply deltas_in32, Hrr).
    assert (Em : mem = (ctl 4 gap vs ++ concat (map (gbytes 4) G)) ++ gbytes 4 g ++ rest).
    { unfold mem, dat. rewrite EG, map_app, concat_app. cbn [map concat]. rewrite app_nil_r, <- !app_assoc. reflexivity. }
    destruct (group32 g _ rest mem Hg ltac:(lia) Em) as (data & Er & Ld & Ef & Et).
    { rewrite app_length. pose proof (gbytes_pos g Hg ltac:(intros Q; rewrite Q in Lg; cbn [length] in Lg; lia)). lia. }
    assert (Lc : length (ctl 4 gap vs) = ((length vs + 3) / 4)%nat) by (unfold ctl; rewrite map_length; apply dgroups_count).
    rewrite app_length, Lc in Er.
    assert (En : nth_error mem (length vs / 4) = Some (control_byte 4 g)).
    { unfold mem, ctl. rewrite EG, map_app, <- app_assoc, nth_error_app2; rewrite map_length, LG; [|lia]. rewrite Nat.sub_diag. reflexivity. }
    destruct (gaps_ok gap s' prev' r data Ag Hrr ltac:(lia) Ld Lp) as (Ev & Lv).
    { rewrite <- Lg. exact Ef. }
    rewrite En, Er. rewrite <- Lr. rewrite Ev. split; [exists ((length vs + 3) / 4 + length (concat (map (gbytes 4) G)))%nat; rewrite Evs; reflexivity|].
    intros Hev. assert (L2 : length r = 2%nat).
    { apply Nat.even_spec in Hev. destruct Hev as (q & Hq). assert (length r <> 1 /\ length r <> 3)%nat by lia. lia. }
    rewrite L2 in *. cbn [Nat.eqb]. rewrite Ev.
    assert (Pa : forall l1 l2 k, length l1 = (2 * k)%nat -> pairs_of l1 ++ pairs_of l2 = pairs_of (l1 ++ l2)).
    { clear. intros l1 l2 k. revert l1. induction k as [|k IH]; intros l1 H.
      - assert (l1 = []) by (apply length_zero_iff_nil; lia). subst. reflexivity.
      - destruct l1 as [|a [|b l1]]; cbn [length] in H; try lia. cbn [pairs_of app]. f_equal. apply IH. lia. }
    rewrite (Pa _ _ (2 * (length vs / 4))%nat) by (rewrite firstn_length; lia). rewrite Evs. f_equal. f_equal.
    rewrite Et, Lg. unfold dat. rewrite EG, map_app, concat_app, app_length. cbn [map concat]. rewrite app_nil_r. lia.
Qed.
