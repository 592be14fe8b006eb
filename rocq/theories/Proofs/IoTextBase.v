(* Tokenizer and METIS parser on texts of the specified form. *)
From Verif Require Import Lib.Prelude Spec.Graph Spec.TextFormat Model.VarintModel Model.IoTextModel.
Local Open Scope Z_scope.

Definition stops (p : Z -> bool) (r : list Z) : Prop := match r with b :: _ => p b = false | [] => True end.
Definition spc (b : Z) : bool := b =? ch_sp.
(** What may follow the numbers of a line. *)
Definition eol (r : list Z) : Prop := r = [] \/ exists t, r = newline :: t.

Lemma digit_is b : digit b -> is_digit b = true.
Proof. unfold digit, is_digit. lia. Qed.
Lemma digit_not_sp b : digit b -> spc b = false.
Proof. unfold digit, spc, ch_sp. lia. Qed.
Lemma eol_stops_digit r : eol r -> stops is_digit r.
Proof. intros [->|[t ->]]; cbn; auto. Qed.
Lemma eol_stops_sp r : eol r -> stops spc r.
Proof. intros [->|[t ->]]; cbn; auto. Qed.

Lemma skip_spaces_stop r : stops spc r -> skip_spaces r = r.
Proof. destruct r as [|b t]; cbn; auto. unfold spc. intros ->. auto. Qed.
Lemma skip_spaces_app k r : stops spc r -> skip_spaces (spaces k ++ r) = r.
Proof. intros H. induction k; [now apply skip_spaces_stop|]. cbn [spaces repeat app skip_spaces]. exact IHk. Qed.
Lemma skip_line_app body r : ~ In newline body -> skip_line (body ++ newline :: r) = r.
Proof.
  induction body as [|b t IH]; intros H; cbn [app skip_line]; [reflexivity|].
  unfold ch_nl. destruct (Z.eqb_spec b 10) as [E|E]; [exfalso; apply H; left; exact E|]. apply IH. intros Hi. apply H. right. exact Hi.
Qed.

Lemma dfold_ge : forall d a, Forall digit d -> 0 <= a -> a <= fold_left (fun a d => 10 * a + (d - 48)) d a.
Proof.
  induction d as [|b t IH]; intros a H Ha; cbn [fold_left]; [lia|]. inversion_clear H as [|? ? Hb Ht]. unfold digit in Hb.
  etransitivity; [|apply IH; auto; lia]. lia.
Qed.
Lemma scan_digits_ok : forall d a r, Forall digit d -> 0 <= a -> stops is_digit r ->
  fold_left (fun a d => 10 * a + (d - 48)) d a < 2 ^ 64 ->
  scan_digits a (d ++ r) = (fold_left (fun a d => 10 * a + (d - 48)) d a, r).
Proof.
  induction d as [|b t IH]; intros a r H Ha Hr Hv; cbn [fold_left app] in *.
  - destruct r as [|x r]; auto. cbn in *. now rewrite Hr.
  - inversion_clear H as [|? ? Hb Ht]. cbn [scan_digits]. rewrite (digit_is b Hb).
    unfold digit in Hb. pose proof (dfold_ge t (10 * a + (b - 48)) Ht ltac:(lia)) as G.
    unfold wrap_u, ch_0. replace (a * 10 + (b - 48)) with (10 * a + (b - 48)) by ring.
    rewrite (Z.mod_small (10 * a + (b - 48))) by lia. apply IH; auto; lia.
Qed.
Lemma scan_ok v d k r : decimal v d -> v < 2 ^ 64 -> stops spc r -> (stops is_digit r \/ k <> 0%nat) ->
  scan_uint (d ++ spaces k ++ r) = Ok (v, r).
Proof.
  intros (Hn & Hd & Hv) Hlt Hs Hk. unfold scan_uint. destruct d as [|b t]; [congruence|]. cbn [app].
  inversion Hd as [|? ? Hb Ht]; subst. rewrite (digit_is b Hb). change (b :: t ++ spaces k ++ r) with ((b :: t) ++ (spaces k ++ r)).
  rewrite scan_digits_ok; auto; try lia.
  - now rewrite skip_spaces_app.
  - destruct k as [|k]; [|reflexivity]. destruct Hk as [Hk|Hk]; [exact Hk|congruence].
Qed.

(** The first number of a sequence of numbers. *)
Lemma decimal_head v d : decimal v d -> exists b t, d = b :: t /\ digit b.
Proof. intros (Hn & Hd & _). destruct d as [|b t]; [congruence|]. inversion Hd; subst. eauto. Qed.
Lemma numbers_head v vs t : numbers (v :: vs) t -> exists b t', t = b :: t' /\ digit b.
Proof.
  intros H. inversion H; subst; match goal with H : decimal _ _ |- _ => destruct (decimal_head _ _ H) as (b & t' & -> & Hb) end; cbn; eauto.
Qed.
Lemma scan_numbers v vs t r : numbers (v :: vs) t -> v < 2 ^ 64 -> eol r ->
  exists t', scan_uint (t ++ r) = Ok (v, t' ++ r) /\ numbers vs t' /\ (length t' < length t)%nat.
Proof.
  intros H Hv Hr. inversion H as [|? d k Hd|? d k v' vs' t0 Hd H0]; subst.
  - exists []. split; [|split; [constructor|]].
    + rewrite <- app_assoc. apply scan_ok; auto using eol_stops_digit, eol_stops_sp.
    + destruct (decimal_head _ _ Hd) as (b & d' & -> & _). cbn; lia.
  - exists t0. split; [|split; [exact H0|]].
    + rewrite <- !app_assoc. apply scan_ok; auto.
      destruct (numbers_head _ _ _ H0) as (b & d' & -> & Hb). cbn. now apply digit_not_sp.
    + destruct (decimal_head _ _ Hd) as (b & d' & -> & _). unfold spaces. rewrite !app_length, repeat_length. cbn [length]. lia.
Qed.
Lemma numbers_nonneg vs t : numbers vs t -> Forall (fun v => 0 <= v) vs.
Proof.
  assert (D : forall v d, decimal v d -> 0 <= v) by (intros v d (_ & Hd & <-); apply dfold_ge; auto; lia).
  induction 1; constructor; eauto.
Qed.

Section Parse.
Variable c : ioconf.
Variable len : Z.
Hypothesis Hpage : len mod io_page c <> 0.

Lemma current_ok r : exists b, current c len r = Ok b /\ match r with x :: _ => b = x | [] => b = 0 end.
Proof. destruct r as [|x r]; cbn; [|eauto]. destruct (Z.eqb_spec (len mod io_page c) 0); [contradiction|eauto]. Qed.

(** Bodies of lines: what comes after comments and indentation. *)
Definition starts (r : list Z) : Prop := match r with b :: _ => b <> ch_sp /\ b <> ch_pct | [] => True end.
Lemma starts_stop r : starts r -> stops spc r.
Proof. destruct r as [|b t]; cbn; auto. unfold spc. intros [H _]. now apply Z.eqb_neq. Qed.
Lemma numbers_starts vs t r : numbers vs t -> eol r -> starts (t ++ r).
Proof.
  intros H Hr. destruct vs as [|v vs].
  - inversion H; subst. cbn. destruct Hr as [->|[t ->]]; cbn; auto. unfold newline, ch_sp, ch_pct. lia.
  - destruct (numbers_head _ _ _ H) as (b & t' & -> & Hb). cbn. unfold digit in Hb. unfold ch_sp, ch_pct. lia.
Qed.

Lemma skip_comments_body fuel r : starts r -> skip_comments c len fuel r = Ok r.
Proof.
  intros H. destruct (current_ok r) as (b & Eb & Hb). destruct fuel; cbn [skip_comments]; rewrite Eb; cbn [bind];
    (replace (b =? ch_pct) with false; [reflexivity|]; symmetry; apply Z.eqb_neq; destruct r; cbn in H; subst; [discriminate|tauto]).
Qed.
Lemma skip_comments_ok cs : comments cs -> forall k r fuel, starts r -> (length cs <= fuel)%nat ->
  skip_comments c len fuel (skip_spaces (cs ++ spaces k ++ r)) = Ok r.
Proof.
  induction 1 as [|k0 body t Hb Hc IH]; intros k r fuel Hr Hf.
  - cbn [app]. rewrite skip_spaces_app by now apply starts_stop. now apply skip_comments_body.
  - rewrite <- !app_assoc. cbn [app]. rewrite skip_spaces_app by reflexivity.
    destruct fuel as [|fuel]; [rewrite !app_length in Hf; cbn in Hf; lia|]. cbn [skip_comments current bind]. rewrite Z.eqb_refl.
    cbn [skip_line]. change (ch_pct =? ch_nl) with false. change (37 =? ch_nl) with false. cbv iota.
    rewrite skip_line_app by exact Hb. apply IH; auto. rewrite !app_length in Hf. cbn [length app] in Hf. lia.
Qed.
Lemma line_start vs t r : text_line vs t -> eol r -> exists body, numbers vs body /\
  skip_comments c len (length (t ++ r)) (skip_spaces (t ++ r)) = Ok (body ++ r).
Proof.
  intros (cs & k & body & Hc & Hn & ->) Hr. exists body. split; [exact Hn|]. rewrite <- !app_assoc.
  apply skip_comments_ok; auto. { eapply numbers_starts; eauto. } rewrite !app_length. lia.
Qed.

Lemma skip_trailing_ok : forall fuel r, (length r <= fuel)%nat -> exists r', skip_trailing c len fuel r = Ok r'.
Proof.
  assert (L : forall r, (length (skip_line r) <= length r - 1)%nat).
  { induction r as [|b t IH]; cbn [skip_line length]; [lia|]. destruct (b =? ch_nl); cbn; lia. }
  induction fuel as [|f IH]; intros r H; cbn [skip_trailing]; destruct (current_ok r) as (b & Eb & Hb); rewrite Eb; cbn [bind].
  - destruct r; [|cbn in H; lia]. subst b. change (0 =? ch_pct) with false. eauto.
  - destruct (b =? ch_pct) eqn:E; [|eauto]. apply IH. pose proof (L r). lia.
Qed.

Section Nodes.
Variable St : Type.
Variable h : metis_header.
Variable next_node : St -> Z -> res St.
Variable next_edge : St -> Z -> Z -> res St.

Fixpoint do_edges (s : St) (l : list (nat * Z)) : res St :=
  match l with [] => Ok s | (v, w) :: t => bind (next_edge s w (Z.of_nat v)) (fun s => do_edges s t) end.
Fixpoint do_nodes (s : St) (l : list (Z * list (nat * Z))) : res St :=
  match l with
  | [] => Ok s
  | (w, adj) :: t => bind (next_node s w) (fun s => bind (do_edges s adj) (fun s => do_nodes s t))
  end.

Definition edge_ok (u : Z) (e : nat * Z) : Prop :=
  Z.of_nat (fst e) < mh_n h /\ Z.of_nat (fst e) <> u /\ 1 <= snd e < 2 ^ (io_ww c - 1) /\ (mh_ew h = false -> snd e = 1).
Hypothesis Hn : mh_n h < 2 ^ 64.
Hypothesis Hww : io_ww c <= 64.

Lemma pow_ww : 2 ^ (io_ww c - 1) < 2 ^ 64.
Proof. apply Z.pow_lt_mono_r; lia. Qed.

Lemma parse_edges_ok : forall adj u t r s fuel, Forall (edge_ok u) adj ->
  numbers (concat (map (fun e => (Z.of_nat (fst e) + 1) :: (if mh_ew h then [snd e] else [])) adj)) t -> eol r -> (length t <= fuel)%nat ->
  parse_edges c len St h next_edge fuel u (t ++ r) s = bind (do_edges s adj) (fun s => Ok (r, s)).
Proof.
  pose proof pow_ww as Pw.
  induction adj as [|[v w] adj IH]; intros u t r s fuel Ha Hnum Hr Hf.
  - cbn [map concat] in Hnum. inversion Hnum; subst. cbn [app do_edges bind].
    assert (E : exists b, current c len r = Ok b /\ is_digit b = false).
    { destruct (current_ok r) as (b & Eb & Hb). exists b. split; [exact Eb|]. destruct Hr as [->|[t ->]]; subst; reflexivity. }
    destruct E as (b & Eb & Hb). destruct fuel; cbn [parse_edges]; rewrite Eb; cbn [bind]; rewrite Hb; reflexivity.
  - inversion_clear Ha as [|? ? H0 Ha']. destruct H0 as (H1 & H2 & H3 & H4). cbn [fst snd] in *.
    cbn [map concat fst snd app] in Hnum.
    assert (Hhd := numbers_head _ _ _ Hnum). destruct Hhd as (b & t1 & Et & Hb).
    destruct (scan_numbers _ _ _ r Hnum ltac:(lia) Hr) as (t2 & E2 & N2 & L2).
    destruct fuel as [|fuel]; [lia|]. cbn [parse_edges]. rewrite Et at 1. cbn [app current bind]. rewrite (digit_is b Hb).
    rewrite E2. cbn [bind]. replace (wrap_u 64 (Z.of_nat v + 1 - 1)) with (Z.of_nat v)
      by (unfold wrap_u; rewrite Z.mod_small; lia).
    destruct (mh_ew h) eqn:Ew.
    + cbn [app] in N2. destruct (scan_numbers _ _ _ r N2 ltac:(lia) Hr) as (t3 & E3 & N3 & L3).
      rewrite E3. cbn [bind]. unfold kassert. replace (w <=? 2 ^ (io_ww c - 1) - 1) with true by lia. replace (0 <? w) with true by lia.
      cbn [bind]. replace (Z.of_nat v <? mh_n h) with true by lia. replace (u =? Z.of_nat v) with false by lia. cbn [negb].
      cbn [do_edges]. destruct (next_edge s w (Z.of_nat v)); cbn [bind]; auto. apply IH; auto; lia.
    + cbn [app] in N2. cbn [bind]. unfold kassert. rewrite (H4 eq_refl).
      replace (Z.of_nat v <? mh_n h) with true by lia. replace (u =? Z.of_nat v) with false by lia. cbn [negb].
      cbn [do_edges]. destruct (next_edge s 1 (Z.of_nat v)); cbn [bind]; auto. apply IH; auto; lia.
Qed.

Definition node_ok (u : Z) (x : Z * list (nat * Z)) : Prop :=
  1 <= fst x < 2 ^ (io_ww c - 1) /\ (mh_nw h = false -> fst x = 1) /\ Forall (edge_ok u) (snd x).

(** The text of the remaining lines: all end with a newline, except possibly the last. *)
Inductive node_lines : list (Z * list (nat * Z)) -> list Z -> list Z -> Prop :=
| nl_nil : forall rest, node_lines [] rest rest
| nl_cons : forall w adj l t text rest, text_line (node_numbers (mh_nw h) (mh_ew h) w adj) t -> node_lines l text rest ->
    node_lines ((w, adj) :: l) (t ++ newline :: text) rest
| nl_last : forall w adj t, text_line (node_numbers (mh_nw h) (mh_ew h) w adj) t -> node_lines [(w, adj)] t [].

Lemma parse_node_body u w adj t r s :
  node_ok u (w, adj) -> text_line (node_numbers (mh_nw h) (mh_ew h) w adj) t -> eol r ->
  forall (B : Type) (k : list Z * St -> res B),
  bind (skip_comments c len (length (t ++ r)) (skip_spaces (t ++ r))) (fun r =>
  bind (if mh_nw h then bind (scan_uint r) (fun p => let '(w, r) := p in
          kassert (w <=? 2 ^ (io_ww c - 1) - 1) (kassert (0 <? w) (Ok (w, r)))) else Ok (1, r)) (fun p => let '(w, r) := p in
  bind (next_node s w) (fun s => bind (parse_edges c len St h next_edge (length r) u r s) k))) =
  bind (next_node s w) (fun s => bind (do_edges s adj) (fun s => k (r, s))).
Proof.
  intros (H1 & H2 & H3) Ht Hr B k. cbn [fst snd] in *. pose proof pow_ww as Pw.
  destruct (line_start _ _ r Ht Hr) as (body & Hb & E). rewrite E. cbn [bind]. unfold node_numbers in Hb.
  destruct (mh_nw h) eqn:En.
  - cbn [app] in Hb. destruct (scan_numbers _ _ _ r Hb ltac:(lia) Hr) as (t2 & E2 & N2 & L2). rewrite E2. cbn [bind]. unfold kassert.
    replace (w <=? 2 ^ (io_ww c - 1) - 1) with true by lia. replace (0 <? w) with true by lia. cbn [bind].
    destruct (next_node s w) as [s'| | | |]; cbn [bind]; auto.
    rewrite (parse_edges_ok adj u t2 r s' (length (t2 ++ r)) H3 N2 Hr) by (rewrite app_length; lia).
    destruct (do_edges s' adj); reflexivity.
  - cbn [app] in Hb. cbn [bind]. rewrite (H2 eq_refl).
    destruct (next_node s 1) as [s'| | | |]; cbn [bind]; auto.
    rewrite (parse_edges_ok adj u body r s' (length (body ++ r)) H3 Hb Hr) by (rewrite app_length; lia).
    destruct (do_edges s' adj); reflexivity.
Qed.

Lemma bind_ok {A} (x : res A) : bind x Ok = x.
Proof. destruct x; reflexivity. Qed.
Lemma bind_ext {A B} (x : res A) (f g : A -> res B) : (forall a, f a = g a) -> bind x f = bind x g.
Proof. intros H. destruct x; cbn; auto. Qed.
Lemma bind_assoc {A B C} (x : res A) (f : A -> res B) (g : B -> res C) : bind (bind x f) g = bind x (fun a => bind (f a) g).
Proof. destruct x; reflexivity. Qed.

Lemma parse_nodes_ok : forall l text rest, node_lines l text rest -> forall u s,
  (forall i, (i < length l)%nat -> node_ok (u + Z.of_nat i) (nth i l (0, []))) ->
  parse_nodes c len St h next_node next_edge (length l) u text s = bind (do_nodes s l) (fun s => Ok (rest, s)).
Proof.
  induction 1 as [rest|w adj l t text rest Ht Hl IH|w adj t Ht]; intros u s Hok.
  - reflexivity.
  - cbn [length parse_nodes do_nodes].
    assert (H0 : node_ok u (w, adj)). { specialize (Hok 0%nat ltac:(cbn; lia)). cbn [nth] in Hok. now rewrite Z.add_0_r in Hok. }
    etransitivity; [exact (parse_node_body u w adj t (newline :: text) s H0 Ht (or_intror (ex_intro _ text eq_refl)) _ _)|].
    rewrite !bind_assoc. apply bind_ext. intros s1. rewrite !bind_assoc. apply bind_ext. intros s2. cbn [consume_char bind].
    change (newline =? ch_nl) with true. cbv iota. cbn [bind]. apply IH.
    intros i Hi. replace (u + 1 + Z.of_nat i) with (u + Z.of_nat (S i)) by lia.
    exact (Hok (S i) ltac:(cbn; lia)).
  - cbn [length parse_nodes do_nodes].
    assert (H0 : node_ok u (w, adj)). { specialize (Hok 0%nat ltac:(cbn; lia)). cbn [nth] in Hok. now rewrite Z.add_0_r in Hok. }
    pose proof (parse_node_body u w adj t [] s H0 Ht (or_introl eq_refl)) as G.
    rewrite app_nil_r in G. etransitivity; [exact (G _ _)|].
    rewrite !bind_assoc. apply bind_ext. intros s1. rewrite !bind_assoc. apply bind_ext. intros s2. reflexivity.
Qed.
End Nodes.

Lemma parse_graph_ok (St : Type) h (next_node : St -> Z -> res St) next_edge l text rest s :
  mh_n h < 2 ^ 64 -> io_ww c <= 64 -> mh_n h = Z.of_nat (length l) -> node_lines h l text rest ->
  (forall i, (i < length l)%nat -> node_ok h (Z.of_nat i) (nth i l (0, []))) ->
  parse_graph c len St h next_node next_edge text s = do_nodes St next_node next_edge s l.
Proof.
  intros Hn Hww E Hl Hok. unfold parse_graph. rewrite E, Nat2Z.id.
  rewrite (parse_nodes_ok St h next_node next_edge Hn Hww l text rest Hl 0 s Hok), bind_assoc.
  etransitivity; [|apply bind_ok]. apply bind_ext. intros s'. cbn [bind].
  destruct (skip_trailing_ok (length rest) rest (le_n _)) as (r' & ->). reflexivity.
Qed.

(** The header. *)
Lemma parse_header_ok n m fmt vs hd r :
  vs = [n; m; fmt] \/ fmt = 0 /\ vs = [n; m] -> text_line vs hd ->
  0 <= n <= 2 ^ 32 -> n < 2 ^ io_wn c -> io_wn c <= 64 -> 0 <= m < 2 ^ io_wi c -> io_wi c <= 64 -> m <= n * (n - 1) / 2 -> 0 <= fmt < 100 ->
  parse_header c len (hd ++ newline :: r) =
  Ok ({| mh_n := n; mh_m := m; mh_nw := negb (fmt / 10 =? 0); mh_ew := negb (fmt mod 10 =? 0) |}, r).
Proof.
  intros Hvs Hl Hn Hn' Hwn Hm Hwi Hm2 Hf. unfold parse_header.
  assert (He : eol (newline :: r)) by (right; eauto).
  destruct (line_start _ _ _ Hl He) as (body & Hb & E). rewrite E. cbn [bind]. clear E.
  assert (P1 : 2 ^ io_wi c <= 2 ^ 64) by (apply Z.pow_le_mono_r; lia).
  assert (K : kassert (n <=? 2 ^ io_wn c - 1) (kassert (m <=? 2 ^ io_wi c - 1) (kassert (m <=? wrap_u 64 (n * wrap_u 64 (n - 1)) / 2)
     (Ok ({| mh_n := n; mh_m := m; mh_nw := negb ((fmt mod 100) / 10 =? 0); mh_ew := negb (fmt mod 10 =? 0) |}, r)))) =
     Ok ({| mh_n := n; mh_m := m; mh_nw := negb (fmt / 10 =? 0); mh_ew := negb (fmt mod 10 =? 0) |}, r)).
  { unfold kassert. replace (n <=? 2 ^ io_wn c - 1) with true by lia. replace (m <=? 2 ^ io_wi c - 1) with true by lia.
    replace (m <=? wrap_u 64 (n * wrap_u 64 (n - 1)) / 2) with true.
    { rewrite (Z.mod_small fmt 100) by lia. reflexivity. }
    symmetry. apply Z.leb_le. unfold wrap_u. destruct (Z.eq_dec n 0) as [->|]; [cbn; cbn in Hm2; lia|].
    rewrite (Z.mod_small (n - 1)) by lia. rewrite Z.mod_small; [exact Hm2|]. change (2 ^ 64) with (2 ^ 32 * 2 ^ 32). nia. }
  destruct Hvs as [->|[-> ->]].
  - destruct (scan_numbers _ _ _ _ Hb ltac:(lia) He) as (t1 & E1 & N1 & _). rewrite E1. cbn [bind].
    destruct (scan_numbers _ _ _ _ N1 ltac:(lia) He) as (t2 & E2 & N2 & _). rewrite E2. cbn [bind].
    destruct (numbers_head _ _ _ N2) as (b & t3 & Et & Hdig).
    assert (Ec : current c len (t2 ++ newline :: r) = Ok b) by (rewrite Et; reflexivity). rewrite Ec. cbn [bind].
    replace (b =? ch_nl) with false by (unfold digit in Hdig; unfold ch_nl; lia). cbn [negb].
    destruct (scan_numbers _ _ _ _ N2 ltac:(lia) He) as (t4 & E4 & N4 & _). rewrite E4. cbn [bind]. inversion N4; subst. cbn [app consume_char bind].
    change (newline =? ch_nl) with true. cbv iota. cbn [bind]. exact K.
  - destruct (scan_numbers _ _ _ _ Hb ltac:(lia) He) as (t1 & E1 & N1 & _). rewrite E1. cbn [bind].
    destruct (scan_numbers _ _ _ _ N1 ltac:(lia) He) as (t2 & E2 & N2 & _). rewrite E2. cbn [bind]. inversion N2; subst. cbn [app current bind].
    change (newline =? ch_nl) with true. cbn [negb consume_char bind]. change (newline =? ch_nl) with true. cbv iota. cbn [bind]. exact K.
Qed.
End Parse.
