(* Text files: round trips and counterexamples. *)
From Coq Require Import Sorting.Sorted.
From Verif Require Import Lib.Prelude Lib.Slice Lib.Count Spec.Graph Spec.Gain Spec.TextFormat Spec.IoBuild Model.VarintModel Model.CompressModel
  Model.CompressedGraphModel Model.CsrModel Model.IoTextModel Proofs.CsrProofs Proofs.SubgraphBase Proofs.IoTextBase Proofs.IoTextMetis
  Proofs.IoTextTop.
Local Open Scope Z_scope.

(** Simple undirected graphs have an even number of directed edges, at most n (n - 1). *)
Section Even.
Variable g : graph.
Hypothesis Hcl : closed_graph g.
Hypothesis Hun : undirected g.
Hypothesis Hsi : simple_graph g.
Hypothesis Hpo : positive_edges g.

Definition nb (u v : nat) : Z := if in_dec Nat.eq_dec v (map fst (gadj g u)) then 1 else 0.
Lemma nb_conn u v : (u < gn g)%nat -> (In v (map fst (gadj g u)) <-> 0 < conn g u v).
Proof.
  intros Hu. unfold conn. assert (P : forall v w, In (v, w) (gadj g u) -> 0 < w) by (intros; eapply Hpo; eauto).
  revert P. generalize (gadj g u) as l. induction l as [|[x w] l IH]; intros P; cbn [map filter fst In]; [cbn; lia|].
  assert (Q : forall l', (forall v w, In (v, w) l' -> 0 < w) -> 0 <= zsum (map snd (filter (fun e : nat * Z => (fst e =? v)%nat) l'))).
  { intros l' H. apply zsum_nonneg. intros y Hy. apply in_map_iff in Hy. destruct Hy as ([a b] & <- & Hy). apply filter_In in Hy.
    cbn. pose proof (H a b (proj1 Hy)). lia. }
  specialize (IH (fun v w H => P v w (or_intror H))). specialize (Q l (fun v w H => P v w (or_intror H))).
  destruct (Nat.eqb_spec x v) as [E|E].
  - cbn [map snd]. change (zsum (w :: ?a)) with (w + zsum a). pose proof (P x w (or_introl eq_refl)).
    split; [intros _; cbn; lia|intros _; left; exact E].
  - rewrite <- IH. split; [intros [H|H]; [congruence|exact H]|right; assumption].
Qed.
Lemma nb_sym u v : (u < gn g)%nat -> (v < gn g)%nat -> nb u v = nb v u.
Proof.
  intros Hu Hv. unfold nb. pose proof (nb_conn u v Hu) as A. pose proof (nb_conn v u Hv) as B. rewrite (Hun u v Hu Hv) in A.
  destruct (in_dec Nat.eq_dec v (map fst (gadj g u))), (in_dec Nat.eq_dec u (map fst (gadj g v))); tauto.
Qed.
Lemma nb_len u : (u < gn g)%nat -> Z.of_nat (length (gadj g u)) = sumn (gn g) (nb u).
Proof.
  intros Hu. destruct (Hsi u Hu) as [Nd _]. assert (C : forall v, In v (map fst (gadj g u)) -> (v < gn g)%nat).
  { intros v Hv. apply in_map_iff in Hv. destruct Hv as ([a w] & <- & Hv). eapply Hcl; eauto. }
  unfold nb. rewrite <- (map_length fst (gadj g u)). revert Nd C. generalize (map fst (gadj g u)) as l.
  induction l as [|a l IH]; intros Nd C.
  - cbn [length]. symmetry. apply sumn_zero_ext. intros i _. destruct (in_dec Nat.eq_dec i []) as [[]|]; reflexivity.
  - inversion_clear Nd as [|? ? Na Nl]. cbn [length]. rewrite Nat2Z.inj_succ. rewrite IH by (auto; intros; apply C; right; auto).
    rewrite (sumn_change (gn g) a (fun v => if in_dec Nat.eq_dec v (a :: l) then 1 else 0) (fun v => if in_dec Nat.eq_dec v l then 1 else 0)).
    + destruct (in_dec Nat.eq_dec a (a :: l)) as [_|H]; [|exfalso; apply H; left; auto]. destruct (in_dec Nat.eq_dec a l); [contradiction|lia].
    + apply C; left; auto.
    + intros i Hi Ne. destruct (in_dec Nat.eq_dec i (a :: l)) as [[H|H]|H], (in_dec Nat.eq_dec i l); try congruence; try contradiction.
      exfalso; apply H; right; auto.
Qed.
Lemma nb_diag u : (u < gn g)%nat -> nb u u = 0.
Proof. intros Hu. unfold nb. destruct (in_dec Nat.eq_dec u (map fst (gadj g u))) as [H|]; [exfalso; apply (proj2 (Hsi u Hu)); exact H|reflexivity]. Qed.
Lemma tri n (f : nat -> nat -> Z) : (forall i, (i < n)%nat -> f i i = 0) -> (forall i j, (i < n)%nat -> (j < n)%nat -> f i j = f j i) ->
  sumn n (fun i => sumn n (f i)) = 2 * sumn n (fun i => sumn i (f i)).
Proof.
  induction n as [|n IH]; intros D S; [reflexivity|]. rewrite !sumn_S, (D n) by lia.
  rewrite (sumn_ext n _ (fun i => sumn n (f i) + f i n)) by (intros; apply sumn_S). rewrite sumn_add, IH by (intros; auto with arith).
  rewrite (sumn_ext n (fun i => f i n) (f n)) by (intros; apply S; lia). lia.
Qed.
Lemma arcs_are_even : Z.even (num_arcs g) = true.
Proof.
  unfold num_arcs. rewrite (sumn_ext _ _ (fun u => sumn (gn g) (nb u))) by apply nb_len. rewrite tri by (try apply nb_diag; apply nb_sym).
  rewrite Z.even_mul. reflexivity.
Qed.
Lemma arcs_bound : num_arcs g <= Z.of_nat (gn g) * (Z.of_nat (gn g) - 1).
Proof.
  unfold num_arcs. rewrite (sumn_ext _ _ (fun u => sumn (gn g) (nb u))) by apply nb_len.
  rewrite Z.mul_comm, <- sumn_const. apply sumn_le. intros u Hu.
  assert (E : sumn (gn g) (nb u) <= sumn (gn g) (fun v => if (v =? u)%nat then 0 else 1)).
  { apply sumn_le. intros v Hv. destruct (Nat.eqb_spec v u) as [->|]; [rewrite nb_diag; lia|]. unfold nb. destruct (in_dec _ _ _); lia. }
  rewrite (sumn_change (gn g) u (fun v => if (v =? u)%nat then 0 else 1) (fun _ => 1) Hu) in E.
  - rewrite Nat.eqb_refl, sumn_const in E. lia.
  - intros i Hi Ne. destruct (Nat.eqb_spec i u); [contradiction|reflexivity].
Qed.
End Even.

Lemma same_arcs g h : same_graph g h -> num_arcs g = num_arcs h /\ arc_weight g = arc_weight h /\ total_weight g = total_weight h.
Proof.
  intros [E H]. unfold num_arcs, arc_weight, total_weight. rewrite <- E. split; [|split]; apply sumn_ext; intros u Hu; destruct (H u Hu) as [A B]; congruence.
Qed.
Lemma same_trans g h k : same_graph g h -> same_graph h k -> same_graph g k.
Proof. intros [E H] [E' H']. split; [congruence|]. intros u Hu. destruct (H u Hu) as [-> ->]. apply H'. congruence. Qed.

Lemma csr_arcs xadj adjncy vw ew : wf_csr xadj adjncy vw ew -> num_arcs (user_graph xadj adjncy vw ew) = Z.of_nat (length adjncy).
Proof.
  intros (H1 & H2 & H3 & H4 & _). unfold num_arcs. cbn [user_graph gn gadj].
  rewrite (sumn_ext _ _ (fun u => Z.of_nat (nth (S u) xadj 0%nat) - Z.of_nat (nth u xadj 0%nat))).
  2:{ intros u Hu. rewrite map_length, seq_length. specialize (H3 u ltac:(lia)). lia. }
  assert (T : forall n, sumn n (fun u => Z.of_nat (nth (S u) xadj 0%nat) - Z.of_nat (nth u xadj 0%nat)) = Z.of_nat (nth n xadj 0%nat) - Z.of_nat (nth 0 xadj 0%nat)).
  { induction n as [|n IH]; [cbn; lia|]. rewrite sumn_S, IH. lia. }
  rewrite T, H2. rewrite <- H4. assert (L : forall (l : list nat), last l 0%nat = nth (length l - 1) l 0%nat).
  { induction l as [|a l IH]; [reflexivity|]. destruct l as [|b l]; [reflexivity|]. change (last (a :: b :: l) 0%nat) with (last (b :: l) 0%nat).
    rewrite IH. cbn [length]. replace (S (S (length l)) - 1)%nat with (S (S (length l) - 1)) by lia. reflexivity. }
  rewrite L. lia.
Qed.

Section RoundTrip.
Variable c : ioconf.
Variables (xadj adjncy : list nat) (vw ew : list Z).
Let g := user_graph xadj adjncy vw ew.
Variable dsorted : bool.
Let G := cg_make (sa_make xadj) adjncy (sa_make vw) ew dsorted.
Hypothesis Hc : build_ok c.
Hypothesis Hwf : wf_csr xadj adjncy vw ew.
Hypothesis Hv : forall x, In x vw -> 1 <= x.
Hypothesis He : forall x, In x ew -> 1 <= x.
Hypothesis Hun : undirected g.
Hypothesis Hsi : simple_graph g.
Hypothesis Hf : fits_build c g.

Lemma rt_same : same_graph (cg_graph G) g.
Proof. apply cg_make_faithful; auto; split; reflexivity. Qed.
Lemma rt_positive : positive_edges g.
Proof.
  intros u v w Hu Hi. cbn in Hi. apply in_map_iff in Hi. destruct Hi as (e & E & Hi). inversion E; subst. destruct ew as [|x t] eqn:Ee; [lia|].
  rewrite <- Ee in *. pose proof (wf_csr_range _ _ _ _ u Hwf Hu). apply in_seq in Hi. destruct Hwf as (_ & _ & _ & _ & _ & _ & [W|W]); [congruence|].
  assert (1 <= nth e ew 0); [|lia]. apply He, nth_In. lia.
Qed.
Lemma rt_nw u : (u < gn g)%nat -> 1 <= gvw g u.
Proof.
  intros Hu. cbn. destruct vw as [|x t] eqn:Ee; [lia|]. rewrite <- Ee in *. apply Hv, nth_In. destruct Hwf as (_ & _ & _ & _ & _ & [W|W] & _); [congruence|].
  cbn in Hu. lia.
Qed.
Lemma rt_m : Z.of_nat (cg_m G) = num_arcs (cg_graph G).
Proof. rewrite (proj1 (same_arcs _ _ rt_same)). symmetry. apply csr_arcs. exact Hwf. Qed.

Lemma rt_expressible : expressible (cg_graph G) (cg_is_node_weighted G) (cg_is_edge_weighted G).
Proof.
  pose proof rt_same as S. destruct S as [En S]. pose proof rt_positive as Po. pose proof (user_graph_closed _ _ _ _ Hwf) as Cl. fold g in Cl.
  destruct (same_arcs _ _ rt_same) as (A & _ & _).
  split; [|split; [|split]].
  - intros u v w Hu Hi. pose proof Hi as Hi0. rewrite En in *. destruct (S u ltac:(congruence)) as [Sa _]. rewrite Sa in Hi.
    split; [eapply Cl; eauto|]. split.
    { intros ->. apply (proj2 (Hsi u Hu)). apply in_map_iff. exists (u, w). auto. }
    split. { pose proof (Po u v w Hu Hi). lia. }
    intros E. cbn in Hi0. unfold cg_adjacent_nodes in Hi0. apply in_map_iff in Hi0. destruct Hi0 as (e & E2 & _). inversion E2.
    unfold cg_edge_weight. now rewrite E.
  - intros u Hu. split.
    + destruct (S u Hu) as [_ ->]. apply rt_nw. congruence.
    + intros E. cbn. unfold cg_node_weight. now rewrite E.
  - rewrite A. apply arcs_are_even; auto.
  - rewrite A, En. apply arcs_bound; auto.
Qed.
Lemma rt_fits : fits_build c (cg_graph G).
Proof. destruct rt_same as [En S]. destruct (same_arcs _ _ rt_same) as (A & B & C). unfold fits_build. rewrite A, B, C, En. exact Hf. Qed.
Lemma rt_text : metis_text (cg_graph G) (cg_is_node_weighted G) (cg_is_edge_weighted G) (metis_write c G).
Proof.
  destruct rt_expressible as (E1 & E2 & _). apply write_ok.
  - intros u v w Hu Hi. destruct (E1 u v w Hu Hi) as (? & _ & ? & _). auto.
  - intros u Hu. apply E2; auto.
  - apply rt_fits.
  - apply rt_m.
Qed.
Lemma metis_round_trip sorted : Z.of_nat (length (metis_write c G)) mod io_page c <> 0 ->
  exists h, metis_csr_read c (metis_write c G) sorted = Ok h /\ same_graph (cg_graph h) g /\ cg_sorted h = sorted.
Proof.
  intros Hp. destruct (csr_read_ok c (cg_graph G) _ _ _ Hc rt_expressible rt_fits rt_text Hp sorted) as (h & E & S & _ & Q).
  exists h. split; [exact E|]. split; [eapply same_trans; [exact S|apply rt_same]|exact Q].
Qed.
End RoundTrip.

(** One number per line. *)
Lemma read_lines_ok w vs : forall text fuel, number_lines vs text -> Forall (fun v => 0 <= v < 2 ^ w) vs -> w <= 64 -> (length text <= fuel)%nat ->
  read_lines w fuel text = Ok vs.
Proof.
  assert (P : w <= 64 -> 2 ^ w <= 2 ^ 64) by (intros; apply Z.pow_le_mono_r; lia).
  induction vs as [|v vs IH]; intros text fuel (lines & F & ->) B Hw Hf; inversion F as [|? l ? ls (d & k & Hd & ->) F']; subst.
  - destruct fuel; reflexivity.
  - cbn [concat] in *. inversion_clear B as [|? ? Bv Bs]. rewrite <- !app_assoc in *. cbn [app] in *.
    destruct (decimal_head _ _ Hd) as (b & t & Ed & _).
    destruct fuel as [|f]; [rewrite !app_length in Hf; subst d; cbn in Hf; lia|]. cbn [read_lines].
    assert (Sc : scan_uint (d ++ spaces k ++ newline :: concat ls) = Ok (v, newline :: concat ls)).
    { apply scan_ok; auto; [specialize (P Hw); lia|reflexivity|left; reflexivity]. }
    assert (Ne : exists x y, d ++ spaces k ++ newline :: concat ls = x :: y) by (subst d; cbn; eauto).
    destruct Ne as (x & y & Ne). rewrite Ne in *. rewrite Sc. cbn [bind consume_char]. change (newline =? ch_nl) with true. cbn [bind].
    rewrite IH; auto.
    + cbn [bind]. rewrite wrap_u_small by lia. reflexivity.
    + exists ls. auto.
    + apply (f_equal (@length Z)) in Ne. rewrite !app_length in Ne. cbn [length] in *. subst d. cbn [length] in *. lia.
Qed.
Lemma write_lines_ok vs : Forall (fun v => 0 <= v) vs -> number_lines vs (write_lines vs).
Proof.
  intros H. exists (map (fun b => dec b ++ [ch_nl]) vs). split; [|reflexivity].
  induction H as [|v vs Hv H IH]; [constructor|]. cbn [map]. constructor; [|exact IH]. exists (dec v), 0%nat. split; [apply dec_ok; auto|reflexivity].
Qed.
Lemma number_lines_ne v vs text : number_lines (v :: vs) text -> text <> [].
Proof.
  intros (ls & F & ->). inversion F as [|? l ? ls' (d & k & Hd & ->)]; subst. destruct (decimal_head _ _ Hd) as (b & t & -> & _). cbn. discriminate.
Qed.
Lemma partition_read_ok p text : p <> [] -> number_lines p text -> Forall (fun v => 0 <= v < 2 ^ 32) p -> partition_read text = Ok p.
Proof.
  intros Hn Ht Hb. unfold partition_read. destruct p as [|v p]; [congruence|]. pose proof (number_lines_ne _ _ _ Ht) as Ne.
  destruct text as [|b t] eqn:E; [congruence|]. cbn [map_file bind]. apply read_lines_ok; auto; lia.
Qed.
Lemma partition_round_trip p : p <> [] -> Forall (fun v => 0 <= v < 2 ^ 32) p -> partition_read (partition_write p) = Ok p.
Proof.
  intros Hn Hb. apply partition_read_ok; auto. apply write_lines_ok. eapply Forall_impl; [|exact Hb]. cbn. lia.
Qed.

(** Block sizes. *)
Definition occ (p : list Z) (b : nat) : Z := Z.of_nat (cnt (fun x => x =? Z.of_nat b) p).
Lemma count_blocks_ok wn k : forall p sizes, Forall (fun b => 0 <= b < Z.of_nat k) p -> length sizes = k ->
  (forall b, (b < k)%nat -> 0 <= nth b sizes 0 /\ nth b sizes 0 + Z.of_nat (length p) < 2 ^ wn) ->
  exists s, count_blocks wn p sizes = Ok s /\ length s = k /\ forall b, (b < k)%nat -> nth b s 0 = nth b sizes 0 + occ p b.
Proof.
  induction p as [|x p IH]; intros sizes F L B; cbn [count_blocks].
  - exists sizes. split; [reflexivity|]. split; [exact L|]. intros b Hb. unfold occ. cbn. lia.
  - inversion_clear F as [|? ? Fx Fp]. assert (Hx : (Z.to_nat x < length sizes)%nat) by lia.
    rewrite (nth_error_nth' sizes 0 Hx).
    pose proof (B (Z.to_nat x) ltac:(lia)) as Bx. cbn [length] in *.
    rewrite wrap_u_small by lia.
    destruct (IH (upd (Z.to_nat x) (nth (Z.to_nat x) sizes 0 + 1) sizes) Fp) as (s & E & Ls & Hs).
    + rewrite upd_length; exact L.
    + intros b Hb. pose proof (B b Hb). destruct (Nat.eq_dec (Z.to_nat x) b) as [<-|Ne]; [rewrite upd_nth_same by exact Hx; lia|rewrite upd_nth_other by lia; lia].
    + exists s. split; [exact E|]. split; [exact Ls|]. intros b Hb. rewrite Hs by exact Hb. unfold occ. rewrite cnt_cons.
      destruct (Nat.eq_dec (Z.to_nat x) b) as [<-|Ne].
      * rewrite upd_nth_same by exact Hx. rewrite Z2Nat.id, Z.eqb_refl by lia. lia.
      * rewrite upd_nth_other by lia. replace (x =? Z.of_nat b) with false by lia. lia.
Qed.
Lemma fill_blocks_ok : forall sizes b rest, Forall (fun x => 0 <= x) sizes -> rest = zsum sizes -> 0 <= b -> b + Z.of_nat (length sizes) < 2 ^ 32 ->
  fill_blocks b sizes rest = Ok (concat (map (fun i => repeat (b + Z.of_nat i) (Z.to_nat (nth i sizes 0))) (seq 0 (length sizes)))).
Proof.
  induction sizes as [|x l IH]; intros b rest F E Hb Hk; cbn [fill_blocks].
  - subst rest. reflexivity.
  - inversion_clear F as [|? ? Fx Fl]. change (zsum (x :: l)) with (x + zsum l) in E.
    assert (0 <= zsum l) by (apply zsum_nonneg; apply Forall_forall; exact Fl).
    replace (x <=? rest) with true by lia. cbn [length] in Hk. rewrite wrap_u_small by lia. rewrite IH by (auto; lia). cbn [bind length seq map concat nth].
    rewrite Z.add_0_r. do 2 f_equal. f_equal. rewrite <- seq_shift, map_map. apply map_ext. intros i. f_equal. lia.
Qed.
(** The labels in sorted order: block after block. *)
Definition by_blocks (k : nat) (p : list Z) : list Z := concat (map (fun b => repeat (Z.of_nat b) (cnt (fun x => x =? Z.of_nat b) p)) (seq 0 k)).
Lemma occ_sum k p : Forall (fun b => 0 <= b < Z.of_nat k) p -> sumn k (occ p) = Z.of_nat (length p).
Proof.
  induction 1 as [|x p Hx Hp IH]; [apply sumn_zero|]. unfold occ in *. cbn [length].
  rewrite (sumn_ext k _ (fun b => Z.of_nat (cnt (fun y => y =? Z.of_nat b) p) + (if x =? Z.of_nat b then 1 else 0))).
  2:{ intros i _. rewrite cnt_cons. destruct (x =? Z.of_nat i); lia. }
  rewrite sumn_add, IH. rewrite (sumn_single k (Z.to_nat x)); [replace (x =? Z.of_nat (Z.to_nat x)) with true by lia; lia|lia|].
  intros i Hi Ne. replace (x =? Z.of_nat i) with false by lia. reflexivity.
Qed.
Lemma block_sizes_round_trip c k p : build_ok c -> (0 < k)%nat -> Z.of_nat k < 2 ^ 32 -> Forall (fun b => 0 <= b < Z.of_nat k) p ->
  Z.of_nat (length p) < 2 ^ 31 ->
  exists text, write_block_sizes c k p = Ok text /\ read_block_sizes c text = Ok (by_blocks k p).
Proof.
  intros (C1 & _) Hk Hk2 F Hn. unfold write_block_sizes.
  assert (P : 2 ^ 32 <= 2 ^ io_wn c) by (apply Z.pow_le_mono_r; lia).
  destruct (count_blocks_ok (io_wn c) k p (repeat 0 k) F (repeat_length _ _)) as (s & E & Ls & Hs).
  { intros b Hb. rewrite nth_repeat. lia. }
  rewrite E. cbn [bind]. eexists. split; [reflexivity|].
  assert (Hs' : forall b, (b < k)%nat -> nth b s 0 = occ p b) by (intros b Hb; rewrite Hs by exact Hb; rewrite nth_repeat; lia).
  assert (Sb : Forall (fun v => 0 <= v < 2 ^ 32) s).
  { apply Forall_forall. intros x Hx. apply (In_nth _ _ 0) in Hx. destruct Hx as (b & Hb & <-). rewrite Hs' by lia. unfold occ. pose proof (cnt_le (fun x => x =? Z.of_nat b) p). lia. }
  assert (Ew : map (wrap_u 32) s = s).
  { rewrite <- (map_id s) at 2. apply map_ext_in. intros x Hx. rewrite Forall_forall in Sb. apply wrap_u_small. apply Sb; exact Hx. }
  rewrite Ew. assert (W : number_lines s (write_lines s)) by (apply write_lines_ok; eapply Forall_impl; [|exact Sb]; cbn; lia).
  unfold read_block_sizes. assert (Ne : write_lines s <> []). { destruct s as [|x s0]; [cbn in Ls; lia|]. eapply number_lines_ne; exact W. }
  destruct (write_lines s) as [|b0 t0] eqn:Et; [congruence|]. cbn [map_file bind].
  rewrite (read_lines_ok (io_wn c) s (b0 :: t0) _ W) by (first [lia | eapply Forall_impl; [|exact Sb]; cbn; lia]). cbn [bind].
  assert (Zs : zsum s = Z.of_nat (length p)).
  { rewrite <- (occ_sum k p F), <- (sumn_list s), Ls. apply sumn_ext. exact Hs'. }
  assert (Ac : forall l a, Forall (fun v => 0 <= v) l -> 0 <= a -> a + zsum l < 2 ^ 31 -> fold_left (fun acc x => wrap_s 32 (acc + x)) l a = a + zsum l).
  { induction l as [|x l IH]; intros a Fl Ha Hl; cbn [fold_left]; [cbn; lia|]. inversion_clear Fl as [|? ? Fx Fl']. change (zsum (x :: l)) with (x + zsum l) in *.
    assert (0 <= zsum l) by (apply zsum_nonneg; apply Forall_forall; exact Fl').
    rewrite wrap_s_small by (change (32 - 1) with 31; lia). rewrite IH by (auto; lia). lia. }
  rewrite Ac by (first [lia | eapply Forall_impl; [|exact Sb]; cbn; lia]). rewrite Z.add_0_l, Zs, wrap_u_small by lia.
  rewrite fill_blocks_ok; [|eapply Forall_impl; [|exact Sb]; cbn; lia|auto|lia|lia]. unfold by_blocks. rewrite Ls. do 2 f_equal.
  apply map_ext_in. intros b Hb. apply in_seq in Hb. rewrite Z.add_0_l, Hs' by lia. unfold occ. now rewrite Nat2Z.id.
Qed.

(** by_blocks is the sorted permutation of [p]. *)
Lemma concat_repeat_sorted : forall k a (f : nat -> nat), StronglySorted Z.le (concat (map (fun b => repeat (Z.of_nat b) (f b)) (seq a k))) /\
  Forall (fun x => Z.of_nat a <= x) (concat (map (fun b => repeat (Z.of_nat b) (f b)) (seq a k))).
Proof.
  induction k as [|k IH]; intros a f; cbn [seq map concat]; [split; constructor|]. destruct (IH (S a) f) as [Hs Hf].
  split.
  - induction (f a) as [|n IHn]; cbn [repeat app]; [exact Hs|]. constructor; [exact IHn|]. apply Forall_app. split.
    + apply Forall_forall. intros x Hx. apply repeat_spec in Hx. subst. lia.
    + eapply Forall_impl; [|exact Hf]. cbn. lia.
  - apply Forall_app. split.
    + apply Forall_forall. intros x Hx. apply repeat_spec in Hx. subst. lia.
    + eapply Forall_impl; [|exact Hf]. cbn. lia.
Qed.
Lemma cnt_repeat_Z (q : Z -> bool) x n : cnt q (repeat x n) = if q x then n else 0%nat.
Proof. induction n as [|n IH]; [destruct (q x); reflexivity|]. cbn [repeat]. rewrite cnt_cons, IH. destruct (q x); lia. Qed.
Lemma by_blocks_perm k p : Forall (fun b => 0 <= b < Z.of_nat k) p -> Permutation (by_blocks k p) p.
Proof.
  unfold by_blocks. induction 1 as [|x p Hx Hp IH].
  - replace (concat _) with (@nil Z); [constructor|]. symmetry. induction (seq 0 k); cbn; auto.
  - etransitivity; [|apply perm_skip; exact IH].
    assert (S1 : seq 0 k = seq 0 (Z.to_nat x) ++ Z.to_nat x :: seq (S (Z.to_nat x)) (k - S (Z.to_nat x))).
    { replace k with (Z.to_nat x + S (k - S (Z.to_nat x)))%nat at 1 by lia. rewrite seq_app. reflexivity. }
    rewrite S1, !map_app, !concat_app. cbn [map concat].
    assert (Q : forall l, ~ In (Z.to_nat x) l -> map (fun b => repeat (Z.of_nat b) (cnt (fun y => y =? Z.of_nat b) (x :: p))) l =
                            map (fun b => repeat (Z.of_nat b) (cnt (fun y => y =? Z.of_nat b) p)) l).
    { intros l Hl. apply map_ext_in. intros b Hb. rewrite cnt_cons. replace (x =? Z.of_nat b) with false; [reflexivity|]. symmetry. apply Z.eqb_neq.
      intros E. apply Hl. rewrite E, Nat2Z.id. exact Hb. }
    rewrite !Q by (rewrite in_seq; lia). rewrite cnt_cons. rewrite Z2Nat.id, Z.eqb_refl by lia. cbn [Nat.add repeat app].
    symmetry. apply Permutation_middle.
Qed.

Lemma block_sizes_sorted c k p : build_ok c -> (0 < k)%nat -> Z.of_nat k < 2 ^ 32 ->
  Forall (fun b => 0 <= b < Z.of_nat k) p -> Z.of_nat (length p) < 2 ^ 31 ->
  exists text q, write_block_sizes c k p = Ok text /\ read_block_sizes c text = Ok q /\ Permutation q p /\ StronglySorted Z.le q.
Proof.
  intros H1 H2 H3 H4 H5. destruct (block_sizes_round_trip c k p H1 H2 H3 H4 H5) as (text & E1 & E2).
  exists text, (by_blocks k p). split; [exact E1|]. split; [exact E2|]. split; [now apply by_blocks_perm|]. apply (concat_repeat_sorted k 0).
Qed.

(* -------------------------------------------------------------------------------------------- counterexamples *)
Definition conf32 : ioconf := {| io_wn := 32; io_wi := 32; io_ww := 32; io_page := 4096 |}.
Definition conf32w64 : ioconf := {| io_wn := 32; io_wi := 32; io_ww := 64; io_page := 4096 |}.
Definition conf64 : ioconf := {| io_wn := 64; io_wi := 64; io_ww := 64; io_page := 4096 |}.
Definition edgeless (n : nat) : csr_graph := cg_make (sa_make (repeat 0%nat (S n))) [] (sa_make []) [] false.
Lemma page_multiple_faults : length (metis_write conf32 (edgeless 4089)) = 4096%nat /\ metis_csr_read conf32 (metis_write conf32 (edgeless 4089)) false = Fault.
Proof. vm_compute. split; reflexivity. Qed.
Lemma page_multiple_refuted : exists c n, build_ok c /\
  Z.of_nat (length (metis_write c (edgeless n))) mod io_page c = 0 /\
  metis_csr_read c (metis_write c (edgeless n)) false = Fault.
Proof.
  exists conf32, 4089%nat. split; [unfold build_ok; cbn; lia|]. destruct page_multiple_faults as [E F]. split; [|exact F].
  rewrite E. reflexivity.
Qed.

(** Two nodes of weights 3 and 1, an edge of weight 7. *)
Definition pair_graph : csr_graph := cg_make (sa_make [0; 1; 2]%nat) [1; 0]%nat (sa_make [3; 1]) [7; 7] false.
(** "%c\n 2 1 11\n3 2 7\n%\n1  1 7" *)
Definition pair_text : list Z :=
  [37; 99; 10; 32; 50; 32; 49; 32; 49; 49; 10; 51; 32; 50; 32; 55; 10; 37; 10; 49; 32; 32; 49; 32; 55].
Lemma dec1 a : 48 <= a <= 57 -> decimal (a - 48) [a].
Proof. intros H. split; [discriminate|]. split; [repeat constructor; unfold digit; lia|cbn; lia]. Qed.
Lemma pair_text_ok : metis_text (cg_graph pair_graph) true true pair_text.
Proof.
  exists [2; 1; 11], [37; 99; 10; 32; 50; 32; 49; 32; 49; 49], [[51; 32; 50; 32; 55]; [37; 10; 49; 32; 32; 49; 32; 55]].
  split; [left; reflexivity|]. split.
  { exists [37; 99; 10], 1%nat, [50; 32; 49; 32; 49; 49]. split.
    { apply (comments_cons 0 [99] []); [intros [H|[]]; discriminate|constructor]. }
    split; [|reflexivity].
    apply (numbers_cons 2 [50] 0 1 [11] [49; 32; 49; 49]); [exact (dec1 50 ltac:(lia))|].
    apply (numbers_cons 1 [49] 0 11 [] [49; 49]); [exact (dec1 49 ltac:(lia))|].
    apply (numbers_one 11 [49; 49] 0). split; [discriminate|]. split; [repeat constructor; cbv; discriminate|reflexivity]. }
  split; [reflexivity|]. split.
  - intros u Hu. destruct u as [|[|u]]; [| |cbn in Hu; lia].
    + exists [], 0%nat, [51; 32; 50; 32; 55]. split; [constructor|]. split; [|reflexivity].
      apply (numbers_cons 3 [51] 0 2 [7] [50; 32; 55]); [exact (dec1 51 ltac:(lia))|].
      apply (numbers_cons 2 [50] 0 7 [] [55]); [exact (dec1 50 ltac:(lia))|]. exact (numbers_one 7 [55] 0 (dec1 55 ltac:(lia))).
    + exists [37; 10], 0%nat, [49; 32; 32; 49; 32; 55]. split; [|split; [|reflexivity]].
      { apply (comments_cons 0 [] []); [cbn; tauto|constructor]. }
      apply (numbers_cons 1 [49] 1 1 [7] [49; 32; 55]); [exact (dec1 49 ltac:(lia))|].
      apply (numbers_cons 1 [49] 0 7 [] [55]); [exact (dec1 49 ltac:(lia))|]. exact (numbers_one 7 [55] 0 (dec1 55 ltac:(lia))).
  - right. split; [cbn; lia|reflexivity].
Qed.
Lemma pair_expressible : expressible (cg_graph pair_graph) true true.
Proof.
  split; [|split; [|split]].
  - intros u v w Hu Hi. destruct u as [|[|u]]; [| |cbn in Hu; lia]; vm_compute in Hi; destruct Hi as [E|[]]; inversion E; subst;
      cbn; repeat split; try lia; discriminate.
  - intros u Hu. destruct u as [|[|u]]; [| |cbn in Hu; lia]; vm_compute; split; try discriminate.
  - reflexivity.
  - vm_compute. discriminate.
Qed.
Definition heavy_graph (w : Z) : csr_graph := cg_make (sa_make [0; 0]%nat) [] (sa_make [w]) [] false.
