(* Compressed graph files: what the reader returns. *)
From Verif Require Import Lib.Prelude Spec.Graph Spec.TextFormat Spec.BinFormat Spec.BinBuild Model.CompactArrayModel Model.CsrModel Model.IoTextModel
  Model.IoBinModel Proofs.SubgraphBase Proofs.IoTextRound Proofs.IoBinBase Proofs.IoBinWrite Proofs.IoBinRound.
Local Open Scope Z_scope.

Lemma w64_eq a b : a = 32 \/ a = 64 -> b = 32 \/ b = 64 -> Bool.eqb (a =? 64) (b =? 64) = true <-> a = b.
Proof. intros [-> | ->] [-> | ->]; cbn; split; congruence. Qed.
Lemma same_settings_spec c c' : settings_ok c -> settings_ok c' ->
  Bool.eqb (io_wn (bc_io c) =? 64) (io_wn (bc_io c') =? 64) && Bool.eqb (io_wi (bc_io c) =? 64) (io_wi (bc_io c') =? 64) &&
     Bool.eqb (io_ww (bc_io c) =? 64) (io_ww (bc_io c') =? 64) && Bool.eqb (bc_hd c) (bc_hd c') && Bool.eqb (bc_iv c) (bc_iv c') &&
     Bool.eqb (bc_sv c) (bc_sv c') && (bc_thr c =? bc_thr c') && (bc_part c =? bc_part c') && (bc_len c =? bc_len c') = true
  <-> same_settings c c'.
Proof.
  intros ((A1 & A2 & A3) & _) ((B1 & B2 & B3) & _). rewrite !Bool.andb_true_iff, !w64_eq, !Bool.eqb_true_iff, !Z.eqb_eq by assumption.
  unfold same_settings. tauto.
Qed.
Lemma unit_sum ws n : Z.of_nat (length ws) = n -> Forall (fun w => 1 <= w) ws -> zsum ws = n -> forall u, (u < length ws)%nat -> nth u ws 0 = 1.
Proof.
  intros L F S u Hu. rewrite Forall_forall in F. rewrite (zsum_eq_len ws F ltac:(lia)).
  rewrite (nth_indep _ 0 1) by (rewrite repeat_length; exact Hu). apply nth_repeat.
Qed.
Lemma unit_same c g : held_by c g -> positive_node_weights g -> same_stored (without_unit_weights g) g.
Proof.
  intros Hg Hp. unfold same_stored, without_unit_weights. cbn. repeat (split; [reflexivity|]). intros u Hu. unfold stored_weight. cbn [sg_node_weights].
  destruct (sg_is_node_weighted g) eqn:E; [reflexivity|]. destruct (sg_node_weights g) as [|w ws] eqn:Ew; [reflexivity|]. rewrite <- Ew in *.
  destruct Hp as [Hp|[L F]]; [congruence|]. symmetry. apply (unit_sum _ (sg_n g) L F); [|lia].
  unfold sg_is_node_weighted in E. apply Bool.negb_false_iff, Z.eqb_eq in E. rewrite Ew in E |- *. lia.
Qed.
Lemma compressed_same c c' g : settings_ok c -> settings_ok c' -> held_by c g -> positive_node_weights g -> same_settings c c' ->
  exists h, compressed_read c' (compressed_write c g) = Ok h /\ same_stored h g.
Proof.
  intros H1 H2 H3 H4 H5. exists (without_unit_weights g). split; [|exact (unit_same c g H3 H4)].
  rewrite (c_read c g H1 H3 c' H2). rewrite (proj2 (same_settings_spec c c' H1 H2) H5). reflexivity.
Qed.
Lemma compressed_other c c' g : settings_ok c -> settings_ok c' -> held_by c g -> ~ same_settings c c' -> compressed_read c' (compressed_write c g) = Throws.
Proof.
  intros H1 H2 H3 H5. rewrite (c_read c g H1 H3 c' H2). rewrite <- (same_settings_spec c c' H1 H2) in H5.
  match goal with |- (if ?b then _ else _) = _ => destruct b; [congruence|reflexivity] end.
Qed.
Lemma parhip_overflow : exists n h, wf_csr (big_xadj n) [1; 0]%nat [] [] /\ Z.of_nat n = 2 ^ 30 /\ cg_m h = 2%nat /\
  parhip_csr_read conf32 (parhip_write conf32 (cg_make (sa_make (big_xadj n)) [1; 0]%nat (sa_make []) [] false)) false = Ok h /\
  Z.of_nat (sa_get 0%nat (cg_nodes h) 0) = 3 * 2 ^ 30.
Proof.
  exists (Z.to_nat (2 ^ 30)). assert (E : Z.of_nat (Z.to_nat (2 ^ 30)) = 2 ^ 30) by (apply Z2Nat.id; discriminate).
  destruct (big_overflow _ E) as (h & H1 & H2 & H3 & _). exists h. split; [exact (big_wf _ E)|]. auto.
Qed.
