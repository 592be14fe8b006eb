(* Boolean checkers used to show that concrete examples meet the hypotheses of theorems. *)
From Verif Require Import Lib.Prelude Spec.Graph.

Lemma forallb_seq_lt (p : nat -> bool) n : forallb p (seq 0 n) = true -> forall i, i < n -> p i = true.
Proof. intros H i Hi. rewrite forallb_forall in H. apply H. apply in_seq. lia. Qed.

Definition check_wf (xadj adjncy : list nat) (vwgt adjwgt : list Z) : bool :=
  (1 <=? length xadj) && (nth 0 xadj 0 =? 0) &&
  forallb (fun i => nth i xadj 0 <=? nth (S i) xadj 0) (seq 0 (length xadj - 1)) &&
  (last xadj 0 =? length adjncy) &&
  forallb (fun v => v <? length xadj - 1) adjncy &&
  (match vwgt with [] => true | _ => length vwgt =? length xadj - 1 end) &&
  (match adjwgt with [] => true | _ => length adjwgt =? length adjncy end).
Lemma check_wf_ok a b c d : check_wf a b c d = true -> wf_csr a b c d.
Proof.
  unfold check_wf. rewrite !andb_true_iff. intros [[[[[[H1 H2] H3] H4] H5] H6] H7].
  apply Nat.leb_le in H1. apply Nat.eqb_eq in H2. apply Nat.eqb_eq in H4. rewrite forallb_forall in H5.
  repeat split; auto.
  - intros i Hi. apply Nat.leb_le. apply (forallb_seq_lt _ _ H3). lia.
  - intros v Hv. apply Nat.ltb_lt. auto.
  - destruct c; auto. right. apply Nat.eqb_eq; auto.
  - destruct d; auto. right. apply Nat.eqb_eq; auto.
Qed.

Definition check_sorted (xadj : list nat) (n' : nat) : bool :=
  (n' <=? length xadj - 1) &&
  forallb (fun u => 0 <? degree_of xadj u) (seq 0 n') &&
  forallb (fun u => (u <? n') || (degree_of xadj u =? 0)) (seq 0 (length xadj - 1)) &&
  forallb (fun v => forallb (fun u => Nat.log2 (degree_of xadj u) <=? Nat.log2 (degree_of xadj v)) (seq 0 (S v))) (seq 0 n').
Lemma check_sorted_ok xadj n' : check_sorted xadj n' = true -> sorted_by_degree_class xadj n'.
Proof.
  unfold check_sorted. rewrite !andb_true_iff. intros [[[H1 H2] H3] H4].
  apply Nat.leb_le in H1. repeat split; auto.
  - intros u Hu. apply Nat.ltb_lt. apply (forallb_seq_lt _ _ H2); auto.
  - intros u Hu. pose proof (forallb_seq_lt _ _ H3 u ltac:(lia)) as H. simpl in H.
    apply orb_true_iff in H as [H|H]; [apply Nat.ltb_lt in H; lia|]. apply Nat.eqb_eq; auto.
  - intros u v Hu. pose proof (forallb_seq_lt _ _ H4 v ltac:(lia)) as H. apply Nat.leb_le.
    apply (forallb_seq_lt _ _ H). lia.
Qed.

Definition check_undirected (g : graph) : bool :=
  forallb (fun u => forallb (fun v => Z.eqb (conn g u v) (conn g v u)) (seq 0 (gn g))) (seq 0 (gn g)).
Lemma check_undirected_ok g : check_undirected g = true -> undirected g.
Proof.
  intros H u v Hu Hv. pose proof (forallb_seq_lt _ _ H u Hu) as H1. apply Z.eqb_eq. apply (forallb_seq_lt _ _ H1 v Hv).
Qed.

Definition check_closed (g : graph) : bool :=
  forallb (fun u => forallb (fun e => fst e <? gn g) (gadj g u)) (seq 0 (gn g)).
Lemma check_closed_ok g : check_closed g = true -> closed_graph g.
Proof.
  intros H u v w Hu Hin. pose proof (forallb_seq_lt _ _ H u Hu) as H1. rewrite forallb_forall in H1.
  apply Nat.ltb_lt. apply (H1 (v, w) Hin).
Qed.

Definition check_pos (l : list Z) : bool := forallb (fun x => Z.leb 1 x) l.
Lemma check_pos_ok l : check_pos l = true -> forall x, In x l -> (1 <= x)%Z.
Proof. intros H x Hx. unfold check_pos in H. rewrite forallb_forall in H. apply Z.leb_le. auto. Qed.
