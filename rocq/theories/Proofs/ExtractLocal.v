(* The local part of the extraction: counters, numbers and rows. *)
From Verif Require Import Lib.Prelude Model.GridModel Model.DistGraphModel Model.ReplicateModel Model.DistExtractModel Proofs.GridBase.

Lemma tally_ok f (g a : nat -> nat) us : forall cnt, (forall u, In u us -> f u = Some (g u, a u) /\ g u < length cnt) ->
  tally f us cnt = Some (map (fun b => nth b cnt 0 + list_sum (map a (filter (fun u => g u =? b) us))) (seq 0 (length cnt))).
Proof.
  induction us as [|u t IH]; intros cnt H; cbn [tally].
  - f_equal. rewrite <- (map_nth_seq 0 cnt) at 1. apply map_ext. intros b. cbn. lia.
  - destruct (H u (or_introl eq_refl)) as [E L]. rewrite E. cbn [bind fst snd]. rewrite (nth_error_nth' cnt 0 L). cbn [bind]. rewrite IH.
    + rewrite upd_length. f_equal. apply map_ext_in. intros b Hb. apply in_seq in Hb. rewrite upd_nth. cbn [filter]. destruct (Nat.eqb_spec (g u) b) as [<-|N]; cbn [andb].
      * destruct (Nat.ltb_spec (g u) (length cnt)); [|lia]. cbn [map list_sum fold_right]. unfold list_sum. lia.
      * reflexivity.
    + intros v Hv. rewrite upd_length. apply H. right. exact Hv.
Qed.
Lemma sum_ones (l : list nat) : list_sum (map (fun _ => 1) l) = length l.
Proof. induction l; cbn; auto. Qed.
Lemma filter_perm {A} (f : A -> bool) l l' : Permutation l l' -> Permutation (filter f l) (filter f l').
Proof.
  induction 1 as [|x l l' H IH|x y l|l l' l'' H1 IH1 H2 IH2]; cbn [filter]; [constructor| | |].
  - destruct (f x); [constructor|]; exact IH.
  - destruct (f y), (f x); try apply perm_swap; apply Permutation_refl.
  - eapply Permutation_trans; eassumption.
Qed.
Lemma in_nth_error' {A} (l : list A) i x : nth_error l i = Some x -> i < length l.
Proof. intros H. apply nth_error_Some. congruence. Qed.

Section Rank.
Variable k : nat.
Variable d : dcsr.
Variable part : list nat.
Variable pb : nat -> nat.        (* block of the own nodes *)
Hypothesis Hown : forall u, u < dn d -> nth_error part u = Some (pb u) /\ pb u < k.

Definition members (order : list nat) (b : nat) : list nat := filter (fun u => pb u =? b) order.

Lemma node_counts_ok : node_counts k d part = Some (map (fun b => length (members (seq 0 (dn d)) b)) (seq 0 k)).
Proof.
  unfold node_counts. rewrite (tally_ok _ pb (fun _ => 1)).
  - rewrite repeat_length. f_equal. apply map_ext. intros b. rewrite nth_repeat, sum_ones. reflexivity.
  - intros u Hu. apply in_seq in Hu. destruct (Hown u) as [E L]; [lia|]. rewrite E, repeat_length. split; [reflexivity|exact L].
Qed.
Lemma edge_counts_ok (deg : nat -> nat) : (forall u, u < dn d -> exists nbs, dadj d u = Some nbs /\ count_inner part (pb u) nbs = Some (deg u)) ->
  edge_counts k d part = Some (map (fun b => list_sum (map deg (members (seq 0 (dn d)) b))) (seq 0 k)).
Proof.
  intros H. unfold edge_counts. rewrite (tally_ok _ pb deg).
  - rewrite repeat_length. f_equal. apply map_ext. intros b. rewrite nth_repeat. reflexivity.
  - intros u Hu. apply in_seq in Hu. destruct (Hown u) as [E L]; [lia|]. destruct (H u) as (nbs & A & B); [lia|]. rewrite E, repeat_length. cbn [bind]. rewrite A. cbn [bind]. rewrite B. split; [reflexivity|exact L].
Qed.

Lemma number_prefix goff order : length goff = k -> NoDup order -> (forall u, In u order -> u < dn d) ->
  exists s, number_nodes k d part goff order = Some s /\ pd_blocks s = map (members order) (seq 0 k) /\ length (pd_map s) = dn d + dghost_n d /\
    forall u, In u order -> exists i, nth_error (members order (pb u)) i = Some u /\ nth_error (pd_map s) u = Some (nth (pb u) goff 0 + i).
Proof.
  intros Lg. unfold number_nodes. induction order as [|u t IH] using rev_ind; intros N L.
  - eexists. split; [reflexivity|]. cbn [pd_blocks pd_map]. split; [|split; [apply repeat_length|intros u []]]. unfold members. cbn [filter].
    clear. generalize 0. induction k as [|n IHn]; intros a; cbn [repeat seq map]; [reflexivity|]. rewrite <- IHn. reflexivity.
  - apply NoDup_remove in N. rewrite app_nil_r in N. destruct N as [N1 N2]. destruct IH as (s & E & B & M & D); [exact N1|intros v Hv; apply L; apply in_or_app; left; exact Hv|].
    rewrite fold_left_app. unfold number_nodes in E. rewrite E. cbn [fold_left number_node bind]. assert (Hu : u < dn d) by (apply L, in_or_app; right; left; reflexivity). destruct (Hown u Hu) as [Eu Lu]. rewrite Eu. cbn [bind].
    rewrite B, nth_error_map_seq by exact Lu. cbn [bind]. rewrite (nth_error_nth' goff 0) by lia. cbn [bind]. unfold store. destruct (Nat.ltb_spec u (length (pd_map s))) as [Z|Z]; [|lia]. cbn [bind].
    eexists. split; [reflexivity|]. cbn [pd_blocks pd_map]. assert (F : forall b, members (t ++ [u]) b = members t b ++ if pb u =? b then [u] else []).
    { intros b. unfold members. rewrite filter_app. cbn [filter]. destruct (pb u =? b); reflexivity. }
    split; [|split; [rewrite upd_length; exact M|]].
    + apply (list_ext []); [rewrite upd_length, !map_length; reflexivity|]. intros b Hb. rewrite upd_length, map_length, seq_length in Hb. rewrite upd_nth, map_length, seq_length. rewrite !nth_map_seq by exact Hb. cbn [Nat.add]. rewrite F.
      destruct (Nat.eqb_spec (pb u) b) as [<-|NE]; cbn [andb]; [|rewrite app_nil_r; reflexivity]. destruct (Nat.ltb_spec (pb u) k); [reflexivity|lia].
    + intros v Hv. apply in_app_or in Hv. destruct Hv as [Hv|[<-|[]]].
      * destruct (D v Hv) as (i & D1 & D2). exists i. split; [rewrite F, nth_error_app1 by exact (in_nth_error' _ _ _ D1); exact D1|]. rewrite upd_nth_error. destruct (Nat.eqb_spec u v) as [->|NE]; [contradiction|exact D2].
      * exists (length (members t (pb u))). split; [rewrite F, Nat.eqb_refl, nth_error_app2, Nat.sub_diag by lia; reflexivity|]. rewrite upd_nth_error, Nat.eqb_refl. destruct (Nat.ltb_spec u (length (pd_map s))); [reflexivity|lia].
Qed.
End Rank.

(** The rows of one rank: neighbours given by their global identifiers [adj]. *)
Section Rows.
Variable d : dcsr.
Variable part mapping : list nat.
Variables (p F : nat -> nat).
Lemma rows_ok b nbs : forall adj, map (fun e => (dlocal_to_global d (fst e), snd e)) nbs = map (fun e : nat * Z => (Some (fst e), snd e)) adj ->
  (forall l g, dlocal_to_global d l = Some g -> nth_error part l = Some (p g) /\ nth_error mapping l = Some (F g)) ->
  count_inner part b nbs = Some (length (filter (fun e => p (fst e) =? b) adj)) /\
  keep_inner part mapping b nbs = Some (map (fun e => (F (fst e), snd e)) (filter (fun e => p (fst e) =? b) adj)).
Proof.
  induction nbs as [|[l w] t IH]; intros [|[g w'] adj] M H; try discriminate M; [split; reflexivity|]. cbn [map fst snd] in M. injection M as M1 M2 M3. subst w'.
  destruct (IH adj M3 H) as [A B]. destruct (H l g M1) as [C D]. cbn [count_inner keep_inner fst snd filter]. rewrite C. cbn [bind]. rewrite A, B, (Nat.eqb_sym b). destruct (p g =? b).
  - rewrite D. cbn [bind]. split; reflexivity.
  - split; reflexivity.
Qed.
End Rows.
