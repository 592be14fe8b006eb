(* Histories of the worker pool; the bipartitioner of the recursive bipartitioning. *)
From Verif Require Import Lib.Prelude Spec.Graph Spec.Quotient Spec.Induced Spec.InitialSpec Spec.InitialPoolSpec Spec.InitialCoarsenSpec
  Spec.InitialMultilevelSpec.
From Verif Require Import Model.InitialFmModel Model.InitialFlatModel Model.InitialPoolModel Model.InitialCoarsenModel
  Model.InitialMultilevelModel.
From Verif Require Import Proofs.Decide Proofs.InitialExamples Proofs.InitialCoarsenExamples Proofs.InitialPoolExamples Proofs.InitialMultilevelProofs.
From Verif Require Proofs.CsrProofs.

Section Worker.
Variable bits : Z.
Variable imb : graph -> list Z -> Z.
Variable emax : Z.
Variable cfg : mconfig.
Hypothesis Hbits : (1 <= bits)%Z.
Hypothesis Hcfg : usable cfg.

Lemma worker_ok c ws : good_call (2 ^ (bits - 1)) emax c -> (forall w, In w ws -> idle (fst w)) ->
  exists lab ws', worker_bipartition bits imb emax cfg c ws = Some (lab, ws') /\ two_blocks (ca_graph c) lab /\
    forall w, In w ws' -> idle (fst w).
Proof.
  intros (G1 & G2 & G3 & G4 & G5 & G6 & G7 & G8) Hw. unfold worker_bipartition.
  destruct (Nat.eqb_spec (gn (ca_graph c)) 0) as [E0|E0].
  - exists [], ws. split; auto. split; auto. split; [cbn; lia|]. intros; lia.
  - assert (K : forall co old, idle co -> exists q best levels co',
      multilevel bits (ca_limit c) (ca_perfect c) imb emax cfg (ca_env c) (ca_mcw c) (ca_graph c) co old = Some (q, best, levels, co') /\
      idle co' /\ two_blocks (ca_graph c) (fst q)).
    { intros co old Hi.
      destruct (multilevel_ok bits (ca_limit c) (ca_perfect c) imb emax cfg (ca_env c) (ca_mcw c) (ca_graph c) Hbits G6 ltac:(lia) G1 G2 G3 G4 G5 G7 G8 Hcfg co old Hi)
        as (q & best & levels & co' & po & E & _ & Hi' & _ & _ & _ & (L2 & L & B & _) & _).
      exists q, best, levels, co'. split; auto. split; auto. split; auto. intros u Hu. rewrite <- L2. apply B. auto. }
    destruct ws as [|[co old] r].
    + destruct (K new_coarsener ([], []) fresh_idle) as (q & best & levels & co' & E & Hi & T). rewrite E.
      exists (fst q), [(co', best)]. split; auto. split; auto. intros w [<-|[]]. exact Hi.
    + destruct (K co old (Hw (co, old) (or_introl eq_refl))) as (q & best & levels & co' & E & Hi & T). rewrite E.
      exists (fst q), ((co', best) :: r). split; auto. split; auto. intros w [<-|H]; [exact Hi|apply Hw; right; auto].
Qed.

Lemma workers_ok cs : (forall c, In c cs -> good_call (2 ^ (bits - 1)) emax c) -> forall ws, (forall w, In w ws -> idle (fst w)) ->
  exists ls, worker_calls bits imb emax cfg cs ws = Some ls /\ Forall2 (fun c lab => two_blocks (ca_graph c) lab) cs ls.
Proof.
  induction cs as [|c r IH]; intros Hg ws Hw; cbn [worker_calls].
  - exists []. split; auto.
  - destruct (worker_ok c ws (Hg c (or_introl eq_refl)) Hw) as (lab & ws' & E & T & Hw'). rewrite E.
    destruct (IH (fun c H => Hg c (or_intror H)) ws' Hw') as (ls & E' & F). rewrite E'. exists (lab :: ls). split; auto.
Qed.

(** The labels of any such call, seen as a total function on lists. *)
Lemma is_bipartitioner (cs : lgraph -> nat -> nat -> call) (ws : lgraph -> nat -> nat -> list worker) :
  exists bip, bipartitioner bip /\
    forall g abs k, gn (ca_graph (cs g abs k)) = length g -> good_call (2 ^ (bits - 1)) emax (cs g abs k) ->
      (forall w, In w (ws g abs k) -> idle (fst w)) ->
      exists ws', worker_bipartition bits imb emax cfg (cs g abs k) (ws g abs k) = Some (bip g abs k, ws').
Proof.
  exists (fun g abs k =>
    match worker_bipartition bits imb emax cfg (cs g abs k) (ws g abs k) with
    | Some (lab, _) => if (length lab =? length g) && forallb (fun s => s <? 2) lab then lab else repeat 0 (length g)
    | None => repeat 0 (length g)
    end).
  assert (R : forall n, length (repeat 0 n) = n /\ forall s, In s (repeat 0 n) -> s < 2).
  { intros n. split; [apply repeat_length|]. intros s H. apply repeat_spec in H. lia. }
  split.
  - intros g abs k. destruct (worker_bipartition _ _ _ _ _ _) as [[lab ws']|]; [|apply R].
    destruct (_ && _) eqn:E; [|apply R]. apply andb_true_iff in E. destruct E as [A B]. apply Nat.eqb_eq in A.
    split; auto. intros s H. rewrite forallb_forall in B. apply Nat.ltb_lt. auto.
  - intros g abs k Hn Hg Hw. destruct (worker_ok _ _ Hg Hw) as (lab & ws' & E & [L B] & _). rewrite E. exists ws'.
    rewrite Hn in *. rewrite L, Nat.eqb_refl. cbn [andb].
    replace (forallb (fun s => s <? 2) lab) with true; auto. symmetry. apply forallb_forall. intros s H.
    apply (In_nth _ _ 0) in H. destruct H as (u & Hu & <-). apply Nat.ltb_lt. apply B. lia.
Qed.
End Worker.

(* ------------------------------------------------------------------ an example *)
Definition any_order (n : nat) : rchoice :=
  mkRC (seq 0 (n / 64 + 1)) (repeat (seq 0 64) (n / 64 + 1)) (fun _ => mkChoice false true 0).
Lemma any_order_legal n : legal_order n (rc_chunks (any_order n)) (rc_perms (any_order n)).
Proof.
  unfold any_order, legal_order. cbn [rc_chunks rc_perms]. rewrite repeat_length, seq_length. split; [apply Permutation_refl|]. split; auto.
  intros p H. apply repeat_spec in H. subst. apply Permutation_refl.
Qed.
Definition menv_of (n : nat) : menv :=
  mkMenv (env_of n) (fun m r i => mkRun (pool_algs r i) (fun _ => any_order m) (fun _ => false) false)
    (fun m _ _ => any_order m) (fun _ _ => false) (fun l => [7]%Z).
Lemma menv_legal n : legal_menv n (menv_of n).
Proof.
  split; [apply env_legal|]. split; [intros; apply any_order_legal|]. split; [intros; apply any_order_legal|]. intros l. cbn. lia.
Qed.
Definition mcfg : mconfig := mkMconfig 3 (pool3 (Some 1)) (Some 2) true.
Lemma mcfg_usable : usable mcfg.
Proof. split; [cbn; lia|]. split; [cbn; lia|]. left. cbn. lia. Qed.

Lemma cut_le_total g lab : nonneg_edges g -> (cut_of g lab <= sumn (gn g) (fun u => sumn u (conn g u)))%Z.
Proof.
  intros H. unfold cut_of, cut_weight. apply sumn_le. intros u Hu. apply sumn_le. intros v Hv.
  assert (0 <= conn g u v)%Z by (apply CsrProofs.conn_nonneg; intros x w Hx; apply (H u x w Hu Hx)).
  destruct (_ =? _); lia.
Qed.
Lemma cut_path6 lab : (cut_of path6 lab < 2147483647)%Z.
Proof.
  eapply Z.le_lt_trans; [apply cut_le_total; apply check_nonneg_ok; reflexivity|]. reflexivity.
Qed.

Lemma multilevel_example :
  0 < gn path6 /\ closed_graph path6 /\ undirected path6 /\ positive_edges path6 /\ loop_free path6 /\ fits (2 ^ 29) path6 /\
  (forall lab, (cut_of path6 lab < 2147483647)%Z) /\ legal_menv 6 (menv_of 6) /\ usable mcfg /\ idle used8 /\
  exists q best levels co', multilevel 30 (fun _ => 5%Z) (fun _ => 3%Z) (fun _ => spread) 2147483647 mcfg (menv_of 6) 2 path6 used8 ([], [])
    = Some (q, best, levels, co') /\ show_levels levels = [([0; 0; 1; 1; 2; 2], [[(1, 1%Z)]; [(0, 1%Z); (2, 1%Z)]; [(1, 1%Z)]], [2; 2; 2]%Z)] /\
      best = ([1; 0; 0], [4; 2]%Z) /\ q = ([1; 1; 0; 0; 0; 0], [4; 2]%Z).
Proof.
  split; [cbn; lia|]. split; [apply check_closed_ok; reflexivity|]. split; [apply check_undirected_ok; reflexivity|].
  split; [apply check_positive_ok; reflexivity|]. split; [apply check_loopfree_ok; reflexivity|]. split; [apply check_fits_ok; reflexivity|].
  split; [exact cut_path6|]. split; [apply menv_legal|]. split; [exact mcfg_usable|]. split; [exact used8_idle|].
  destruct (multilevel 30 (fun _ => 5%Z) (fun _ => 3%Z) (fun _ => spread) 2147483647 mcfg (menv_of 6) 2 path6 used8 ([], []))
    as [[[[q best] levels] co']|] eqn:E; [|vm_compute in E; discriminate].
  exists q, best, levels, co'. split; auto.
  assert (S : option_map (fun r => (fst (fst (fst r)), snd (fst (fst r)), show_levels (snd (fst r))))
    (multilevel 30 (fun _ => 5%Z) (fun _ => 3%Z) (fun _ => spread) 2147483647 mcfg (menv_of 6) 2 path6 used8 ([], [])) =
    Some (([1; 1; 0; 0; 0; 0], [4; 2]%Z), ([1; 0; 0], [4; 2]%Z), [([0; 0; 1; 1; 2; 2], [[(1, 1%Z)]; [(0, 1%Z); (2, 1%Z)]; [(1, 1%Z)]], [2; 2; 2]%Z)])) by (vm_compute; reflexivity).
  rewrite E in S. cbn [option_map fst snd] in S. injection S as S1 S2 S3. rewrite S1, S2, S3. auto.
Qed.
