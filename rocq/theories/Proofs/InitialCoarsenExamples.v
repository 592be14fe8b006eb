(* Hierarchies of concrete graphs. *)
From Verif Require Import Lib.Prelude Spec.Graph Spec.Quotient Spec.InitialCoarsenSpec Model.RatingMapModel Model.InitialCoarsenModel
  Proofs.Decide Proofs.InitialExamples.

Definition check_positive (g : graph) : bool := forallb (fun u => forallb (fun e => (0 <? snd e)%Z) (gadj g u)) (seq 0 (gn g)).
Lemma check_positive_ok g : check_positive g = true -> positive_edges g.
Proof.
  intros H u v w Hu Hi. pose proof (forallb_seq_lt _ _ H u Hu) as K. rewrite forallb_forall in K. apply Z.ltb_lt. apply (K _ Hi).
Qed.
Definition check_fits (b : Z) (g : graph) : bool := forallb (fun u => (0 <=? gvw g u) && (gvw g u <? b))%Z (seq 0 (gn g)).
Lemma check_fits_ok b g : check_fits b g = true -> fits b g.
Proof.
  intros H u Hu. pose proof (forallb_seq_lt _ _ H u Hu) as K. cbn beta in K. apply andb_true_iff in K. destruct K as [K1 K2].
  apply Z.leb_le in K1. apply Z.ltb_lt in K2. auto.
Qed.

(** A path of six nodes. *)
Definition path6 : graph :=
  of_lists [[(1, 5%Z)]; [(0, 5%Z); (2, 1%Z)]; [(1, 1%Z); (3, 7%Z)]; [(2, 7%Z); (4, 1%Z)]; [(3, 1%Z); (5, 9%Z)]; [(4, 9%Z)]] [1; 1; 1; 1; 1; 1]%Z.
(** Nodes in order, no random bit is set, a graph has converged if it does not shrink. *)
Definition env_of (n : nat) : cenv := mkCenv (seq 0 n) (fun _ _ => false) (fun _ _ _ => false) (fun c m => m <=? c).
(** A new coarsener, and one with left-overs of a larger graph. *)
Definition fresh : coarsener := mkCo ([], 0, mkFra [] []) (mkFra [] []) [] false false.
Definition used8 : coarsener :=
  mkCo (repeat (mkCl true 7 9) 9, 3, mkFra (repeat 0%Z 8) []) (mkFra (repeat 0%Z 8) []) (seq 3 8) true true.
(** What can be observed of a hierarchy. *)
Definition show_levels (levels : list (list nat * graph)) :=
  map (fun l => (fst l, map (gadj (snd l)) (seq 0 (gn (snd l))), map (gvw (snd l)) (seq 0 (gn (snd l))))) levels.

Lemma env_legal n : legal_env n (env_of n).
Proof.
  split; [apply seq_NoDup|]. split; [intros u Hu; apply in_seq in Hu; lia|]. intros m. apply Nat.leb_le, le_n.
Qed.
Lemma fresh_idle : idle fresh.
Proof. split; (split; [reflexivity|intros [|k]; reflexivity]). Qed.
Lemma used8_idle : idle used8.
Proof. split; (split; [reflexivity|intros k; unfold used8; cbn [co_lp snd co_ec fa_data]; apply nth_repeat]). Qed.

Lemma coarsening_example :
  closed_graph path6 /\ positive_edges path6 /\ fits (2 ^ 29) path6 /\ idle used8 /\ legal_env 6 (env_of 6) /\
  exists levels co', coarsen_loop 30 4 6 (env_of 6) 1 0 path6 (init_coarsener path6 used8) = Some (levels, co') /\
    show_levels levels =
      [([0; 0; 1; 1; 2; 2], [[(1, 1%Z)]; [(0, 1%Z); (2, 1%Z)]; [(1, 1%Z)]], [2; 2; 2]%Z);
       ([0; 0; 1], [[(1, 1%Z)]; [(0, 1%Z)]], [4; 2]%Z)].
Proof.
  split; [apply check_closed_ok; reflexivity|]. split; [apply check_positive_ok; reflexivity|]. split; [apply check_fits_ok; reflexivity|].
  split; [exact used8_idle|]. split; [apply env_legal|].
  destruct (coarsen_loop 30 4 6 (env_of 6) 1 0 path6 (init_coarsener path6 used8)) as [[levels co']|] eqn:E; [|vm_compute in E; discriminate].
  exists levels, co'. split; [reflexivity|].
  assert (S : option_map (fun r => show_levels (fst r)) (coarsen_loop 30 4 6 (env_of 6) 1 0 path6 (init_coarsener path6 used8)) =
     Some [([0; 0; 1; 1; 2; 2], [[(1, 1%Z)]; [(0, 1%Z); (2, 1%Z)]; [(1, 1%Z)]], [2; 2; 2]%Z);
       ([0; 0; 1], [[(1, 1%Z)]; [(0, 1%Z)]], [4; 2]%Z)]) by (vm_compute; reflexivity).
  rewrite E in S. cbn [option_map fst] in S. injection S as S. exact S.
Qed.

(** A path of three nodes; the first one weighs 2^29. *)
Definition heavy3 : graph := of_lists [[(1, 1%Z)]; [(0, 1%Z); (2, 2%Z)]; [(1, 2%Z)]] [2 ^ 29; 1; 1]%Z.
Lemma heavy_refuted :
  exists g limit env co levels co', closed_graph g /\ undirected g /\ positive_edges g /\ fits (2 ^ 31) g /\ (total_weight g < 2 ^ 31)%Z /\
    (0 < limit < 2 ^ 29)%Z /\ idle co /\ legal_env (gn g) env /\
    coarsen_loop 30 limit (gn g) env 1 0 g (init_coarsener g co) = Some (levels, co') /\
    exists mapping h rest c u, levels = (mapping, h) :: rest /\ u < gn g /\ nth u mapping 0 = c /\ (0 < gvw g u)%Z /\ (gvw h c < 0)%Z /\
      (total_weight h < 0)%Z.
Proof.
  destruct (coarsen_loop 30 2 3 (env_of 3) 1 0 heavy3 (init_coarsener heavy3 fresh)) as [[levels co']|] eqn:E; [|vm_compute in E; discriminate].
  exists heavy3, 2%Z, (env_of 3), fresh, levels, co'.
  split; [apply check_closed_ok; reflexivity|]. split; [apply check_undirected_ok; reflexivity|]. split; [apply check_positive_ok; reflexivity|].
  split; [apply check_fits_ok; reflexivity|]. split; [reflexivity|]. split; [split; reflexivity|]. split; [exact fresh_idle|]. split; [apply env_legal|].
  split; [exact E|].
  assert (S : option_map (fun r => match fst r with (mapping, h) :: _ => (nth 0 mapping 0, gvw h 0, total_weight h) | [] => (0, 0%Z, 0%Z) end)
      (coarsen_loop 30 2 3 (env_of 3) 1 0 heavy3 (init_coarsener heavy3 fresh)) = Some (0, (-536870912)%Z, (-536870910)%Z)) by (vm_compute; reflexivity).
  rewrite E in S. cbn [option_map fst] in S. destruct levels as [|[mapping h] rest]; [discriminate|]. injection S as S1 S2 S3.
  exists mapping, h, rest, 0, 0. split; [reflexivity|]. split; [cbn; lia|]. split; [exact S1|]. split; [reflexivity|]. rewrite S2, S3. split; reflexivity.
Qed.
