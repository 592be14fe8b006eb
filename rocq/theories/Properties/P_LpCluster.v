(* C53: the label propagation clusterer of the coarsening phase. *)
From Verif Require Import Lib.Prelude Spec.Induced Model.LpClusterModel Spec.LpSpec Proofs.LpClusterProofs Proofs.LpClusterExamples.
Local Open Scope Z_scope.

(** For every interleaving of visits with arbitrary stale observations, followed by any handling of isolated and two-hop
    nodes, the result names one existing node per node. *)
Theorem C53_clustering g maxw comm uni iso hop h s ev1 ev2 :
  lg_ok g -> lp_run g maxw comm uni h s -> schedule g ev1 -> schedule g ev2 ->
  clustering g (l_cl (finish iso hop g maxw ev1 ev2 s)).
Proof. exact (finish_clustering g maxw comm uni iso hop h s ev1 ev2). Qed.
Print Assumptions C53_clustering.

(** The label propagation rounds never put nodes of different communities into one cluster, for every interleaving and
    every stale observation. *)
Theorem C53_communities g maxw comm uni h s :
  lg_ok g -> lp_run g maxw comm uni h s -> within_communities comm (l_cl s).
Proof. exact (run_communities g maxw comm uni h s). Qed.
Print Assumptions C53_communities.

(** A visit moves the node to an acceptable cluster with the highest rating, whether the ratings are scanned in one piece or
    by several workers, with both tie breaking strategies; if the weight does not fit any more it stays. *)
Theorem C53_best_cluster g maxw comm uni u k ow chk s :
  (forall c r x, In (c, r, x) (kind_entries k) -> 1 <= r) -> (u < length (l_cl s))%nat ->
  let init := nth u (l_cl s) 0%nat in
  let s' := visit g maxw comm uni u k ow chk s in
  exists b, best_choice (acceptable maxw (lg_weight g u) comm ow init) init (kind_entries k) b /\
    l_cl s' = upd u (if chk b + lg_weight g u <=? maxw then b else init) (l_cl s).
Proof. exact (visit_best g maxw comm uni u k ow chk s). Qed.
Print Assumptions C53_best_cluster.

(** Without stale observations in the rounds, and for any distribution of isolated and two-hop nodes to workers: stored
    weights are exact and every cluster of several nodes respects the limit. *)
Theorem C53_weights g maxw comm uni iso hop s ev1 ev2 :
  lg_ok g -> symmetric g -> seq_run g maxw comm uni s -> schedule g ev1 -> schedule g ev2 ->
  let s' := finish iso hop g maxw ev1 ev2 s in exact_weights g s' /\ limited g maxw (l_cl s').
Proof. exact (finish_weights g maxw comm uni iso hop s ev1 ev2). Qed.
Print Assumptions C53_weights.

(** Two-hop matching only builds pairs of nodes that were alone before and favoured the same cluster. *)
Theorem C53_two_hop_pairs g maxw comm uni iso s ev1 ev2 u :
  lg_ok g -> symmetric g -> seq_run g maxw comm uni s -> schedule g ev1 -> schedule g ev2 -> (u < length g)%nat ->
  let s1 := finish iso None g maxw ev1 ev2 s in
  let s2 := finish iso (Some true) g maxw ev1 ev2 s in
  let v := nth u (l_cl s2) 0%nat in
  v <> nth u (l_cl s1) 0%nat ->
  v <> u /\ alone g (l_cl s1) u /\ alone g (l_cl s1) v /\ nth u (l_fav s1) 0%nat = nth v (l_fav s1) 0%nat /\
  (forall x, (x < length g)%nat -> (nth x (l_cl s2) 0%nat = v <-> x = u \/ x = v)).
Proof. exact (finish_pairs g maxw comm uni iso s ev1 ev2 u). Qed.
Print Assumptions C53_two_hop_pairs.

(** The default two-hop matching puts nodes of different communities into one cluster. *)
Theorem C53_two_hop_communities_refuted :
  exists g maxw comm s ev, lg_ok g /\ symmetric g /\ length comm = length g /\ seq_run g maxw comm true s /\ schedule g ev /\
    l_cl s = seq 0 (length g) /\ ~ within_communities comm (l_cl (finish (Some true) (Some true) g maxw ev ev s)).
Proof. exact two_hop_refuted. Qed.
Print Assumptions C53_two_hop_communities_refuted.

(** So does the default matching of isolated nodes. *)
Theorem C53_isolated_communities_refuted :
  exists g maxw comm s ev, lg_ok g /\ symmetric g /\ length comm = length g /\ seq_run g maxw comm true s /\ schedule g ev /\
    l_cl s = seq 0 (length g) /\ ~ within_communities comm (l_cl (finish (Some true) None g maxw ev ev s)).
Proof. exact isolated_refuted. Qed.
Print Assumptions C53_isolated_communities_refuted.

(** The hypotheses are met: *)
Example C53_example :
  lg_ok ex_g /\ symmetric ex_g /\ seq_run ex_g 4 [] true ex_s3 /\ schedule ex_g ex_ev.
Proof. exact (conj ex_g_ok (conj ex_g_sym (conj ex_run ex_sched))). Qed.
Example C53_example_result :
  l_cl (finish (Some true) (Some true) ex_g 4 ex_ev ex_ev ex_s3) = [3; 1; 2; 3; 4; 4]%nat /\
  l_w (finish (Some true) (Some true) ex_g 4 ex_ev ex_ev ex_s3) = [0; 4; 1; 2; 3; 0] /\
  l_fav ex_s3 = [0; 1; 1; 3; 4; 5]%nat.
Proof. exact lp_example. Qed.
Example C53_stale_example :
  lp_run swap_g 2 [0; 0]%nat true [l_cl swap_s2; l_cl swap_s1; [0; 1]%nat] swap_s2 /\ l_cl swap_s2 = [1; 0]%nat.
Proof. exact swap_example. Qed.
Example C53_pair_example : lg_ok com_g /\ symmetric com_g /\ seq_run com_g 4 com true com_s3 /\ schedule com_g com_ev /\
  l_cl (finish (Some true) None com_g 4 com_ev com_ev com_s3) = [0; 1; 2]%nat /\
  l_cl (finish (Some true) (Some true) com_g 4 com_ev com_ev com_s3) = [0; 1; 0]%nat.
Proof. exact pair_example. Qed.
