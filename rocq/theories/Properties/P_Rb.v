(* C52: the recursive bipartitioning mode and the k-way mode. *)
From Verif Require Import Lib.Prelude Spec.Induced Spec.Level Spec.ExtendSpec Spec.RbSpec Model.SubgraphModel Model.ExtendModel Model.DeepModel Model.ContextModel Model.RbModel
  Proofs.RbProofs Proofs.RbExamples Proofs.ExtendCases.

(** C52. For every k = 2^(d+1) below 2^31, every graph and every legal environment, recursive bipartitioning ends without
    an out-of-bounds access with exactly k blocks and one label below k per node. *)
Theorem C52_rb_partition : forall ub e top g d, rb_env_ok e -> lg_ok g -> (N.of_nat (2 ^ S d) < 2 ^ 31)%N ->
  (forall r p, top = Some r -> labelled g (2 ^ S d) p -> labelled g (2 ^ S d) (r g p)) ->
  exists labels, rb_partition ub e top (2 ^ S d) g = RbPartition labels (2 ^ S d) /\ labelled g (2 ^ S d) labels.
Proof. exact rb_top_ok. Qed.
Print Assumptions C52_rb_partition.

(** C52. The labels are those of the tree of bipartitions: the i-th bit of the label of a node (from the most
    significant one) is its side in the bipartition of its block on level i. *)
Theorem C52_rb_labels : forall ub e g d, rb_env_ok e -> lg_ok g -> (N.of_nat (2 ^ S d) < 2 ^ 31)%N ->
  (forall g b kp, rb_bipartition e g b kp = Some (split_of e g b kp) /\ labelled g 2 (split_of e g b kp)) /\
  rb_partition ub e None (2 ^ S d) g = RbPartition (map (tree_label (split_of e) (e_order e) d g 0 1) (seq 0 (length g))) (2 ^ S d).
Proof. exact (fun ub e g d He Hg Hk => conj (split_ok e He) (rb_labels_ok ub e g d He Hg Hk)). Qed.
Print Assumptions C52_rb_labels.
(** C52. The blocks nest: the label after d + 1 levels is the label after d + j + 1 levels without its last j bits. *)
Theorem C52_rb_nested : forall e, rb_env_ok e -> forall j d g b kp u, lg_ok g -> u < length g ->
  tree_label (split_of e) (e_order e) d g b kp u = tree_label (split_of e) (e_order e) (d + j) g b kp u / 2 ^ j.
Proof. exact tree_nested. Qed.
Print Assumptions C52_rb_nested.
Example C52_rb_ex : rb_env_ok ex_env /\ rb_env_ok ex_env2 /\ lg_ok path8 /\
  rb_partition 0 ex_env None 4 path8 = RbPartition [3; 0; 2; 1; 3; 0; 2; 1] 4 /\
  rb_partition 0 ex_env2 None 4 path8 = RbPartition [1; 1; 3; 3; 0; 0; 2; 2] 4.
Proof. exact (conj ex_env_ok (conj ex_env2_ok (conj path8_ok ex_rb))). Qed.

(** C52. If the bipartitions on the last level keep the limits they are given, the result keeps the caller's limits. *)
Theorem C52_rb_balanced : forall ub e g d ls, rb_env_ok e -> lg_ok g -> length ls = 2 ^ S d -> (N.of_nat (2 ^ S d) < 2 ^ 31)%N ->
  (forall g' b m0 m1, sub_of (split_of e) (e_order e) (2 ^ S d) g g' b (2 ^ d) -> twoway_limits ub false ls b (2 ^ d) (2 ^ S d) = Some (m0, m1) ->
     (label_weight g' (split_of e g' b (2 ^ d)) 0 <= m0)%Z /\ (label_weight g' (split_of e g' b (2 ^ d)) 1 <= m1)%Z) ->
  exists labels, rb_partition ub e None (2 ^ S d) g = RbPartition labels (2 ^ S d) /\
    forall f, f < 2 ^ S d -> (label_weight g labels f <= nth f ls 0)%Z.
Proof. exact rb_balanced. Qed.
Print Assumptions C52_rb_balanced.
Example C52_rb_balanced_ex : forall g' b m0 m1, sub_of (split_of ex_env) (e_order ex_env) (2 ^ 2) path8 g' b (2 ^ 1) ->
  twoway_limits 0 false [5; 4; 4; 3]%Z b (2 ^ 1) (2 ^ 2) = Some (m0, m1) ->
  (label_weight g' (split_of ex_env g' b (2 ^ 1)) 0 <= m0)%Z /\ (label_weight g' (split_of ex_env g' b (2 ^ 1)) 1 <= m1)%Z.
Proof. exact ex_last_level. Qed.

(** C52. Numbers of blocks that are no powers of two are refused. *)
Theorem C52_rb_refused : forall ub e top k g, (forall L, k <> 2 ^ L) -> rb_partition ub e top k g = RbThrow.
Proof. exact rb_refused. Qed.
Print Assumptions C52_rb_refused.
(** C52, finding. One block is a power of two but yields a partition into two blocks. *)
Theorem C52_rb_one_block_refuted : exists e g labels, rb_env_ok e /\ lg_ok g /\ length g = 8 /\ rb_partition 0 e None 1 g = RbPartition labels 2 /\ In 1 labels.
Proof. exact ex_one_block. Qed.
Print Assumptions C52_rb_one_block_refuted.

(** C52. The k-way mode ends for every k >= 2 without an out-of-bounds access with one label below k per node of the
    input graph; the initial partition into k blocks refines the first bipartition. *)
Theorem C52_kway_partition : forall ub pool refine k factor threads choices junk junkz gc lvs,
  lg_ok gc -> hierarchy gc lvs -> 2 <= k -> (N.of_nat k < 2 ^ 31)%N -> (factor = 0 \/ exists j, 1 <= j /\ factor = 2 ^ j) ->
  labelled gc 2 (pool gc) -> (forall kp, choice_ok gc kp (choices kp)) -> (forall l g p, labelled g k p -> labelled g k (refine l g p)) ->
  exists init labels, kway_initial ub pool k factor threads choices junk junkz gc = Some init /\ refines (pool gc) init k /\
    kway_partition ub pool refine k factor threads choices junk junkz gc lvs = Some labels /\ labelled (finest gc lvs) k labels.
Proof. exact kway_ok. Qed.
Print Assumptions C52_kway_partition.
Example C52_kway_ex : kway_partition 0 (fun g => map (fun u => u mod 2) (seq 0 (length g))) (fun _ _ p => p) 5 2 4 (ex_choice 8) (fun i => i) Z.of_nat path8 [] =
  Some [2; 4; 1; 3; 2; 4; 0; 3] /\ labelled path8 2 (map (fun u => u mod 2) (seq 0 (length path8))) /\ (forall kp, choice_ok path8 kp (ex_choice 8 kp)).
Proof. exact ex_kway. Qed.
