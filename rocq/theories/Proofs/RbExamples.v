(* Concrete runs of the recursive bipartitioning mode and of the k-way mode. *)
From Verif Require Import Lib.Prelude Spec.Induced Spec.ExtendSpec Spec.Level Spec.RbSpec Model.SubgraphModel Model.ExtendModel Model.DeepModel Model.ContextModel Model.RbModel
  Proofs.ExtendCases Proofs.RbProofs.

(** A weighted path of eight nodes. *)
Definition path8 : lgraph :=
  map (fun u => (Z.of_nat (1 + u mod 3),
                 (if u =? 0 then [] else [(u - 1, Z.of_nat u)]) ++ (if u =? 7 then [] else [(u + 1, Z.of_nat (S u))]))) (seq 0 8).

(** Alternating bipartitions, no coarsening, a refiner that flips all labels on even blocks, nodes numbered backwards,
    junk in memory. *)
Definition ex_env : rb_env := RbEnv
  (fun g _ _ => (g, []))
  (fun g _ _ => map (fun u => u mod 2) (seq 0 (length g)))
  (fun b _ _ g p => if Nat.even b then map (fun x => if x =? 0 then 1 else 0) p else p)
  (fun g _ _ => rev (seq 0 (length g)))
  (fun _ b _ => if Nat.even b then [1; 0] else [0; 1])
  (fun _ _ _ i => 7 * i) (fun _ _ _ i => Z.of_nat i).

(** Coarsening that merges pairs of nodes. *)
Definition ex_env2 : rb_env := RbEnv
  (fun g _ _ => (repeat (2%Z, []) ((length g + 1) / 2), [Level g (map (fun u => u / 2) (seq 0 (length g)))]))
  (e_pool ex_env) (fun _ _ _ _ p => p) (e_order ex_env) (e_build ex_env) (e_junk ex_env) (e_junkz ex_env).

Lemma alternating_labelled (g : lgraph) : labelled g 2 (map (fun u => u mod 2) (seq 0 (length g))).
Proof.
  split; [now rewrite map_length, seq_length|]. intros x Hx. apply in_map_iff in Hx. destruct Hx as (u & <- & _). apply Nat.mod_upper_bound. lia.
Qed.

Lemma ex_build_ok b : Permutation (if Nat.even b then [1; 0] else [0; 1]) [0; 1].
Proof. destruct (Nat.even b); [apply perm_swap|apply Permutation_refl]. Qed.

Lemma ex_env_ok : rb_env_ok ex_env.
Proof.
  split; [|split; [|split; [|split]]]; cbn [ex_env e_levels e_pool e_refine e_order e_build fst snd].
  - intros g _ _. split; [exact I|reflexivity].
  - intros g _ _. apply alternating_labelled.
  - intros b _ _ g p [L H]. destruct (Nat.even b); [|split; auto]. split; [now rewrite map_length|].
    intros x Hx. apply in_map_iff in Hx. destruct Hx as (y & <- & _). destruct (y =? 0); lia.
  - intros g _ _. apply Permutation_sym, Permutation_rev.
  - intros _ b _. apply ex_build_ok.
Qed.

Lemma ex_env2_ok : rb_env_ok ex_env2.
Proof.
  split; [|split; [|split; [|split]]]; cbn [ex_env2 ex_env e_levels e_pool e_refine e_order e_build fst snd].
  - intros g _ _. split; [|reflexivity]. cbn [hierarchy lv_map lv_g]. rewrite map_length, seq_length, repeat_length. split; [auto|]. split; [|exact I].
    intros x Hx. apply in_map_iff in Hx. destruct Hx as (u & <- & Hu). apply in_seq in Hu. apply Nat.div_le_lower_bound; [lia|].
    pose proof (Nat.div_mod u 2). pose proof (Nat.mod_upper_bound u 2). lia.
  - intros g _ _. apply alternating_labelled.
  - auto.
  - intros g _ _. apply Permutation_sym, Permutation_rev.
  - intros _ b _. apply ex_build_ok.
Qed.

Lemma path8_ok : lg_ok path8.
Proof.
  intros w adj H. cbn in H.
  repeat (destruct H as [H|H]; [injection H as <- <-; split; [lia|]; intros v x Hv; cbn in Hv; repeat (destruct Hv as [Hv|Hv]; [injection Hv as <- <-; cbn; lia|]); destruct Hv|]).
  destruct H.
Qed.

Lemma ex_rb : rb_partition 0 ex_env None 4 path8 = RbPartition [3; 0; 2; 1; 3; 0; 2; 1] 4 /\
  rb_partition 0 ex_env2 None 4 path8 = RbPartition [1; 1; 3; 3; 0; 0; 2; 2] 4.
Proof. vm_compute. auto. Qed.

Lemma ex_one_block : exists e g labels, rb_env_ok e /\ lg_ok g /\ length g = 8 /\ rb_partition 0 e None 1 g = RbPartition labels 2 /\ In 1 labels.
Proof. exists ex_env, path8, [1; 0; 1; 0; 1; 0; 1; 0]. split; [exact ex_env_ok|]. split; [exact path8_ok|]. split; [reflexivity|]. split; [vm_compute; auto|cbn; auto]. Qed.

(** The bipartitions on the last level of the first run respect these limits. *)
Definition ex_limits : list Z := [5; 4; 4; 3]%Z.
Lemma ex_last_level g' b m0 m1 : sub_of (split_of ex_env) (e_order ex_env) (2 ^ 2) path8 g' b (2 ^ 1) ->
  twoway_limits 0 false ex_limits b (2 ^ 1) (2 ^ 2) = Some (m0, m1) ->
  (label_weight g' (split_of ex_env g' b (2 ^ 1)) 0 <= m0)%Z /\ (label_weight g' (split_of ex_env g' b (2 ^ 1)) 1 <= m1)%Z.
Proof.
  intros H. change (2 ^ 1) with 2 in *. inversion H as [|g b0 kp s H' Hlt Hs Eg Eb Ek]. assert (kp = 1) by lia. subst kp. 
  inversion H'; [|lia]. subst. destruct s as [|[|]]; [| |lia]; vm_compute; intros E; injection E as <- <-; split; intros C; discriminate.
Qed.

Lemma ex_kway : kway_partition 0 (fun g => map (fun u => u mod 2) (seq 0 (length g))) (fun _ _ p => p) 5 2 4 (ex_choice 8) (fun i => i) Z.of_nat path8 [] =
  Some [2; 4; 1; 3; 2; 4; 0; 3] /\ labelled path8 2 (map (fun u => u mod 2) (seq 0 (length path8))) /\ (forall kp, choice_ok path8 kp (ex_choice 8 kp)).
Proof. split; [vm_compute; auto|]. split; [apply alternating_labelled|]. intros kp. exact (ex_choice_ok path8 kp). Qed.
