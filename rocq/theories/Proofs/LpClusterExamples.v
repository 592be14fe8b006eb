(* Concrete clusterings. *)
From Verif Require Import Lib.Prelude Spec.Induced Model.LpClusterModel Spec.LpSpec Proofs.Decide.
Local Open Scope Z_scope.

(** A heavy node 1 with the light neighbours 0, 2, 3; nodes 0 and 3 share a second edge; 4 and 5 have no neighbours. *)
Definition ex_g : lgraph :=
  [(1, [(1%nat, 2); (3%nat, 3)]); (4, [(0%nat, 2); (2%nat, 1); (3%nat, 1)]); (1, [(1%nat, 1)]); (1, [(0%nat, 3); (1%nat, 1)]); (1, []); (2, [])].

Lemma ex_g_ok : lg_ok ex_g.
Proof.
  intros w adj I. cbn in I. repeat (destruct I as [I|I]; [injection I as <- <-; split; [lia|]; intros v x J; cbn in J;
    repeat (destruct J as [J|J]; [injection J as <- <-; cbn; lia|]); destruct J|]). destruct I.
Qed.

Lemma ex_g_sym : symmetric ex_g.
Proof.
  intros u v x Hu I. cbn in Hu.
  do 6 (destruct u as [|u]; [cbn in I; repeat (destruct I as [I|I]; [injection I as <- <-; eexists; cbn; tauto|]); destruct I|]). lia.
Qed.

(** Boolean check of [observed]. *)
Definition check_obs (g : lgraph) (cl : list nat) (u : nat) (k : visit_kind) : bool :=
  forallb (fun e => (1 <=? snd (fst e)) && existsb (fun a => (nth (fst a) cl 0 =? fst (fst e))%nat) (lg_adj g u)) (kind_entries k).
Lemma check_obs_ok g cl u k : check_obs g cl u k = true -> observed g [cl] u (kind_entries k).
Proof.
  intros H c r b I. unfold check_obs in H. rewrite forallb_forall in H. specialize (H _ I). cbn [fst snd] in H.
  apply andb_true_iff in H as (R & H). apply Z.leb_le in R. apply existsb_exists in H as ([v x] & A & E). apply Nat.eqb_eq in E.
  split; [exact R|]. exists v, x, cl. split; [exact A|]. split; [left; reflexivity|exact E].
Qed.

Definition cw (s : lps) (c : nat) : Z := nth c (l_w s) 0.

(** Node 0 joins 3; 2 cannot join 1 and remembers it as its favoured cluster; 1 cannot move. *)
Definition ex_s1 := visit ex_g 4 [] true 0 (OnePiece [(1%nat, 2, false); (3%nat, 3, false)] 0 0) (cw (lp_init ex_g)) (cw (lp_init ex_g)) (lp_init ex_g).
Definition ex_s2 := visit ex_g 4 [] true 2 (OnePiece [(1%nat, 1, false)] 0 0) (cw ex_s1) (cw ex_s1) ex_s1.
Definition ex_s3 := visit ex_g 4 [] true 1 (Workers [([(3%nat, 3, false)], (0%nat, 0%nat)); ([(2%nat, 1, true)], (0%nat, 0%nat))] (fun _ => 1) 0 0) (cw ex_s2) (cw ex_s2) ex_s2.

Lemma ex_run : seq_run ex_g 4 [] true ex_s3.
Proof.
  repeat (apply seq_visit; [|cbn; lia|apply check_obs_ok; vm_compute; reflexivity]). apply seq_start.
Qed.

Definition ex_ev : list (nat * nat) := [(0, 4); (1, 1); (0, 5); (1, 2); (1, 3); (0, 0)]%nat.
Lemma ex_sched : schedule ex_g ex_ev.
Proof. unfold schedule. apply NoDup_Permutation; [repeat constructor; cbn; lia|apply seq_NoDup|]. intros x. cbn. lia. Qed.

Lemma lp_example :
  l_cl (finish (Some true) (Some true) ex_g 4 ex_ev ex_ev ex_s3) = [3; 1; 2; 3; 4; 4]%nat /\
  l_w (finish (Some true) (Some true) ex_g 4 ex_ev ex_ev ex_s3) = [0; 4; 1; 2; 3; 0] /\
  l_fav ex_s3 = [0; 1; 1; 3; 4; 5]%nat.
Proof. split; [vm_compute; reflexivity|]. split; vm_compute; reflexivity. Qed.

(** ** Communities *)

(** Two light nodes 0 and 2 of different communities next to a heavy node. *)
Definition com_g : lgraph := [(1, [(1%nat, 1)]); (4, [(0%nat, 1); (2%nat, 1)]); (1, [(1%nat, 1)])].
Definition com : list nat := [0; 0; 1]%nat.

Lemma com_g_ok : lg_ok com_g.
Proof.
  intros w adj I. cbn in I. repeat (destruct I as [I|I]; [injection I as <- <-; split; [lia|]; intros v x J; cbn in J;
    repeat (destruct J as [J|J]; [injection J as <- <-; cbn; lia|]); destruct J|]). destruct I.
Qed.
Lemma com_g_sym : symmetric com_g.
Proof.
  intros u v x Hu I. cbn in Hu.
  do 3 (destruct u as [|u]; [cbn in I; repeat (destruct I as [I|I]; [injection I as <- <-; eexists; cbn; tauto|]); destruct I|]). lia.
Qed.

Definition com_s1 := visit com_g 4 com true 0 (OnePiece [(1%nat, 1, false)] 0 0) (cw (lp_init com_g)) (cw (lp_init com_g)) (lp_init com_g).
Definition com_s2 := visit com_g 4 com true 1 (OnePiece [(0%nat, 1, false); (2%nat, 1, false)] 0 0) (cw com_s1) (cw com_s1) com_s1.
Definition com_s3 := visit com_g 4 com true 2 (OnePiece [(1%nat, 1, false)] 0 0) (cw com_s2) (cw com_s2) com_s2.

Lemma com_run : seq_run com_g 4 com true com_s3.
Proof.
  repeat (apply seq_visit; [|cbn; lia|apply check_obs_ok; vm_compute; reflexivity]). apply seq_start.
Qed.

Definition com_ev : list (nat * nat) := [(0, 0); (0, 1); (0, 2)]%nat.

Lemma two_hop_refuted :
  exists g maxw comm s ev, lg_ok g /\ symmetric g /\ length comm = length g /\ seq_run g maxw comm true s /\ schedule g ev /\
    l_cl s = seq 0 (length g) /\ ~ within_communities comm (l_cl (finish (Some true) (Some true) g maxw ev ev s)).
Proof.
  exists com_g, 4, com, com_s3, com_ev. split; [exact com_g_ok|]. split; [exact com_g_sym|]. split; [reflexivity|]. split; [exact com_run|].
  split; [unfold schedule; apply Permutation_refl|]. split; [vm_compute; reflexivity|].
  intros H. assert (E : l_cl (finish (Some true) (Some true) com_g 4 com_ev com_ev com_s3) = [0; 1; 0]%nat) by (vm_compute; reflexivity).
  rewrite E in H. assert (Q : nth 0 com 0%nat = nth 2 com 0%nat) by (apply H; [apply Nat.leb_le; reflexivity|apply Nat.leb_le; reflexivity|reflexivity]).
  discriminate Q.
Qed.

(** Two nodes without neighbours. *)
Lemma isolated_refuted :
  exists g maxw comm s ev, lg_ok g /\ symmetric g /\ length comm = length g /\ seq_run g maxw comm true s /\ schedule g ev /\
    l_cl s = seq 0 (length g) /\ ~ within_communities comm (l_cl (finish (Some true) None g maxw ev ev s)).
Proof.
  exists [(1, []); (1, [])], 2, [0; 1]%nat, (lp_init [(1, []); (1, [])]), [(0, 0); (0, 1)]%nat.
  split; [intros w adj I; cbn in I; destruct I as [I|[I|[]]]; injection I as <- <-; (split; [lia|intros v x []])|].
  split; [intros u v x Hu I; destruct u as [|[|u]]; cbn in I, Hu; [destruct I|destruct I|lia]|].
  split; [reflexivity|]. split; [apply seq_start|]. split; [apply Permutation_refl|]. split; [reflexivity|].
  intros H. assert (E : l_cl (finish (Some true) None [(1, []); (1, [])] 2 [(0, 0); (0, 1)]%nat [(0, 0); (0, 1)]%nat (lp_init [(1, []); (1, [])])) = [0; 0]%nat) by (vm_compute; reflexivity).
  rewrite E in H. assert (Q : nth 0 [0; 1]%nat 0%nat = nth 1 [0; 1]%nat 0%nat) by (apply H; [apply Nat.leb_le; reflexivity|apply Nat.leb_le; reflexivity|reflexivity]).
  discriminate Q.
Qed.

(** Two nodes that are visited at the same time: both see the other one in its own cluster and swap their clusters. *)
Definition swap_g : lgraph := [(1, [(1%nat, 1)]); (1, [(0%nat, 1)])].
Definition swap_s1 := visit swap_g 2 [0; 0]%nat true 0 (OnePiece [(1%nat, 1, false)] 0 0) (fun _ => 1) (fun _ => 1) (lp_init swap_g).
Definition swap_s2 := visit swap_g 2 [0; 0]%nat true 1 (OnePiece [(0%nat, 1, false)] 0 0) (fun _ => 1) (fun _ => 1) swap_s1.
Lemma swap_example : lp_run swap_g 2 [0; 0]%nat true [l_cl swap_s2; l_cl swap_s1; [0; 1]%nat] swap_s2 /\ l_cl swap_s2 = [1; 0]%nat.
Proof.
  split; [|vm_compute; reflexivity]. apply (lp_visit _ _ _ _ [l_cl swap_s1; [0; 1]%nat] swap_s1).
  - apply (lp_visit _ _ _ _ [[0; 1]%nat] (lp_init swap_g)); [apply lp_start|cbn; lia|].
    intros c r b [I|[]]. injection I as <- <- <-. split; [lia|]. exists 1%nat, 1, [0; 1]%nat. cbn. tauto.
  - cbn; lia.
  - intros c r b [I|[]]. injection I as <- <- <-. split; [lia|]. exists 0%nat, 1, [0; 1]%nat. cbn. tauto.
Qed.

(** Nodes 0 and 2 are matched. *)
Lemma pair_example : lg_ok com_g /\ symmetric com_g /\ seq_run com_g 4 com true com_s3 /\ schedule com_g com_ev /\
  l_cl (finish (Some true) None com_g 4 com_ev com_ev com_s3) = [0; 1; 2]%nat /\
  l_cl (finish (Some true) (Some true) com_g 4 com_ev com_ev com_s3) = [0; 1; 0]%nat.
Proof.
  split; [exact com_g_ok|]. split; [exact com_g_sym|]. split; [exact com_run|]. split; [apply Permutation_refl|].
  split; vm_compute; reflexivity.
Qed.
