(* Concrete node orders. *)
From Verif Require Import Lib.Prelude Model.LpOrderModel Spec.LpOrderSpec Proofs.LpOrderProofs.

(** Two workers take turns; the vector of worker 1 comes first; chunks are reversed; nodes are visited backwards. *)
Definition turns (b m : nat) : list nat * list nat := (map (fun j => j mod 2) (seq 0 m), [1; 0]).
Definition backwards (psize i : nat) (c : chunk) : list nat * list nat := (rev (seq 0 psize), rev (seq 0 (num_sub_chunks psize c))).
Definition ex_iteration (from : nat) (to : option nat) (active : nat -> bool) (passed : option nat) : iteration :=
  Iteration from to turns (fun _ cs => rev cs) (backwards 2) active passed.

Lemma ex_iteration_ok from to active passed : iteration_ok 2 (ex_iteration from to active passed).
Proof.
  split; [|split].
  - intros b m. split; [cbn; rewrite map_length, seq_length; reflexivity|]. split.
    + constructor; [intros [E|[]]; discriminate E|]. constructor; [intros []|constructor].
    + intros t H. cbn [fst snd turns it_dist ex_iteration] in *. apply in_map_iff in H as (j & <- & _).
      pose proof (Nat.mod_upper_bound j 2 ltac:(lia)). destruct (j mod 2) as [|[|x]]; [right; left; reflexivity|left; reflexivity|lia].
  - intros b cs. cbn. apply Permutation_sym, Permutation_rev.
  - intros i c. cbn [fst snd backwards it_perms ex_iteration]. split; apply Permutation_sym, Permutation_rev.
Qed.

(** A path with 9 nodes, sorted by degree: the ends are nodes 0 and 1. *)
Definition path9 : list nat := [1; 1; 2; 2; 2; 2; 2; 2; 2].
Definition path9_buckets : list nat := [0; 0; 2; 9].

Example path9_ok : degree_buckets_ok path9 path9_buckets 3.
Proof.
  split; [split; [reflexivity|split; [reflexivity|]]|].
  - intros b Hb. destruct b as [|[|[|b]]]; cbn; lia.
  - intros u Hu. cbn in Hu. do 9 (destruct u as [|u]; [cbn; lia|]). lia.
Qed.

(** Two iterations with bound 8: all nodes, in different orders; the second one skips inactive nodes and is stopped early. *)
Example path9_orders : iterations path9 path9_buckets 3 4 3 2 100 8
  [ex_iteration 0 None (fun _ => true) None; ex_iteration 0 None (fun u => negb (u =? 3)) (Some 3)] [] =
  Some [[1; 0; 8; 4; 3; 2; 7; 6; 5]; [1; 0; 6; 5; 7]].
Proof. vm_compute. reflexivity. Qed.

Example path9_ranged : option_map snd (perform_iteration path9 path9_buckets 3 4 3 2 100 8 (ex_iteration 1 (Some 5) (fun _ => true) None) []) = Some [1; 4; 3; 2].
Proof. vm_compute. reflexivity. Qed.

(** Unsorted: a star with 5 nodes and bound 4: the centre is skipped. *)
Example star_orders : iterations [1; 1; 4; 1; 1] [0; 5] 1 4 3 2 100 4 [ex_iteration 0 None (fun _ => true) None] [] = Some [[1; 0; 4; 3]].
Proof. vm_compute. reflexivity. Qed.

(** The order of initial bipartitioning with chunks of 2 nodes. *)
Example path9_initial : initial_order path9_buckets 3 2 8 (fun b => match b with 1 => [0] | 2 => [2; 0; 1] | _ => [] end) (fun _ _ => [1; 0]) =
  Some [1; 0; 7; 6; 3; 2; 5; 4; 8].
Proof. vm_compute. reflexivity. Qed.
Example path9_initial_hyps : (forall b, b < 3 -> Permutation ((fun b => match b with 1 => [0] | 2 => [2; 0; 1] | _ => [] end) b)
  (seq 0 ((nth (S b) path9_buckets 0 - nth b path9_buckets 0) / 2))) /\ Permutation [1; 0] (seq 0 2).
Proof.
  split; [|constructor]. intros [|[|[|b]]] H; [constructor|apply Permutation_refl| |lia].
  cbn. apply Permutation_sym. eapply Permutation_trans; [apply perm_skip, perm_swap|]. apply perm_swap.
Qed.

(** ** Findings *)

(** Whatever the bound: in a complete graph whose degree is about a quarter to half of the bound no node is visited. *)
Lemma complete_graph_skipped maxe maxn psize range max_degree : 2 <= max_degree -> (N.of_nat max_degree < 2 ^ 32)%N -> 1 <= maxn -> 1 <= psize ->
  exists degs bk nb, degree_buckets_ok degs bk nb /\ degs <> [] /\ (forall u, u < length degs -> 0 < nth u degs 0 < max_degree) /\
    (length degs + psize <= range -> forall its, Forall (fun it => iteration_ok psize it /\ it_from it = 0 /\ it_to it = None) its ->
      exists vss, iterations degs bk nb maxe maxn psize range max_degree its [] = Some vss /\ length vss = length its /\ Forall (fun vs => vs = []) vss).
Proof.
  intros Hd Hw Hm Hp. set (d := 2 ^ (Nat.log2 max_degree - 1)).
  assert (L : 1 <= Nat.log2 max_degree) by (change 1 with (Nat.log2 2); apply Nat.log2_le_mono; lia).
  assert (Pd : 1 <= d) by (unfold d; pose proof (Nat.pow_nonzero 2 (Nat.log2 max_degree - 1)); lia).
  assert (Ld : d < max_degree).
  { eapply Nat.lt_le_trans; [|apply (Nat.log2_spec max_degree); lia]. unfold d. apply Nat.pow_lt_mono_r; lia. }
  assert (Lg : Nat.log2 d = Nat.log2 max_degree - 1) by (unfold d; apply Nat.log2_pow2; lia).
  clearbody d. pose proof (complete_buckets d Pd) as HD.
  exists (repeat d (S d)), (repeat 0 (S (S (Nat.log2 d))) ++ [S d]), (S (S (Nat.log2 d))).
  split; [exact HD|]. split; [discriminate|]. split.
  - intros u Hu. rewrite repeat_length in Hu. rewrite nth_repeat_lt by exact Hu. lia.
  - intros Hr its F. destruct (iterations_ok _ _ _ maxe maxn psize range max_degree its (proj1 HD) Hm Hp Hr ltac:(lia) Hw F) as (vss & E & V).
    exists vss. split; [exact E|]. revert V. clear E F. intros V. induction V as [|it vs its vss (H & _) V IH]; [split; [reflexivity|constructor]|].
    destruct IH as (IH1 & IH2). split; [cbn; f_equal; exact IH1|]. constructor; [|exact IH2].
    destruct vs as [|u vs]; [reflexivity|]. exfalso. destruct (H _ (Permutation_refl _)) as ((_ & I) & _). destruct (I u (or_introl eq_refl)) as ((_ & Hu) & _).
    assert (Hn : u < length (repeat d (S d))).
    { eapply Nat.lt_le_trans; [exact Hu|]. 
      pose proof (first_mono _ _ _ (proj1 HD) (Nat.min (Nat.log2 max_degree) (S (S (Nat.log2 d)))) (S (S (Nat.log2 d))) ltac:(lia) ltac:(lia)) as X.
      pose proof (proj1 (proj2 (proj1 HD))) as Y. unfold visited_end. lia. }
    assert (Eu : nth u (repeat d (S d)) 0 = d) by (rewrite repeat_length in Hn; apply nth_repeat_lt; exact Hn).
    apply (sorted_end _ _ _ max_degree u HD Hn) in Hu; [|rewrite Eu; lia]. rewrite Eu in Hu. lia.
Qed.

(** An iteration over all nodes after one over a part visits that part only. *)
Lemma stale_chunks : exists degs bk nb its vss, degree_buckets_ok degs bk nb /\ Forall (iteration_ok 2) its /\
  iterations degs bk nb 4 3 2 100 8 its [] = Some vss /\
  exists it, nth_error its 1 = Some it /\ it_from it = 0 /\ it_to it = None /\ it_passed it = None /\ (forall u, it_active it u = true) /\
    ~ (forall vs, nth_error vss 1 = Some vs -> forall u, u < length degs -> 0 < nth u degs 0 < 2 -> In u vs).
Proof.
  exists path9, path9_buckets, 3, [ex_iteration 1 (Some 5) (fun _ => true) None; ex_iteration 0 None (fun _ => true) None], [[1; 4; 3; 2]; [1; 3; 2; 4]].
  split; [exact path9_ok|]. split; [constructor; [apply ex_iteration_ok|constructor; [apply ex_iteration_ok|constructor]]|]. split; [vm_compute; reflexivity|].
  exists (ex_iteration 0 None (fun _ => true) None). split; [reflexivity|]. do 4 (split; [reflexivity|]). intros H.
  specialize (H [1; 3; 2; 4] eq_refl 0 ltac:(cbn; lia) ltac:(cbn; lia)). cbn in H. intuition discriminate.
Qed.

(** The last chunk of a graph with the largest number of nodes: identifiers wrap around and node 0 is visited as well. *)
Lemma wrapped_chunk psize range : 3 <= psize -> 3 <= range -> exists c perm subs, snd c < range /\ fst c < snd c /\
  Permutation perm (seq 0 psize) /\ Permutation subs (seq 0 (num_sub_chunks psize c)) /\
  exists u, In u (chunk_visits psize range perm subs c) /\ ~ (fst c <= u < snd c).
Proof.
  intros Hp Hr. exists (range - 2, range - 1), (seq 0 psize), (seq 0 (num_sub_chunks psize (range - 2, range - 1))).
  cbn [fst snd]. split; [lia|]. split; [lia|]. split; [apply Permutation_refl|]. split; [apply Permutation_refl|].
  exists 0. split; [|lia]. unfold chunk_visits. cbn [fst snd]. apply filter_In. split; [|apply Nat.ltb_lt; lia].
  apply in_flat_map. exists 0. split.
  - apply in_seq. destruct (ceil_bounds (range - 1 - (range - 2)) psize ltac:(lia)) as (B1 & _). unfold num_sub_chunks. cbn [fst snd] in *.
    set (k := N.to_nat _) in *. clearbody k. destruct k; lia.
  - apply in_map_iff. exists 2. split; [|apply in_seq; lia]. replace (range - 2 + psize * 0 + 2) with (1 * range) by lia. apply Nat.mod_mul. lia.
Qed.
