(* Statements in terms of the specification vocabulary, and concrete cases. *)
From Verif Require Import Lib.Prelude Spec.Induced Spec.Level Spec.ExtendSpec Model.MathModel Model.PartUtilsModel Model.SubgraphModel Model.ExtendModel Model.DeepModel
  Proofs.SubgraphBase Proofs.SubgraphPar Proofs.SubgraphSeq Proofs.SubgraphLazy Proofs.ExtendStep Proofs.ExtendTop Proofs.DeepProofs.

Lemma listing_members part n b : length part = n -> listing part (seq 0 n) b = members part b.
Proof. intros <-. reflexivity. Qed.

Lemma listing_in part order b : Permutation order (seq 0 (length part)) ->
  NoDup (listing part order b) /\ forall u, In u (listing part order b) <-> u < length part /\ nth u part 0 = b.
Proof.
  intros P. split.
  - apply NoDup_filter. apply (Permutation_NoDup (Permutation_sym P)), seq_NoDup.
  - intros u. unfold listing. rewrite filter_In, Nat.eqb_eq. split.
    + intros (H1 & H2). apply (Permutation_in u P), in_seq in H1. split; [lia|]. rewrite <- H2. apply nth_indep. lia.
    + intros (H1 & H2). split; [apply (Permutation_in u (Permutation_sym P)), in_seq; lia|]. rewrite <- H2 at 2. apply nth_indep. lia.
Qed.

Lemma extract_listing ub g part kp k order border mem : lg_ok g -> labelled g kp part -> level_ok kp k -> (N.of_nat k < 2 ^ 31)%N ->
  Permutation order (seq 0 (length g)) -> Permutation border (seq 0 kp) -> mem_fits g k mem ->
  exists mem' mapping views nst est,
  extract_subgraphs ub g part kp k order border mem = Some (mem', mapping, views, nst, est) /\
  length views = kp /\ length mapping = length g /\
  nth 0 nst 0 = 0 /\ nth kp nst 0 = length g + k /\ nth 0 est 0 = 0 /\ nth kp est 0 <= lg_m g /\
  forall b, b < kp ->
    read_view mem' (nth b views (View 0 0 0 0 false false)) = Some (induced (listing part order b) g) /\
    (forall u, In u (listing part order b) -> nth u mapping 0 = index_of u (listing part order b)) /\
    (exists fk, final_k ub b kp k = Some fk /\ 1 <= fk /\
       nth (S b) nst 0 = nth b nst 0 + length (listing part order b) + fk /\
       nth (S b) est 0 = nth b est 0 + lg_m (induced (listing part order b) g) /\
       v_ns (nth b views (View 0 0 0 0 false false)) = nth b nst 0 /\ v_es (nth b views (View 0 0 0 0 false false)) = nth b est 0).
Proof.
  intros Hok (Hl & Hlab) Hlv Hk Ho Hb Hf.
  destruct (extract_ok ub g part kp k order border mem Hok Hl Hlab Hlv Hk Ho Hb Hf) as (mem1 & mapping & views & nst & est & E & Z & Lv & Lm & N0 & Nk & E0 & Ek & Ln & Le & H).
  do 5 eexists. split; [exact E|]. do 6 (split; [assumption|]). intros b Hbk.
  destruct (H b Hbk) as (A1 & A2 & fk & A3 & A4 & A5 & A6 & A7). rewrite <- listing_blk in *.
  split; [exact A1|]. split; [exact A2|]. exists fk. rewrite A5. cbn [v_ns v_es]. repeat split; auto.
Qed.

Lemma lazy_listing g part kp order garbage : lg_ok g -> labelled g kp part -> Permutation order (seq 0 (length g)) ->
  exists mapping offs block_nodes ecnt,
  lazy_preprocess g part kp order garbage = Some (mapping, offs, block_nodes, ecnt) /\
  forall b, b < kp ->
    let us := listing part order b in
    nth (S b) offs 0 - nth b offs 0 = length us /\
    firstn (length us) (skipn (nth b offs 0) block_nodes) = us /\
    nth b ecnt 0 = lg_m (induced us g) /\
    (forall u, In u us -> nth u mapping 0 = index_of u us) /\
    forall mem, fits (lg_is_nw g) (lg_is_ew g) 0 (length us + 1) 0 (lg_m (induced us g)) mem ->
      exists mem' v, extract_subgraph g part b us mapping mem = Some (mem', v) /\
        frame 0 (length us + 1) 0 (lg_m (induced us g)) mem mem' /\
        read_view mem' v = Some (induced us g).
Proof.
  intros Hok (Hl & Hlab) Ho.
  destruct (lazy_ok g part kp order garbage Hok Hl Hlab Ho) as (mapping & offs & bn & ecnt & E & Lm & H).
  do 4 eexists. split; [exact E|]. intros b Hb. cbn zeta. destruct (H b Hb) as (A1 & A2 & A3 & A4 & A5).
  rewrite <- listing_blk in *. split; [lia|]. do 3 (split; [assumption|]). intros mem F. destruct (A5 mem F) as (m' & B1 & B2 & B3). eauto.
Qed.

Lemma step_labels ub g k c mem part l desired : lg_ok g -> labelled g (2 ^ l) part -> (N.of_nat k < 2 ^ 31)%N ->
  2 ^ l <= desired -> level_ok desired k -> choice_ok g (2 ^ l) c -> mem_fits g k mem ->
  exists mem' num, extend_step ub g k c mem part (2 ^ l) desired =
      Some (mem', map (extended_label (c_bip c) g part (c_order c) (2 ^ l) num) (seq 0 (length g))) /\
    (forall b, b < 2 ^ l -> if desired =? k then final_k ub b (2 ^ l) k = Some (num b) else num b = desired / 2 ^ l) /\
    list_sum (map num (seq 0 (2 ^ l))) = desired /\ (forall b, b < 2 ^ l -> 1 <= num b) /\
    forall u, u < length g -> let b := nth u part 0 in
      list_sum (map num (seq 0 b)) <= extended_label (c_bip c) g part (c_order c) (2 ^ l) num u < list_sum (map num (seq 0 b)) + num b.
Proof.
  intros Hok (Hl & Hlab) Hk Hld Hd (C1 & C2 & C3 & C4) Hm.
  destruct (extend_step_ok ub g k c part l desired) with (mem := mem) as (mem' & fks & E & Z & S & N); auto.
  exists mem', (nums k l desired fks). split; [exact E|]. split.
  { intros b Hb. unfold nums. destruct (Nat.eqb_spec desired k); auto. apply N; auto. }
  split; [exact S|]. split; [intros b Hb; apply N; auto|].
  apply (extended_refines (c_bip c) g part (c_order c) (2 ^ l) _ desired); auto. intros b Hb; apply N; auto.
Qed.

Lemma lazy_step_labels ub g k c tid mems part l desired : lg_ok g -> labelled g (2 ^ l) part -> (N.of_nat k < 2 ^ 31)%N ->
  2 ^ l <= desired -> level_ok desired k -> choice_ok g (2 ^ l) c -> (forall b, b < 2 ^ l -> tid b < length mems) ->
  (forall m, In m mems -> lazy_mem_ok (lg_is_nw g) (lg_is_ew g) m) ->
  exists mems' num, extend_lazy_step ub g k c tid mems part (2 ^ l) desired =
      Some (mems', map (extended_label (c_bip c) g part (c_order c) (2 ^ l) num) (seq 0 (length g))) /\
    (forall b, b < 2 ^ l -> if desired =? k then final_k ub b (2 ^ l) k = Some (num b) else num b = desired / 2 ^ l) /\
    list_sum (map num (seq 0 (2 ^ l))) = desired /\ (forall b, b < 2 ^ l -> 1 <= num b) /\
    forall u, u < length g -> let b := nth u part 0 in
      list_sum (map num (seq 0 b)) <= extended_label (c_bip c) g part (c_order c) (2 ^ l) num u < list_sum (map num (seq 0 b)) + num b.
Proof.
  intros Hok (Hl & Hlab) Hk Hld Hd (C1 & C2 & C3 & C4) Ht Hm.
  destruct (extend_lazy_ok ub g k c part l desired) with (tid := tid) (mems := mems) as (mem' & fks & E & Z & _ & S & N); auto.
  exists mem', (nums k l desired fks). split; [exact E|]. split.
  { intros b Hb. unfold nums. destruct (Nat.eqb_spec desired k); auto. apply N; auto. }
  split; [exact S|]. split; [intros b Hb; apply N; auto|].
  apply (extended_refines (c_bip c) g part (c_order c) (2 ^ l) _ desired); auto. intros b Hb; apply N; auto.
Qed.

(** ** Concrete cases *)
(** Graph literals. *)
Definition mkg (l : list (nat * list (nat * nat))) : lgraph :=
  map (fun r => (Z.of_nat (fst r), map (fun e => (fst e, Z.of_nat (snd e))) (snd r))) l.
Definition lg_okb (g : lgraph) : bool :=
  forallb (fun r => (1 <=? fst r)%Z && forallb (fun e => (fst e <? length g) && (1 <=? snd e)%Z) (snd r)) g.
Lemma lg_okb_ok g : lg_okb g = true -> lg_ok g.
Proof.
  unfold lg_okb. rewrite forallb_forall. intros H w adj Hin. specialize (H _ Hin). cbn [fst snd] in H.
  apply andb_true_iff in H as (H1 & H2). rewrite forallb_forall in H2. split; [now apply Z.leb_le|].
  intros v x Hv. specialize (H2 _ Hv). cbn [fst snd] in H2. apply andb_true_iff in H2 as (H2 & H3).
  split; [now apply Nat.ltb_lt|now apply Z.leb_le].
Qed.
Definition path4 : lgraph := mkg [(2, [(1, 1)]); (1, [(0, 1); (2, 3)]); (1, [(1, 3); (3, 1)]); (3, [(2, 1)])].
Definition ex_mem : smem := Smem (repeat 77 12) (repeat 77 6) (repeat 77%Z 12) (repeat 77%Z 6).
(** A bipartitioner that alternates sides. *)
Definition alt_bip (g : lgraph) (abs k : nat) : list nat := map (fun u => u mod 2) (seq 0 (length g)).
Definition ex_choice (n kp : nat) : choice := Choice alt_bip (rev (seq 0 n)) (seq 0 kp) (rev (seq 0 kp)) 9 9%Z.

Lemma alt_bipartitioner : bipartitioner alt_bip.
Proof.
  intros g a k. unfold alt_bip. rewrite map_length, seq_length. split; auto. intros s Hs. apply in_map_iff in Hs as (x & <- & _).
  apply Nat.mod_upper_bound. lia.
Qed.
Lemma ex_choice_ok g kp : choice_ok g kp (ex_choice (length g) kp).
Proof.
  split; [apply alt_bipartitioner|]. cbn [c_order c_build c_rec ex_choice].
  split; [apply Permutation_sym, Permutation_rev|]. split; [apply Permutation_refl|apply Permutation_sym, Permutation_rev].
Qed.
Lemma path4_ok : lg_ok path4.
Proof. apply lg_okb_ok. reflexivity. Qed.
Lemma ex_mem_fits : mem_fits path4 8 ex_mem.
Proof. repeat split; cbn; intros; lia. Qed.

(** Extraction of the blocks {0, 3} and {1, 2} of a path; node assignment in the order 3, 2, 1, 0. *)
Definition ex_part : list nat := [0; 1; 1; 0].
Lemma ex_part_labelled : labelled path4 2 ex_part.
Proof. split; auto. intros x [<-|[<-|[<-|[<-|[]]]]]; lia. Qed.
Lemma ex_level : level_ok 2 8.
Proof. split; [lia|split; [lia|left; exists 1; reflexivity]]. Qed.
Lemma ex_extract :
  match extract_subgraphs 0 path4 ex_part 2 8 (rev (seq 0 4)) [1; 0] ex_mem with
  | Some (mem', mapping, views, nst, est) => Some (mapping, nst, est, map (read_view mem') views)
  | None => None
  end = Some ([1; 1; 0; 0], [0; 6; 12], [0; 0; 2], [Some (mkg [(3, []); (2, [])]); Some (mkg [(1, [(1, 3)]); (1, [(0, 3)])])]).
Proof. vm_compute. reflexivity. Qed.

Lemma ex_seq :
  match extract_sequential path4 ex_part 2 3 1 0 77 77%Z ex_mem with
  | Some (mem', (v0, v1)) => (read_view mem' v0, read_view mem' v1)
  | None => (None, None)
  end = (Some (mkg [(2, []); (3, [])]), Some (mkg [(1, [(1, 3)]); (1, [(0, 3)])])).
Proof. vm_compute. reflexivity. Qed.

(** Extension of a 2-way partition to 5 blocks. *)
Lemma ex_extend :
  option_map snd (extend_partition 0 (mkg (repeat (1, []) 8)) 5 2 4 (ex_choice 8) (Smem (repeat 7 13) [] [] []) [0; 0; 1; 1; 0; 0; 1; 1] 2 5) =
  Some [2; 1; 4; 3; 2; 0; 4; 3].
Proof. vm_compute. reflexivity. Qed.

(** ** Findings *)
(** Two hierarchies on which memory is too small. *)
Definition fine8 : lgraph := mkg [(1, [(1, 5)]); (1, [(0, 5); (2, 1)]); (1, [(1, 1); (3, 5)]); (1, [(2, 5); (4, 1)]);
  (1, [(3, 1); (5, 5)]); (1, [(4, 5); (6, 1)]); (1, [(5, 1); (7, 5)]); (1, [(6, 5)])].
Definition coarse4 : lgraph := mkg [(2, [(1, 1)]); (2, [(0, 1); (2, 1)]); (2, [(1, 1); (3, 1)]); (2, [(2, 1)])].
Definition coarse2 : lgraph := mkg [(4, [(1, 1)]); (4, [(0, 1)])].
Definition pairs (n : nat) : list nat := map (fun u => u / 2) (seq 0 n).
Definition no_refine (lvl ph : nat) (g : lgraph) (kp : nat) (part : list nat) : list nat := part.
Definition any_choice (lvl : nat) (g : lgraph) (kp : nat) : choice := ex_choice (length g) kp.

Lemma lazy_memory_too_small :
  exists c k lvs g part, levels_ok c (fun _ _ => True) g lvs /\ lg_ok g /\ labelled g 2 part /\ level_ok 2 k /\
    uncoarsen (ext_lazy 0 k 0 1 (length lvs) 1 any_choice (fun _ => 0)) no_refine c k false lvs g [free_smem] part 2 = None.
Proof.
  exists 1, 8, [Level coarse4 (pairs 4); Level fine8 (pairs 8)], coarse2, [0; 1].
  split; [|split; [apply lg_okb_ok; reflexivity|split; [split; [reflexivity|intros x [<-|[<-|[]]]; lia]|split; [apply ex_level|vm_compute; reflexivity]]]].
  cbn [levels_ok lv_g lv_map]. split; [apply lg_okb_ok; reflexivity|]. split; [vm_compute; congruence|]. split; [reflexivity|].
  split; [intros x [<-|[<-|[<-|[<-|[]]]]]; vm_compute; lia|]. split; auto.
  split; [apply lg_okb_ok; reflexivity|]. split; [vm_compute; congruence|]. split; [reflexivity|].
  split; [intros x [<-|[<-|[<-|[<-|[<-|[<-|[<-|[<-|[]]]]]]]]]; vm_compute; lia|]. auto.
Qed.

Definition plain (w n : nat) : lgraph := mkg (repeat (w, []) n).
Lemma prealloc_freed_too_early :
  exists c k lvs g part n m nw mw last_lvl,
    levels_ok c (fun _ _ => True) g lvs /\ lg_ok g /\ labelled g 2 part /\ level_ok 2 k /\
    plan_search c k (lg_is_nw (finest g lvs)) (lg_is_ew (finest g lvs)) 1 (length (finest g lvs), lg_m (finest g lvs)) [(length g, lg_m g)] = Some (n, m, nw, mw, last_lvl) /\
    uncoarsen (ext_prealloc 0 k 0 1 last_lvl any_choice) no_refine c k false lvs g (weighted_resize n k m nw mw) part 2 = None.
Proof.
  exists 2, 5, [Level (plain 1 8) (pairs 8)], (plain 2 4), [0; 1; 0; 1], 8, 0, 4, 0, 0.
  split; [|split; [apply lg_okb_ok; reflexivity|split; [split; [reflexivity|intros x [<-|[<-|[<-|[<-|[]]]]]; lia]|split; [|split; vm_compute; reflexivity]]]].
  - cbn [levels_ok lv_g lv_map]. split; [apply lg_okb_ok; reflexivity|]. split; [vm_compute; congruence|]. split; [reflexivity|].
    split; [intros x [<-|[<-|[<-|[<-|[<-|[<-|[<-|[<-|[]]]]]]]]]; vm_compute; lia|]. auto.
  - split; [lia|split; [lia|left; exists 1; reflexivity]].
Qed.

(** An uncoarsening that meets the hypotheses: 2 blocks to 5 over two levels. *)
Lemma ex_uncoarsen :
  levels_ok 2 weights_carry coarse2 [Level coarse4 (pairs 4)] /\ lg_ok coarse2 /\ labelled coarse2 2 [0; 1] /\ level_ok 2 5 /\
  lazy_mem_ok (lg_is_nw coarse2) (lg_is_ew coarse2) free_smem /\
  match uncoarsen (ext_lazy 0 5 0 1 9 1 any_choice (fun _ => 0)) no_refine 2 5 false [Level coarse4 (pairs 4)] coarse2 [free_smem] [0; 1] 2 with
  | Some (_, _, part, kp, _, tr) => Some (part, kp, tr)
  | None => None
  end = Some ([2; 0; 4; 3], 5, [5; 2]).
Proof.
  split; [|split; [apply lg_okb_ok; reflexivity|split; [split; [reflexivity|intros x [<-|[<-|[]]]; lia]|split; [split; [lia|split; [lia|left; exists 1; reflexivity]]|split; [split; intros _; cbn; lia|vm_compute; reflexivity]]]]].
  cbn [levels_ok lv_g lv_map]. split; [apply lg_okb_ok; reflexivity|]. split; [vm_compute; congruence|]. split; [reflexivity|].
  split; [intros x [<-|[<-|[<-|[<-|[]]]]]; vm_compute; lia|]. split; auto. split; vm_compute; auto.
Qed.
