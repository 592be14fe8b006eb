(* Move sets: sets made of clusters of the rank are consistent if no cluster has nodes of two blocks. *)
From Coq Require Import Sorting.Sorted.
From Verif Require Import Lib.Prelude Model.DistGraphModel Model.HemModel Model.MoveSetModel Spec.MoveSetSpec Proofs.MoveSetMoves Proofs.MoveSetGhosts.

Lemma lsum_app a b : list_sum (a ++ b) = list_sum a + list_sum b.
Proof. induction a as [|x a IH]; [reflexivity|]. cbn [app list_sum fold_right] in *. fold (list_sum (a ++ b)). fold (list_sum a). lia. Qed.
Definition upto (f : nat -> nat) (c : nat) : nat := list_sum (map f (seq 0 c)).
Lemma upto_S f c : upto f (S c) = upto f c + f c.
Proof. unfold upto. rewrite seq_S, map_app, lsum_app. cbn. lia. Qed.
Lemma upto_mono f a : forall b, a <= b -> upto f a <= upto f b.
Proof. induction b as [|b IH]; intros H; [assert (a = 0) by lia; subst; lia|]. rewrite upto_S. destruct (Nat.eq_dec a (S b)) as [->|]; [rewrite upto_S; lia|]. specialize (IH ltac:(lia)). lia. Qed.
Lemma upto_map f n j : j <= n -> list_sum (firstn j (map f (seq 0 n))) = upto f j.
Proof. intros H. unfold upto. rewrite firstn_map. f_equal. f_equal. replace n with (j + (n - j)) by lia. rewrite seq_app, firstn_app, seq_length, Nat.sub_diag. cbn [firstn]. rewrite app_nil_r. apply firstn_all2. rewrite seq_length. lia. Qed.
Lemma firstn_get {X} (x : X) l : forall j m, j < m -> nth j (firstn m l) x = nth j l x.
Proof. induction l as [|a l IH]; intros j m H; destruct m; try lia; [reflexivity|]. destruct j; [reflexivity|]. cbn. apply IH. lia. Qed.
Lemma upto_add f g c : upto (fun i => f i + g i) c = upto f c + upto g c.
Proof. induction c as [|c IH]; [reflexivity|]. rewrite !upto_S. lia. Qed.
Lemma upto_one x c : upto (fun i => if x =? i then 1 else 0) c = if x <? c then 1 else 0.
Proof. induction c as [|c IH]; [reflexivity|]. rewrite upto_S, IH. destruct (Nat.ltb_spec x c), (Nat.eqb_spec x c), (Nat.ltb_spec x (S c)); lia. Qed.
Lemma upto_ext f g c : (forall i, i < c -> f i = g i) -> upto f c = upto g c.
Proof. induction c as [|c IH]; intros H; [reflexivity|]. rewrite !upto_S, IH by (intros; apply H; lia). rewrite H by lia. reflexivity. Qed.
Lemma upto_classes (f : nat -> nat) n l : (forall x, In x l -> f x < n) -> upto (fun c => length (filter (fun x => f x =? c) l)) n = length l.
Proof.
  induction l as [|x l IH]; intros H.
  - cbn. unfold upto. induction (seq 0 n) as [|y ys IHy]; [reflexivity|exact IHy].
  - rewrite (upto_ext _ (fun c => (if f x =? c then 1 else 0) + length (filter (fun x => f x =? c) l))); [|intros i _; cbn [filter]; destruct (f x =? i); reflexivity].
    rewrite upto_add, upto_one, IH by (intros; apply H; right; assumption). destruct (Nat.ltb_spec (f x) n) as [|Ge]; [reflexivity|]. specialize (H x (or_introl eq_refl)). lia.
Qed.

Section Local.
Variables (d : dcsr) (k : nat) (over : nat -> bool) (blk cl : list nat).
Notation n := (dn d).
Notation gn := (dghost_n d).
Notation adj := (row d).
Hypothesis HG : rank_graph n gn adj.
Hypothesis HB : length blk = n + gn.
Hypothesis HK : forall v, v < n + gn -> nth v blk 0 < k.
Hypothesis HC : forall u, u < n -> over (nth u blk 0) = true -> nth u cl 0 < n.
Hypothesis HR : forall u v, u < n -> v < n -> nth u cl 0 = nth v cl 0 -> nth u blk 0 = nth v blk 0.
Definition ov (u : nat) : bool := over (nth u blk 0).
Definition CU (m c : nat) : list nat := filter (fun u => nth u cl 0 =? c) (filter ov (seq 0 m)).
Lemma CU_S m c : CU (S m) c = CU m c ++ (if ov m && (nth m cl 0 =? c) then [m] else []).
Proof. unfold CU. rewrite seq_S, !filter_app. cbn [filter Nat.add]. destruct (ov m); cbn [filter andb]; [|reflexivity]. destruct (nth m cl 0 =? c); reflexivity. Qed.
Lemma CU_in m c u : In u (CU m c) <-> u < m /\ ov u = true /\ nth u cl 0 = c.
Proof. unfold CU. rewrite !filter_In, in_seq, Nat.eqb_eq. split; intros; intuition lia. Qed.
Lemma CU_mono m m' c : m <= m' -> length (CU m c) <= length (CU m' c).
Proof. induction 1 as [|m' H IH]; [lia|]. rewrite CU_S, app_length. lia. Qed.
Definition pres (c : nat) : nat := match CU n c with [] => 0 | _ => 1 end.
Definition size (c : nat) : nat := length (CU n c).
Notation T := (upto pres).
Notation St := (upto size).
Lemma count_inv m : m <= n -> let s := fold_left (count_step over blk cl) (seq 0 m) (repeat 0 n, repeat 0 n) in
  length (fst s) = n /\ length (snd s) = n /\ forall c, c < n -> nth c (fst s) 0 = (match CU m c with [] => 0 | _ => 1 end) /\ nth c (snd s) 0 = length (CU m c).
Proof.
  cbv zeta. induction m as [|m IH]; intros Hm.
  - cbn [seq fold_left fst snd]. rewrite repeat_length. repeat split; rewrite nth_repeat; reflexivity.
  - rewrite seq_S, fold_left_app. cbn [fold_left Nat.add]. destruct (IH ltac:(lia)) as (A & B & C). set (s := fold_left _ (seq 0 m) _) in *. unfold count_step. destruct (over (nth m blk 0)) eqn:Eo; cbn [fst snd].
    + rewrite !upd_length. split; [exact A|]. split; [exact B|]. intros c Hc. rewrite CU_S. unfold ov. rewrite Eo. cbn [andb]. destruct (C c Hc) as [C1 C2]. destruct (Nat.eqb_spec (nth m cl 0) c) as [<-|Ne].
      * rewrite !upd_nth_same by lia. rewrite C2, app_length. split; [destruct (CU m (nth m cl 0)); reflexivity|cbn; lia].
      * rewrite !upd_nth_other by congruence. rewrite app_nil_r. auto.
    + split; [exact A|]. split; [exact B|]. intros c Hc. rewrite CU_S. unfold ov. rewrite Eo. cbn [andb]. rewrite app_nil_r. auto.
Qed.
Definition counts := fold_left (count_step over blk cl) (seq 0 n) (repeat 0 n, repeat 0 n).
Lemma counts_are : counts = (map pres (seq 0 n), map size (seq 0 n)).
Proof.
  destruct (count_inv n (le_n _)) as (A & B & C). fold counts in *. destruct counts as [a b]. cbn [fst snd] in *. f_equal; apply (list_ext 0).
  - rewrite map_length, seq_length. exact A. - intros i Hi. rewrite nth_map_seq by lia. exact (proj1 (C i ltac:(lia))).
  - rewrite map_length, seq_length. exact B. - intros i Hi. rewrite nth_map_seq by lia. exact (proj2 (C i ltac:(lia))).
Qed.
Lemma to_set_is c : c < n -> nth c (running_sums (map pres (seq 0 n))) 0 = T (S c).
Proof. intros H. unfold running_sums. rewrite map_length, seq_length, nth_map_seq by exact H. apply upto_map. lia. Qed.
Lemma starts_is c : c < n -> nth c (starts (map size (seq 0 n))) 0 = St c.
Proof. intros H. unfold starts. rewrite map_length, seq_length, nth_map_seq by exact H. apply upto_map. lia. Qed.
Lemma St_n : St n <= n.
Proof.
  unfold size, CU. rewrite (upto_classes (fun u => nth u cl 0)).
  - assert (H : forall l, length (filter ov l) <= length l) by (induction l as [|x l IH]; cbn [filter length]; [lia|destruct (ov x); cbn [length]; lia]). specialize (H (seq 0 n)). rewrite seq_length in H. exact H.
  - intros u Hu. apply filter_In in Hu. destruct Hu as [Hu Ho]. apply in_seq in Hu. apply HC; [lia|exact Ho].
Qed.
Lemma T_n : T n <= n.
Proof. assert (H : forall c, T c <= c); [|apply H]. induction c as [|c IH]; [cbn; lia|]. rewrite upto_S. unfold pres at 2. destruct (CU n c); lia. Qed.
Lemma T_inj c c' : pres c = 1 -> pres c' = 1 -> T c = T c' -> c = c'.
Proof. intros H H' E. destruct (Nat.lt_trichotomy c c') as [L|[L|L]]; [|exact L|]; [pose proof (upto_mono pres (S c) c' ltac:(lia))|pose proof (upto_mono pres (S c') c ltac:(lia))]; rewrite upto_S in *; lia. Qed.
Definition pc (c b v : nat) : bool := ((n <=? v) || negb (nth v cl 0 =? c)) && (nth v blk 0 =? b).
Definition linv (m : nat) (s : building * list nat) : Prop :=
  let b := fst s in
  (length (bu_of b) = n /\ length (bu_nodes b) = n /\ length (bu_idx b) = n + 1 /\ length (bu_conn b) = n * k /\ length (snd s) = n) /\
  (forall c, c < n -> nth c (snd s) 0 = St c + length (CU m c)) /\
  (forall u, u < m -> nth u (bu_of b) None = if ov u then Some (T (nth u cl 0)) else None) /\
  (forall c j, c < n -> j < length (CU m c) -> nth (St c + j) (bu_nodes b) 0 = nth j (CU m c) 0) /\
  nth 0 (bu_idx b) 0 = 0 /\ (forall c, c < n -> CU m c <> [] -> nth (S (T c)) (bu_idx b) 0 = St c + length (CU m c)) /\
  (forall c x, c < n -> pres c = 1 -> x < k -> nth (T c * k + x) (bu_conn b) 0%Z = weight_to (pc c x) (flat_map adj (CU m c))).
Lemma pres_in m c : m <= n -> CU m c <> [] -> pres c = 1.
Proof. intros Hm H. unfold pres. destruct (CU n c) eqn:E; [|reflexivity]. exfalso. pose proof (CU_mono m n c Hm). rewrite E in H0. destruct (CU m c); [contradiction|cbn in H0; lia]. Qed.
Lemma T_lt c : c < n -> pres c = 1 -> T c < T n.
Proof. intros Hc Hp. pose proof (upto_mono pres (S c) n ltac:(lia)). rewrite upto_S in H. lia. Qed.
Lemma row_ups c' c x es : x < k -> (forall v w, In (v, w) es -> v < n + gn) -> pres c = 1 -> pres c' = 1 ->
  weight_to (Nat.eqb (T c * k + x)) (flat_map (fun e : nat * Z => if dis_ghost d (fst e) || negb (nth (fst e) cl 0 =? c') then [(T c' * k + nth (fst e) blk 0, snd e)] else []) es) = if c =? c' then weight_to (pc c x) es else 0%Z.
Proof.
  intros Hx He Hp Hp'. rewrite weight_to_ups. destruct (Nat.eqb_spec c c') as [<-|Ne].
  - rewrite (weight_to_pick (pc c x)). apply zsum_map_ext. intros [v w] Hin. cbn [fst snd]. specialize (He v w Hin). unfold pick, pc, dis_ghost. cbn [fst snd]. destruct ((n <=? v) || negb (nth v cl 0 =? c)); cbn [andb]; [|reflexivity].
    rewrite weight_to_pick. unfold pick. cbn [map zsum fst snd]. rewrite cell_eqb by auto. rewrite Nat.eqb_refl, (Nat.eqb_sym x). cbn [andb]. lia.
  - rewrite (zsum_map_ext _ (fun _ => 0%Z)); [apply zsum_map_0|]. intros [v w] Hin. cbn [fst snd]. specialize (He v w Hin). destruct (dis_ghost d v || negb (nth v cl 0 =? c')); [|reflexivity].
    rewrite weight_to_pick. unfold pick. cbn [map zsum fst snd]. rewrite cell_eqb by auto. destruct (Nat.eqb_spec (T c) (T c')) as [E|E]; [|reflexivity]. elim Ne. exact (T_inj c c' Hp Hp' E).
Qed.
Lemma local_inv of0 nodes0 idx0 m : length of0 = n -> length nodes0 = n -> length idx0 = n + 1 -> m <= n ->
  linv m (fold_left (local_step d k over blk cl (running_sums (map pres (seq 0 n)))) (seq 0 m) (Building of0 nodes0 (upd 0 0 idx0) (repeat 0%Z (n * k)) 0, starts (map size (seq 0 n)))).
Proof.
  intros L1 L2 L3. induction m as [|m IH]; intros Hm.
  - unfold linv. cbn [seq fold_left fst snd bu_of bu_nodes bu_idx bu_conn]. split; [rewrite upd_length, repeat_length; unfold starts; rewrite map_length, seq_length, map_length, seq_length; auto|].
    split; [intros c Hc; rewrite starts_is by exact Hc; cbn; lia|]. split; [intros; lia|]. split; [intros c j Hc Hj; cbn in Hj; lia|]. split; [apply upd_nth_same; lia|]. split; [intros c Hc H; cbn in H; contradiction|]. intros c x Hc Hp Hx. rewrite nth_repeat. reflexivity.
  - rewrite seq_S, fold_left_app. cbn [fold_left Nat.add]. specialize (IH ltac:(lia)). set (s := fold_left _ (seq 0 m) _) in *. destruct IH as ((A1 & A2 & A3 & A4 & A5) & B & C & D & E & F & G). unfold local_step. fold (ov m). destruct (ov m) eqn:Eo.
    + set (c0 := nth m cl 0). assert (Hc0 : c0 < n) by (apply HC; [lia|exact Eo]). assert (Em : CU (S m) c0 = CU m c0 ++ [m]) by (rewrite CU_S, Eo; unfold c0; rewrite Nat.eqb_refl; reflexivity).
      assert (Eo' : forall c, c <> c0 -> CU (S m) c = CU m c). { intros c Hne. rewrite CU_S, Eo. fold c0. destruct (Nat.eqb_spec c0 c); [congruence|]. cbn [andb]. apply app_nil_r. }
      assert (Hp0 : pres c0 = 1) by (apply (pres_in (S m)); [lia|rewrite Em; destruct (CU m c0); discriminate]).
      assert (Hm0 : nth c0 (running_sums (map pres (seq 0 n))) 0 - 1 = T c0) by (rewrite to_set_is, upto_S by exact Hc0; lia). rewrite Hm0.
      rewrite (B c0 Hc0). set (p := St c0 + length (CU m c0)).
      assert (Hsz : length (CU m c0) < size c0) by (pose proof (CU_mono (S m) n c0 ltac:(lia)); rewrite Em, app_length in H; cbn in H; unfold size; lia).
      pose proof St_n as HSt. pose proof T_n as HTn. pose proof (T_lt c0 Hc0 Hp0) as HT0.
      assert (Hpn : p < n) by (pose proof (upto_mono size (S c0) n ltac:(lia)); rewrite upto_S in H; lia).
      assert (Hdis : forall c j, c < n -> c <> c0 -> j < length (CU m c) -> St c + j <> p).
      { intros c j Hc Hne Hj. pose proof (CU_mono m n c ltac:(lia)) as Hcm. fold (size c) in Hcm. destruct (Nat.lt_ge_cases c c0) as [L|L]; [pose proof (upto_mono size (S c) c0 ltac:(lia))|pose proof (upto_mono size (S c0) c ltac:(lia))]; rewrite upto_S in *; lia. }
      unfold linv. cbn [fst snd bu_of bu_nodes bu_idx bu_conn]. rewrite !upd_length, add_all_length. split; [auto|]. split; [|split; [|split; [|split; [|split]]]].
      * intros c Hc. destruct (Nat.eq_dec c c0) as [->|Hne]; [rewrite upd_nth_same by lia; rewrite Em, app_length; cbn; lia|rewrite upd_nth_other, Eo' by congruence; auto].
      * intros u Hu. destruct (Nat.eq_dec u m) as [->|]; [rewrite upd_nth_same by lia; rewrite Eo; reflexivity|rewrite upd_nth_other by congruence; apply C; lia].
      * intros c j Hc Hj. destruct (Nat.eq_dec c c0) as [->|Hne].
        { rewrite Em in *. rewrite app_length in Hj. cbn in Hj. destruct (Nat.eq_dec j (length (CU m c0))) as [->|]; [rewrite app_nth2, Nat.sub_diag by lia; apply upd_nth_same; lia|]. rewrite app_nth1 by lia. rewrite upd_nth_other by lia. apply D; lia. }
        { rewrite Eo' in * by exact Hne. rewrite upd_nth_other by (apply not_eq_sym, Hdis; assumption). apply D; assumption. }
      * rewrite upd_nth_other by lia. exact E.
      * intros c Hc Hne'. destruct (Nat.eq_dec c c0) as [->|Hne]; [rewrite upd_nth_same by lia; rewrite Em, app_length; cbn; lia|]. rewrite Eo' in * by exact Hne. rewrite upd_nth_other; [apply F; assumption|].
        intros Ee. apply Hne. apply T_inj; [apply (pres_in m); [lia|exact Hne']|exact Hp0|lia].
      * intros c x Hc Hp Hx. pose proof (T_lt c Hc Hp). rewrite add_all_nth by nia. rewrite G by assumption. rewrite row_ups; [|exact Hx|intros v w Hin; exact (proj1 (rg_known _ _ _ HG m v w ltac:(lia) Hin))|exact Hp|exact Hp0].
        destruct (Nat.eqb_spec c c0) as [->|Hne]; [rewrite Em, flat_map_app, weight_to_app; cbn [flat_map]; rewrite app_nil_r; reflexivity|rewrite Eo' by exact Hne; lia].
    + assert (Eo' : forall c, CU (S m) c = CU m c) by (intros c; rewrite CU_S, Eo; apply app_nil_r).
      unfold linv. cbn [fst snd bu_of bu_nodes bu_idx bu_conn]. rewrite !upd_length. split; [auto|]. split; [intros c Hc; rewrite Eo'; auto|]. split; [|split; [intros c j; rewrite Eo'; apply D|split; [exact E|split; [intros c; rewrite Eo'; apply F|intros c x; rewrite Eo'; apply G]]]].
      intros u Hu. destruct (Nat.eq_dec u m) as [->|]; [rewrite upd_nth_same by lia; rewrite Eo; reflexivity|rewrite upd_nth_other by congruence; apply C; lia].
Qed.
Lemma idx_T s : linv n s -> forall a, a <= n -> nth (T a) (bu_idx (fst s)) 0 = St a.
Proof.
  intros ((A1 & A2 & A3 & A4 & A5) & B & C & D & E & F & G). induction a as [|a IH]; intros Ha; [exact E|]. rewrite !upto_S. unfold pres at 2. destruct (CU n a) as [|y l] eqn:Ea.
  - unfold size at 2. rewrite Ea. cbn [length]. rewrite !Nat.add_0_r. apply IH. lia.
  - rewrite Nat.add_1_r. rewrite F by (try lia; rewrite Ea; discriminate). reflexivity.
Qed.
Lemma find_T i : forall j, i < T j -> exists c, c < j /\ pres c = 1 /\ T c = i.
Proof.
  induction j as [|j IH]; intros H; [cbn in H; lia|]. destruct (Nat.lt_ge_cases i (T j)) as [L|L]; [destruct (IH L) as (c & Hc & P); exists c; split; [lia|exact P]|]. rewrite upto_S in H. unfold pres at 2 in H. destruct (CU n j) eqn:E; [lia|]. exists j. split; [lia|]. split; [unfold pres; rewrite E; reflexivity|lia].
Qed.
Theorem local_good junk b s : length (fst (fst junk)) = n -> length (snd (fst junk)) = n -> length (snd junk) = n + 1 -> local_sets d k over blk cl junk = Some b -> constructed d b s ->
  good d k s blk /\ (forall u, u < n -> (nth u (ms_of s) None <> None <-> over (nth u blk 0) = true)) /\
  (forall u v, u < n -> v < n -> over (nth u blk 0) = true -> (nth u (ms_of s) None = nth v (ms_of s) None <-> nth u cl 0 = nth v cl 0)).
Proof.
  destruct junk as [[of0 nodes0] idx0]. cbn [fst snd]. intros L1 L2 L3 Hb Hs. unfold local_sets in Hb. fold counts in Hb. rewrite counts_are in Hb. cbn [fst snd] in Hb.
  pose proof (local_inv of0 nodes0 idx0 n L1 L2 L3 (le_n _)) as I. set (f := fold_left _ (seq 0 n) _) in *.
  assert (Hlast : exists q, n = S q). { destruct n as [|q]; [|exists q; reflexivity]. cbn in Hb. discriminate. }
  destruct Hlast as [q Hq].
  assert (Hrev : exists tl, rev (running_sums (map pres (seq 0 n))) = T n :: tl).
  { pose proof (upto_map pres n n (le_n _)) as HU. assert (HL : length (map pres (seq 0 n)) = S q) by (rewrite map_length, seq_length; exact Hq). set (l := map pres (seq 0 n)) in *. unfold running_sums. rewrite HL, seq_S, map_app, rev_app_distr. cbn [map rev app Nat.add]. rewrite <- Hq, HU. eexists. reflexivity. }
  destruct Hrev as [tl Hrev]. rewrite Hrev in Hb. injection Hb as <-.
  pose proof (idx_T f I) as HI. destruct I as ((A1 & A2 & A3 & A4 & A5) & B & C & D & E & F & G). pose proof St_n as HSt. pose proof T_n as HTn.
  set (bb := Building (bu_of (fst f)) (bu_nodes (fst f)) (firstn (S (T n)) (bu_idx (fst f))) (bu_conn (fst f)) (T n)) in *.
  assert (N : num_sets (as_sets bb) = T n) by (unfold num_sets, as_sets, bb; cbn [ms_idx bu_idx]; rewrite firstn_length; lia).
  assert (SN : forall c, c < n -> pres c = 1 -> nodes_of (as_sets bb) (T c) = CU n c).
  { intros c Hc Hp. pose proof (T_lt c Hc Hp). unfold nodes_of, as_sets, bb. cbn [ms_idx ms_nodes bu_idx bu_nodes]. rewrite !firstn_get by lia. rewrite (HI c) by lia. replace (S (T c)) with (T (S c)) by (rewrite upto_S; lia). rewrite (HI (S c)) by lia. rewrite upto_S. replace (St c + size c - St c) with (size c) by lia.
    apply (list_ext 0); [rewrite map_length, seq_length; reflexivity|]. intros i Hi. rewrite map_length, seq_length in Hi. rewrite (nth_indep _ 0 (nth 0 (bu_nodes (fst f)) 0)) by (rewrite map_length, seq_length; exact Hi). rewrite (map_nth (fun i => nth i (bu_nodes (fst f)) 0)), seq_nth by exact Hi. apply D; assumption. }
  assert (Hpu : forall u, u < n -> ov u = true -> pres (nth u cl 0) = 1) by (intros u Hu Ho; apply (pres_in n); [lia|]; intros E0; assert (Hin : In u (CU n (nth u cl 0))) by (apply CU_in; auto); rewrite E0 in Hin; destruct Hin).
  split; [|split].
  - apply (constructed_good d k HG bb s blk Hs); [..|exact HB|exact HK].
    + intros c' u Hc Hu. rewrite N in Hc. destruct (find_T c' n Hc) as (c & Hcn & Hp & <-). rewrite SN in Hu by assumption. apply CU_in in Hu. apply Hu.
    + constructor.
      * intros l Hl. apply sets_in in Hl. destruct Hl as (c' & Hc & ->). rewrite N in Hc. destruct (find_T c' n Hc) as (c & Hcn & Hp & <-). rewrite SN by assumption. unfold pres in Hp. destruct (CU n c); [discriminate|discriminate].
      * intros l Hl. apply sets_in in Hl. destruct Hl as (c' & Hc & ->). rewrite N in Hc. destruct (find_T c' n Hc) as (c & Hcn & Hp & <-). rewrite SN by assumption. unfold CU. apply NoDup_filter, NoDup_filter, seq_NoDup.
      * intros c' u Hc. rewrite sets_len in Hc. rewrite sets_nth by exact Hc. rewrite N in Hc. destruct (find_T c' n Hc) as (c & Hcn & Hp & <-). rewrite SN by assumption. rewrite CU_in. unfold bb. cbn [bu_of]. split.
        -- intros (Hu & Ho & Ec). split; [exact Hu|]. rewrite C by exact Hu. rewrite Ho, Ec. reflexivity.
        -- intros (Hu & Ho). rewrite C in Ho by exact Hu. destruct (ov u) eqn:Eo; [|discriminate]. split; [exact Hu|]. split; [reflexivity|]. injection Ho as Ho. apply T_inj; auto.
      * intros u c Hu Ho. rewrite sets_len, N. unfold bb in Ho. cbn [bu_of] in Ho. rewrite C in Ho by exact Hu. destruct (ov u) eqn:Eo; [|discriminate]. injection Ho as <-. apply T_lt; [apply HC; assumption|auto].
      * intros l u v Hl Hu Hv. apply sets_in in Hl. destruct Hl as (c' & Hc & ->). rewrite N in Hc. destruct (find_T c' n Hc) as (c & Hcn & Hp & <-). rewrite SN in Hu, Hv by assumption. apply CU_in in Hu, Hv. apply HR; [lia|lia|]. destruct Hu as (_ & _ & ->), Hv as (_ & _ & ->). reflexivity.
      * intros c' x Hc Hx. rewrite sets_len in Hc. rewrite sets_nth by exact Hc. rewrite N in Hc. destruct (find_T c' n Hc) as (c & Hcn & Hp & <-). rewrite SN by assumption. unfold conn, bb. cbn [as_sets ms_conn bu_conn]. rewrite G by assumption. rewrite <- weight_to_flat. apply zsum_map_ext. intros u Hu. rewrite !weight_to_pick. apply zsum_map_ext. intros [v w] Hin. unfold pick, pc. cbn [fst snd].
        replace (negb (existsb (Nat.eqb v) (CU n c))) with ((n <=? v) || negb (nth v cl 0 =? c)); [reflexivity|]. apply CU_in in Hu. destruct Hu as (Hu & Ho & Ec).
        destruct (existsb (Nat.eqb v) (CU n c)) eqn:Ev; cbn [negb].
        -- apply mem_in, CU_in in Ev. destruct Ev as (Hv & _ & ->). rewrite Nat.eqb_refl. cbn [negb]. rewrite orb_false_r. apply Nat.leb_gt. exact Hv.
        -- destruct (Nat.leb_spec n v) as [|Hv]; [reflexivity|]. cbn [orb]. destruct (Nat.eqb_spec (nth v cl 0) c) as [Ec'|]; [|reflexivity]. exfalso. assert (Hin' : In v (CU n c)); [|apply mem_in in Hin'; congruence]. apply CU_in. split; [exact Hv|]. split; [|exact Ec']. unfold ov in *. rewrite (HR v u Hv Hu) by congruence. exact Ho.
    + rewrite N. unfold bb. cbn [bu_conn]. rewrite A4. nia.
  - intros u Hu. destruct Hs as (ts & junk & _ & _ & _ & ->). cbn [ms_of]. unfold bb. cbn [bu_of]. rewrite C by exact Hu. unfold ov. destruct (over (nth u blk 0)); split; congruence.
  - intros u v Hu Hv Ho. destruct Hs as (ts & junk & _ & _ & _ & ->). cbn [ms_of]. unfold bb. cbn [bu_of]. rewrite !C by assumption. assert (Ho' : ov u = true) by exact Ho. rewrite Ho'. split.
    + destruct (ov v) eqn:Ev; [|discriminate]. intros [= Ee]. apply T_inj; auto.
    + intros Ec. assert (Ev : ov v = true) by (unfold ov in *; rewrite <- (HR u v Hu Hv Ec); exact Ho). rewrite Ev, Ec. reflexivity.
Qed.
End Local.
