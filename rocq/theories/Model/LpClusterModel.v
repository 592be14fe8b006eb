(* Model of the label propagation clusterer of the coarsening phase: kaminpar-shm/coarsening/clustering/lp_clusterer.cc
   and the parts of kaminpar-shm/label_propagation.h that it instantiates (kUseTwoHopClustering = true, kUseActualGain =
   false, no active set), without relabelling before the second phase (the default). Clusters are named by nodes. Every
   visit of a node is one event; what the visit observes of other threads (clusters of neighbours, cluster weights) and
   all random choices are parameters of the event. Weights are unbounded integers. *)
From Verif Require Import Lib.Prelude Spec.Induced.
Local Open Scope Z_scope.

(** The shared arrays: clustering, _cluster_weights, _favored_clusters. *)
Record lps := mkLps { l_cl : list nat; l_w : list Z; l_fav : list nat }.

(** label_propagation.h:1195-1221 reset_state with lp_clusterer.cc:166-172 initial_cluster, initial_cluster_weight. *)
Definition lp_init (g : lgraph) : lps :=
  mkLps (seq 0 (length g)) (map (lg_weight g) (seq 0 (length g))) (seq 0 (length g)).

(** lp_clusterer.cc:190-193 accept_cluster_community; [comm] = [] if no communities are set. *)
Definition comm_ok (comm : list nat) (init c : nat) : bool :=
  match comm with [] => true | _ => (nth c comm 0 =? nth init comm 0)%nat end.

(** :197-202 and :252-255: weight and community condition of accept_cluster. [ow c] is the observed weight of cluster c. *)
Definition acceptable (maxw uw : Z) (comm : list nat) (ow : nat -> Z) (init c : nat) : bool :=
  ((ow c + uw <=? maxw) || (c =? init)%nat) && comm_ok comm init c.

(** ClusterSelectionState and the two tie breaking vectors, label_propagation.h:436-453. *)
Record sel := mkSel { s_best : nat; s_bgain : Z; s_over : Z; s_fav : nat; s_ties : list nat; s_fties : list nat }.

(** An entry of the rating map: cluster, rating, and the coin of random_bool() (used by the non-uniform strategy only). *)
Definition entry := (nat * Z * bool)%type.

(** lp_clusterer.cc:204-233 loop body, uniform tie breaking. *)
Definition uniform_entry (store : bool) (acc : nat -> bool) (st : sel) (e : entry) : sel :=
  let '(c, r, _) := e in
  let st1 :=
    if store then
      if s_over st <? r then mkSel (s_best st) (s_bgain st) r c (s_ties st) [c]
      else if r =? s_over st then mkSel (s_best st) (s_bgain st) (s_over st) (s_fav st) (s_ties st) (s_fties st ++ [c])
      else st
    else st in
  if s_bgain st1 <? r then
    if acc c then mkSel c r (s_over st1) (s_fav st1) [c] (s_fties st1) else st1
  else if r =? s_bgain st1 then
    if acc c then mkSel (s_best st1) (s_bgain st1) (s_over st1) (s_fav st1) (s_ties st1 ++ [c]) (s_fties st1) else st1
  else st1.

(** :258-275 loop body, geometric tie breaking. *)
Definition geometric_entry (store : bool) (acc : nat -> bool) (st : sel) (e : entry) : sel :=
  let '(c, r, coin) := e in
  let st1 := if store && (s_over st <? r) then mkSel (s_best st) (s_bgain st) r c [] [] else st in
  if ((s_bgain st1 <? r) || ((r =? s_bgain st1) && coin)) && acc c
  then mkSel c r (s_over st1) (s_fav st1) [] []
  else st1.

(** :235-241: one of the tied clusters; random_index(0, size) is [r] modulo the size. *)
Definition break_tie (ties : list nat) (r best : nat) : nat :=
  if (1 <? length ties)%nat then nth (r mod length ties)%nat ties best else best.

(** :181-281 select_best_cluster: best cluster, its gain, favoured cluster. *)
Definition select_best (uni store : bool) (acc : nat -> bool) (init : nat) (entries : list entry) (r1 r2 : nat) : nat * Z * nat :=
  let st0 := mkSel init 0 0 init [] [] in
  if uni then
    let st := fold_left (uniform_entry store acc) entries st0 in
    (break_tie (s_ties st) r1 (s_best st), s_bgain st, break_tie (s_fties st) r2 (s_fav st))
  else
    let st := fold_left (geometric_entry store acc) entries st0 in
    (s_best st, s_bgain st, s_fav st).

(** label_propagation.h:740-807: a further selection among the results of the workers, [(gain, cluster)]; used for the best
    and for the favoured clusters. *)
Definition merge_local (uni : bool) (st : nat * Z * list nat) (x : Z * nat) : nat * Z * list nat :=
  let '(best, gain, ties) := st in
  if gain <? fst x then (snd x, fst x, if uni then [snd x] else [])
  else if (fst x =? gain) && uni then (best, gain, ties ++ [snd x])
  else st.
Definition merge_locals (uni : bool) (init : nat) (xs : list (Z * nat)) (r : nat) : nat :=
  let '(best, _, ties) := fold_left (merge_local uni) xs (init, 0, []) in
  if uni then break_tie ties r best else best.

(** What a visit sees: the entries of the rating map in the order in which they are enumerated, either in one piece
    (find_best_cluster :460-541, find_best_cluster_first_phase :543-638) or split among workers
    (find_best_cluster_second_phase :640-815; [fg] is the rating that worker i reads for its favoured cluster). *)
Inductive visit_kind :=
| OnePiece (entries : list entry) (r1 r2 : nat)
| Workers (parts : list (list entry * (nat * nat))) (fg : nat -> Z) (r1 r2 : nat).

Definition kind_entries (k : visit_kind) : list entry :=
  match k with OnePiece es _ _ => es | Workers parts _ _ _ => flat_map fst parts end.

(** Best and favoured cluster of a visit. If favoured clusters are not stored, the result for them is the own cluster. *)
Definition find_best (uni store : bool) (acc : nat -> bool) (init : nat) (k : visit_kind) : nat * nat :=
  match k with
  | OnePiece es r1 r2 => let '(b, _, f) := select_best uni store acc init es r1 r2 in (b, f)
  | Workers parts fg r1 r2 =>
      let locals := map (fun p => select_best uni store acc init (fst p) (fst (snd p)) (snd (snd p))) parts in
      (merge_locals uni init (map (fun x => (snd (fst x), fst (fst x))) locals) r1,
       if store then merge_locals uni init (combine (map fg (seq 0 (length locals))) (map snd locals)) r2 else init)
  end.

(** label_propagation.h:2134-2147 move_cluster_weight after the test of the limit. *)
Definition shift_weight (from to : nat) (d : Z) (w : list Z) : list Z :=
  let w1 := upd to (nth to w 0 + d) w in upd from (nth from w1 0 - d) w1.

(** One visit of node u: find_best_cluster*, then try_node_move (:817-841). [ow] are the cluster weights that the visit
    reads, [chk c] is the weight of cluster c when move_cluster_weight tests it. *)
Definition visit (g : lgraph) (maxw : Z) (comm : list nat) (uni : bool) (u : nat) (k : visit_kind) (ow chk : nat -> Z) (s : lps) : lps :=
  let init := nth u (l_cl s) 0%nat in
  let uw := lg_weight g u in
  let store := (uw =? ow init) && (ow init <=? maxw / 2) in
  let '(best, fav) := find_best uni store (acceptable maxw uw comm ow init) init k in
  let fav' := if store && (best =? init)%nat then upd u fav (l_fav s) else l_fav s in
  if negb (init =? best)%nat && (chk best + uw <=? maxw)
  then mkLps (upd u best (l_cl s)) (shift_weight init best uw (l_w s)) fav'
  else mkLps (l_cl s) (l_w s) fav'.

(** The entries that a visit of u can see: ratings are positive, and every cluster is one that some neighbour had at some
    point of the execution so far ([h] lists all earlier clusterings). *)
Definition observed (g : lgraph) (h : list (list nat)) (u : nat) (es : list entry) : Prop :=
  forall c r b, In (c, r, b) es -> 1 <= r /\ exists v x cl, In (v, x) (lg_adj g u) /\ In cl h /\ nth v cl 0%nat = c.

(** All executions of the label propagation rounds: nodes are visited in any order, any number of times, and see any
    earlier cluster of their neighbours and any weights. *)
Inductive lp_run (g : lgraph) (maxw : Z) (comm : list nat) (uni : bool) : list (list nat) -> lps -> Prop :=
| lp_start : lp_run g maxw comm uni [l_cl (lp_init g)] (lp_init g)
| lp_visit h s u k ow chk :
    lp_run g maxw comm uni h s -> (u < length g)%nat -> observed g h u (kind_entries k) ->
    let s' := visit g maxw comm uni u k ow chk s in lp_run g maxw comm uni (l_cl s' :: h) s'.

(** ** Isolated nodes *)

(** label_propagation.h:884-917 handle_isolated_nodes_impl: worker t handles node u. [cur t] is the cluster that the worker
    fills. A cluster that is filled belongs to a node the worker has handled, no other worker touches it. *)
Definition iso_step (matching : bool) (g : lgraph) (maxw : Z) (st : lps * (nat -> option nat)) (e : nat * nat) : lps * (nat -> option nat) :=
  let '(s, cur) := st in
  let '(t, u) := e in
  match lg_adj g u with
  | _ :: _ => st
  | [] =>
    let cu := nth u (l_cl s) 0%nat in
    let d := nth cu (l_w s) 0 in
    let set x := fun t' => if (t' =? t)%nat then x else cur t' in
    match cur t with
    | Some c =>
        if nth c (l_w s) 0 + d <=? maxw
        then (mkLps (upd u c (l_cl s)) (shift_weight cu c d (l_w s)) (l_fav s), set (if matching then None else Some c))
        else (s, set (Some cu))
    | None => (s, set (Some cu))
    end
  end.
Definition isolated (matching : bool) (g : lgraph) (maxw : Z) (evs : list (nat * nat)) (s : lps) : lps :=
  fst (fold_left (iso_step matching g maxw) evs (s, fun _ => None)).

(** ** Two-hop nodes, threadwise *)

(** :934-973 is_considered_for_two_hop_clustering. *)
Definition considered (g : lgraph) (maxw : Z) (s : lps) (u : nat) : bool :=
  match lg_adj g u with
  | [] => false
  | _ :: _ => (u =? nth u (l_cl s) 0)%nat && (nth u (l_w s) 0 <=? maxw / 2) && (nth u (l_w s) 0 =? lg_weight g u)
  end.

(** :975-1000 handle_node; [mm t] is the map of worker t, 0 means no entry. In the matching mode the node is moved even if
    its weight could not be moved. *)
Definition hop_step (matching : bool) (g : lgraph) (maxw : Z) (st : lps * (nat -> nat -> nat)) (e : nat * nat) : lps * (nat -> nat -> nat) :=
  let '(s, mm) := st in
  let '(t, u) := e in
  if considered g maxw s u then
    let cu := nth u (l_cl s) 0%nat in
    let key := nth u (l_fav s) 0%nat in
    let set x := fun t' k' => if ((t' =? t) && (k' =? key))%nat then x else mm t' k' in
    match mm t key with
    | O => (s, set (S cu))
    | S rep =>
        let d := nth cu (l_w s) 0 in
        let could := nth rep (l_w s) 0 + d <=? maxw in
        let w' := if could then shift_weight cu rep d (l_w s) else l_w s in
        if matching then (mkLps (upd u rep (l_cl s)) w' (l_fav s), set 0%nat)
        else if could then (mkLps (upd u rep (l_cl s)) w' (l_fav s), mm)
        else (s, set (S cu))
    end
  else st.
Definition two_hop (matching : bool) (g : lgraph) (maxw : Z) (evs : list (nat * nat)) (s : lps) : lps :=
  fst (fold_left (hop_step matching g maxw) evs (s, fun _ _ => 0%nat)).

(** ** The whole clusterer *)

(** lp_clusterer.cc:88-110 compute_clustering after the rounds, :113-160. [iso] and [hop] are what the configuration and
    should_handle_two_hop_nodes select ([None]: nothing; [Some true]: matching, [Some false]: clustering). *)
Definition finish (iso hop : option bool) (g : lgraph) (maxw : Z) (ev1 ev2 : list (nat * nat)) (s : lps) : lps :=
  let s1 := match iso with Some m => isolated m g maxw ev1 s | None => s end in
  match hop with Some m => two_hop m g maxw ev2 s1 | None => s1 end.
