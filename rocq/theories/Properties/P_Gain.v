(* Property theorems for the gain caches (C17). *)
From Verif Require Import Lib.Prelude Spec.Graph Spec.Gain Model.GainModel Proofs.GainBase Proofs.CompactGainBase Proofs.GainTop.
From Coq Require Import Permutation.

(** C17: the decrease of the edge cut when [u] moves is the difference of two connections. *)
Theorem C17_gain_is_cut_decrease : forall (g : graph) (p : nat -> nat) (u b : nat),
  closed_graph g -> undirected g -> u < gn g -> conn g u u = 0%Z ->
  (cut_weight g p - cut_weight g (relabel p u b) = block_conn g p u b - block_conn g p u (p u))%Z.
Proof. exact gain_is_cut_decrease. Qed.
Print Assumptions C17_gain_is_cut_decrease.

(** C17, dense cache: initialized for any partition, then used by [T] workers that move nodes (each node by one worker
    at a time) and update the neighbours' connections in any interleaving. Whatever has happened so far, all reports for
    a node whose connections nobody is currently updating are exact. *)
Theorem C17_dense_gain_cache : forall (g : graph) (k : nat) (lab : list nat) (T : nat) (es : list gev),
  closed_graph g -> undirected g -> simple_graph g -> labels_ok g k lab ->
  exists c0 s, d_init g k lab = Some c0 /\ d_run g k es (g_start _ lab c0 T) = Some s /\ labels_ok g k (s_lab s) /\
    forall u, u < gn g -> dst_idle u s = true ->
      reports g k (label_of (s_lab s)) u (d_conn k (s_mem s) u) (d_gain k (s_mem s) u)
        (fun all exact => d_gains k all exact (s_mem s) u) (d_border k (d_degrees g) (s_mem s) u).
Proof. exact dense_reports. Qed.
Print Assumptions C17_dense_gain_cache.

(** C17, compact hashing cache: the same, with tables of 1, 2, 4 or 8 byte entries that are hash tables for nodes with
    fewer than k possible neighbouring blocks; for every number of processors used to lay out the tables. *)
Theorem C17_compact_gain_cache : forall (g : graph) (k np : nat) (junk : N) (lab : list nat) (T : nat) (es : list gev),
  closed_graph g -> undirected g -> simple_graph g -> positive_edges g ->
  cg_fits g k -> 0 < np -> labels_ok g k lab ->
  exists m0 s, cg_init g k np junk lab = Some m0 /\ cg_run g k np junk es (g_start _ lab m0 T) = Some s /\
    labels_ok g k (s_lab s) /\
    forall u, u < gn g -> dst_idle u s = true ->
      reports g k (label_of (s_lab s)) u (cg_conn g k np junk (s_mem s) u) (cg_gain g k np junk (s_mem s) u)
        (fun all exact => cg_gains g k np junk all exact (s_mem s) u) (cg_border g k np junk (s_mem s) u).
Proof. exact compact_reports. Qed.
Print Assumptions C17_compact_gain_cache.

(** C17: the tables of the compact cache are aligned to their entries, disjoint and within the allocation. *)
Theorem C17_compact_layout : forall (g : graph) (k np : nat) (junk : N),
  positive_edges g -> cg_fits g k -> 0 < np -> 2 <= gn g ->
  (forall u, u < gn g -> exists q, nth u (cg_offsets g k np junk) 0 = q * cg_width g k junk u \/ cg_width g k junk u = 0) /\
  (forall u, u < gn g -> 0 < length (gadj g u) ->
     nth u (cg_offsets g k np junk) 0 + cg_width g k junk u * (if cg_hash g k junk u then cg_size g k np junk u else k)
       <= nth (S u) (cg_offsets g k np junk) 0) /\
  (N.of_nat (nth (gn g) (cg_offsets g k np junk) 0%nat) <= 8 * cg_words g k np junk)%N.
Proof. exact compact_layout. Qed.
Print Assumptions C17_compact_layout.

(** The example graph meets the hypotheses of all four theorems. *)
Example C17_hypotheses_ex : closed_graph ex_gain_graph /\ undirected ex_gain_graph /\ simple_graph ex_gain_graph /\
  positive_edges ex_gain_graph /\ cg_fits ex_gain_graph 7 /\ labels_ok ex_gain_graph 7 [0; 6; 2; 2; 3].
Proof. exact ex_gain_graph_ok. Qed.

(** Two workers; the updates of two moves interleave. Node 2 (idle) then has connection 300 to block 4 and 5 to block
    1, and enumerates these blocks; moving it to block 4 decreases the cut from 315 to 15. *)
Definition C17_ex_events : list gev := [EMove 0 0 4; EMove 1 1 1; ETick 1; ETick 0; ETick 1; ETick 1; ETick 0; ETick 1; ETick 0; ETick 0; ETick 1; ETick 1].
Example C17_compact_gain_cache_ex :
  match cg_init ex_gain_graph 7 2 0 [0; 6; 2; 2; 3] with
  | None => False
  | Some m0 =>
      match cg_run ex_gain_graph 7 2 0 C17_ex_events (g_start _ [0; 6; 2; 2; 3] m0 2) with
      | None => False
      | Some s => s_lab s = [4; 1; 2; 2; 3] /\ dst_idle 2 s = true /\
          map (cg_conn ex_gain_graph 7 2 0 (s_mem s) 2) (seq 0 7) = map Some [0; 5; 0; 0; 300; 0; 0]%Z /\
          cg_gain ex_gain_graph 7 2 0 (s_mem s) 2 2 4 = Some 300%Z /\
          map (cg_width ex_gain_graph 7 0) (seq 0 5) = [2; 1; 2; 1; 1] /\
          map (cg_hash ex_gain_graph 7 0) (seq 0 5) = [true; true; true; true; true]
      end
  end.
Proof. vm_compute. repeat split. Qed.
Example C17_dense_gain_cache_ex :
  match d_init ex_gain_graph 7 [0; 6; 2; 2; 3] with
  | None => False
  | Some m0 =>
      match d_run ex_gain_graph 7 C17_ex_events (g_start _ [0; 6; 2; 2; 3] m0 2) with
      | None => False
      | Some s => s_lab s = [4; 1; 2; 2; 3] /\ dst_idle 2 s = true /\
          map (d_conn 7 (s_mem s) 2) (seq 0 7) = map Some [0; 5; 0; 0; 300; 0; 0]%Z /\
          d_gains 7 false true (s_mem s) 2 2 = Some [(1, 5%Z); (4, 300%Z)]
      end
  end.
Proof. vm_compute. repeat split. Qed.
