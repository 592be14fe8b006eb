(* Specification of the thread-local view of a shared partition. *)
From Verif Require Import Lib.Prelude Spec.Graph Spec.Gain Spec.KeyedList.

(** Events: a local move of node [u] to block [b]; the local moves are discarded; another worker moves node [v] in the
    shared partition. *)
Inductive lev := LMove (u b : nat) | LClear | XMove (v c : nat).

(** What a worker should see: the shared partition with its local moves [D] applied on top. *)
Definition view (p : nat -> nat) (D : list (nat * nat)) : nat -> nat :=
  fun u => match kl_get u D with Some b => b | None => p u end.

(** The shared partition and the local moves after an event. Moves to blocks that do not exist and moves of nodes that do
    not exist have no effect; neither have moves by other workers of nodes that this worker has moved locally (it owns
    them). *)
Definition lv_step (n k : nat) (e : lev) (s : list nat * list (nat * nat)) : list nat * list (nat * nat) :=
  let '(lab, D) := s in
  match e with
  | LMove u b => if (u <? n) && (b <? k) then (lab, kl_modify 0 u (fun _ => b) D) else s
  | LClear => (lab, [])
  | XMove v c => if (v <? n) && (c <? k) && (match kl_get v D with None => true | Some _ => false end)
                 then (upd v c lab, D) else s
  end.
Definition lv_run (n k : nat) (lab : list nat) (es : list lev) : list nat * list (nat * nat) :=
  fold_left (fun s e => lv_step n k e s) es (lab, []).
Definition is_lclear (e : lev) : bool := match e with LClear => true | _ => false end.
Definition is_xmove (e : lev) : bool := match e with XMove _ _ => true | _ => false end.

(** What the local structures read from a shared gain cache whose enumeration visits all blocks (or only adjacent ones),
    with exact gains (or only connections), and what it has to return for partition [p]. *)
Record bcache := { bc_conn : nat -> nat -> option Z; bc_gain : nat -> nat -> nat -> option Z;
                   bc_gains : nat -> nat -> option (list (nat * Z)) }.
Definition cache_exact (g : graph) (k : nat) (all exact : bool) (p : nat -> nat) (c : bcache) : Prop :=
  forall u, u < gn g ->
    (forall b, b < k -> bc_conn c u b = Some (block_conn g p u b)) /\
    (forall a b, a < k -> b < k -> bc_gain c u a b = Some (block_conn g p u b - block_conn g p u a)%Z) /\
    (forall from, from < k -> exists l, bc_gains c u from = Some l /\ Permutation l (targets k all exact (block_conn g p u) from)).
