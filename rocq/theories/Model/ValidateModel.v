(* Model of the checks for undirected input graphs:
     apps/io/shm_input_validator.cc            (validate_undirected_graph, used by the command line tool)
     kaminpar-shm/datastructures/csr_graph.cc  (debug::validate_graph, used by assertions)
   The parallel loops only read shared data; the outcome does not depend on their order. *)
From Verif Require Import Lib.Prelude.

(** [Rejected]: message and std::exit(1); [OutOfBounds]: undefined behaviour. *)
Inductive verdict := Accepted | Rejected | OutOfBounds.

(** Comparison of std::tuple<NodeID, EdgeWeight>. *)
Definition tuple_lt (a b : nat * Z) : bool := (fst a <? fst b) || ((fst a =? fst b) && (snd a <? snd b)%Z).
Definition tuple_le (a b : nat * Z) : bool := negb (tuple_lt b a).

(** std::lower_bound by halving: [fuel] at least [len]; the result is a position from [first] to [first + len]. *)
Fixpoint lower_bound (fuel : nat) (r : list (nat * Z)) (first len : nat) (val : nat * Z) : nat :=
  match fuel with
  | 0 => first
  | S f =>
      if len =? 0 then first
      else let half := len / 2 in
           let mid := first + half in
           if tuple_lt (nth mid r (0, 0%Z)) val then lower_bound f r (S mid) (len - half - 1) val
           else lower_bound f r first half val
  end.
(** shm_input_validator.cc:21-25 binary_find: position, [None] stands for the end iterator. *)
Definition binary_find (r : list (nat * Z)) (val : nat * Z) : option nat :=
  let i := lower_bound (length r) r 0 (length r) val in
  if (negb (i =? length r)) && tuple_le (nth i r (0, 0%Z)) val then Some i else None.

(** :36-41 the edges of [u] with weights. *)
Definition v_row (xadj adjncy : list nat) (ew : list Z) (u : nat) : list (nat * Z) :=
  map (fun e => (nth e adjncy 0, match ew with [] => 1%Z | _ => nth e ew 0%Z end))
      (seq (nth u xadj 0) (nth (S u) xadj 0 - nth u xadj 0)).
(** :52-57 multi edges: neighbouring entries of the original edge array. *)
Definition v_multi (xadj adjncy : list nat) (u : nat) : bool :=
  existsb (fun e => nth (e - 1) adjncy 0 =? nth e adjncy 0)
          (seq (S (nth u xadj 0)) (nth (S u) xadj 0 - S (nth u xadj 0))).
(** :27-77 validate_undirected_graph. [sort u] is what std::sort does to the edges of [u]: it compares targets only and
    may leave edges with equal targets in any order. The sorted rows are kept apart instead of in one array. *)
Definition validate_undirected (sort : nat -> list (nat * Z) -> list (nat * Z)) (xadj adjncy : list nat) (ew : list Z)
    : verdict :=
  let n := length xadj - 1 in
  let sorted u := sort u (v_row xadj adjncy ew u) in
  if existsb (v_multi xadj adjncy) (seq 0 n) then Rejected
  else if existsb (fun u => existsb (fun e => n <=? fst e) (sorted u)) (seq 0 n) then OutOfBounds
  else if forallb (fun u => forallb (fun e => match binary_find (sorted (fst e)) (u, snd e) with Some _ => true | None => false end)
                                    (sorted u)) (seq 0 n)
  then Accepted else Rejected.

(** csr_graph.cc:293-322 the search for the reverse edge of [e] = (u, v): [None] means that the function returns false. *)
Fixpoint find_reverse (n m u : nat) (adjncy : list nat) (ew : list Z) (e : nat) (es : list nat) : option bool :=
  match es with
  | [] => Some false
  | e' :: t =>
      if m <=? e' then None
      else let u' := nth e' adjncy 0 in
           if n <=? u' then None
           else if negb (u =? u') then find_reverse n m u adjncy ew e t
           else match ew with
                | [] => Some true
                | _ => if (nth e ew 0 =? nth e' ew 0)%Z then Some true else None
                end
  end.
(** csr_graph.cc:246-337 validate_graph with check_undirected = true and num_pseudo_nodes = 0. Array accesses outside of
    [adjncy] (its size is not checked) are not modelled: see the hypotheses of the theorems. *)
Definition validate_graph (n : nat) (xadj adjncy : list nat) (vw ew : list Z) : bool :=
  if length xadj <? n + 1 then false
  else if negb (length vw =? 0) && (length vw <? n) then false
  else let m := nth n xadj 0 in
  if negb (length ew =? 0) && (length ew <? m) then false
  else if existsb (fun u => nth (S u) xadj 0 <? nth u xadj 0) (seq 0 n) then false
  else forallb (fun u =>
         forallb (fun e =>
             if m <=? e then false
             else let v := nth e adjncy 0 in
                  if n <=? v then false
                  else if u =? v then false
                  else match find_reverse n m u adjncy ew e (seq (nth v xadj 0) (nth (S v) xadj 0 - nth v xadj 0)) with
                       | Some found => found
                       | None => false
                       end)
           (seq (nth u xadj 0) (nth (S u) xadj 0 - nth u xadj 0))) (seq 0 n).
