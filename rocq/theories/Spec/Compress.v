(* Specification vocabulary for compressed neighbourhoods. *)
From Verif Require Import Lib.Prelude.

(** What a caller of adjacent_nodes observes for the neighbour sequence [l]: the callback is invoked
    on the elements in order until it asks to stop. *)
Fixpoint visit {S V W} (cb : S -> V -> W -> S * bool) (s : S) (l : list (V * W)) : S * bool :=
  match l with
  | [] => (s, false)
  | (v, w) :: l' => let '(s, stop) := cb s v w in if stop then (s, true) else visit cb s l'
  end.
