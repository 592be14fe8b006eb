(* Property theorems for compact static arrays (C33). *)
From Verif Require Import Lib.Prelude Model.CompactArrayModel Proofs.CompactArrayProofs.
Local Open Scope Z_scope.

(** C33: an array of [n] integers of [bw] bytes each, [bw] at most the size of the integer type, and any sequence of
    writes to its indices: no access leaves the memory, every index holds the value last written to it (0 if none),
    truncated to [bw] bytes; iteration yields the values in order; restricting to [m] values shows the first [m], and
    lifting the restriction gives the array back; the raw bytes determine the array. *)
Theorem C33_compact_static_array : forall (isz bw n : nat) (ws : list (nat * Z)),
  (0 < bw <= isz)%nat -> (forall i v, In (i, v) ws -> (i < n)%nat) ->
  let value i := fold_left (fun acc p => if (i =? fst p)%nat then snd p else acc) ws 0 mod 256 ^ Z.of_nat bw in
  exists a, ca_writes ws (ca_resize isz bw n) = Some a /\ ca_num a = n /\
    (forall i, (i < n)%nat -> ca_read i a = Some (value i)) /\
    ca_values isz a = Some (map value (seq 0 n)) /\
    (forall m, (m <= n)%nat ->
       let r := ca_restrict isz m a in
       ca_num r = m /\ (forall i, (i < m)%nat -> ca_read i r = ca_read i a) /\
       ca_values isz r = Some (map value (seq 0 m)) /\ ca_unrestrict r = a) /\
    ((n > 0)%nat -> ca_of_bytes isz bw (ca_bytes a) = a).
Proof. exact compact_array_spec. Qed.
Print Assumptions C33_compact_static_array.

Example C33_compact_static_array_ex :
  let ws := [(1%nat, 70000); (0%nat, 5); (3%nat, 16777215); (1%nat, 65537); (2%nat, 16777217)] in
  (forall i v, In (i, v) ws -> (i < 4)%nat) /\
  match ca_writes ws (ca_resize 8 3 4) with
  | Some a => ca_values 8 a = Some [5; 65537; 1; 16777215] /\ length (ca_bytes a) = 17%nat
  | None => False
  end.
Proof.
  split.
  - cbn. intros i v H. repeat destruct H as [H|H]; try (inversion H; subst; lia).
  - vm_compute. split; reflexivity.
Qed.
