(* Property theorems for the compact hash map (C29). *)
From Verif Require Import Lib.Prelude Spec.CountMap Model.CompactHashModel Proofs.CompactHashOps.
From Coq Require Import Permutation.
Local Open Scope Z_scope.

(** C29: a map with [w]-bit cells, [kb] key bits and 2^b cells, starting empty, that never holds more than 2^b keys (or
    2^b - 1 keys if it is not the variant that may fill up): after every sequence of calls, every call has returned,
    get answers with the exact sum of every key, count and for_each enumerate exactly the contained keys, and the calls
    reported the appearance and the disappearance of keys. *)
Theorem C29_compact_hash_map : forall (w kb : Z) (b : nat) (full : bool) (ops : list cmop),
  0 < kb < w ->
  cm_valid (Z.to_nat (2 ^ kb)) (2 ^ (w - kb)) (if full then 2 ^ b else pred (2 ^ b))%nat (fun _ => 0) ops ->
  exists D, ch_run w kb (2 ^ b) full ops (repeat 0 (2 ^ b)) = Some (D, cm_rets (fun _ => 0) ops) /\
    (forall k, 0 <= k < 2 ^ kb -> ch_get w kb (2 ^ b) full D k = Some (cm_run ops (fun _ => 0) k)) /\
    ch_count (2 ^ b) D = cm_size (Z.to_nat (2 ^ kb)) (cm_run ops (fun _ => 0)) /\
    Permutation (ch_for_each w kb (2 ^ b) D)
      (map (fun k => (k, cm_run ops (fun _ => 0) k)) (cm_keys (Z.to_nat (2 ^ kb)) (cm_run ops (fun _ => 0)))).
Proof. intros w kb b full ops Hkb. exact (compact_hash_spec w kb b full Hkb ops). Qed.
Print Assumptions C29_compact_hash_map.

(** A map with four 8-bit cells that fills up, with a chain that wraps around, and deletions from the full map. *)
Example C29_compact_hash_map_ex :
  let ops := [CInc 3 2; CInc 7 1; CInc 2 4; CInc 6 1; CInc 7 3; CDec 3 2; CInc 3 5; CDec 2 4; CDec 6 1; CInc 1 1] in
  cm_valid (Z.to_nat (2 ^ 3)) (2 ^ (8 - 3)) (2 ^ 2)%nat (fun _ => 0) ops /\
  map (ch_get 8 3 4 true [7 * 32 + 4; 1 * 32 + 1; 0; 3 * 32 + 5]) [0; 1; 2; 3; 4; 5; 6; 7] =
    map Some [0; 1; 0; 5; 0; 0; 0; 4] /\
  match ch_run 8 3 (2 ^ 2) true ops (repeat 0 4) with
  | Some (D, r) => map (ch_get 8 3 4 true D) [0; 1; 2; 3; 4; 5; 6; 7] = map Some [0; 1; 0; 5; 0; 0; 0; 4] /\
                   r = [true; true; true; true; false; true; true; true; true; true]
  | None => False
  end.
Proof. vm_compute. repeat split; try reflexivity; try (intros E; discriminate E). all: lia. Qed.
