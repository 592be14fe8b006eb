(* The weight that can be taken from a block with a given cut-off. *)
From Verif Require Import Lib.Prelude Model.WeightBucketsModel.
From Coq Require Import QArith.
Open Scope nat_scope.

(** Total weight of the nodes of block [b] on all ranks that are in buckets below [j]. *)
Definition weight_below (ranks : list (list entry)) (b j : nat) : Z :=
  zsum (map (fun es => zsum (map (fun e => if (en_block e =? b) && (en_bucket e <? j) then en_weight e else 0%Z) es)) ranks).
(** Blocks and buckets exist. *)
Definition good_entries (k nb : nat) (ranks : list (list entry)) : Prop := forall es e, In es ranks -> In e es -> en_block e < k /\ en_bucket e < nb.
(** [lim] is the limit plus the part [1 - f] of the overload, rounded down. *)
Definition soft_limit_of (bw mx : list Z) (f : Q) (b : nat) (lim : Z) : Prop :=
  let x := (inject_Z (nth b mx 0%Z) + (1 - f) * inject_Z (nth b bw 0 - nth b mx 0)%Z)%Q in (inject_Z lim <= x)%Q /\ (x < inject_Z (lim + 1))%Q.
