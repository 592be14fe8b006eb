(* Model of the all-to-all communication of kaminpar-mpi: grid_topology.h (GridTopology, GridCommunicator), grid_alltoall.h
   (sparse_alltoall_grid) and alltoall.h (sparse_alltoall_alltoallv). The program of all PEs (ranks 0, ..., P - 1) is one
   function from everybody's buffers to what everybody's receiver is called with. MPI_Comm_split and MPI_Alltoallv are
   modelled by their definitions in the MPI standard. [None]: some PE accesses an array out of bounds or the counts of a
   collective do not match. Square root and division with doubles (grid_topology.h:20, :77) are the integer functions (exact
   for ranks below 2^31); counts (int) are unbounded. *)
From Verif Require Import Lib.Prelude.

(** ** Collectives *)

(** MPI_Comm_split: the ranks with the same colour, ordered by key, then by rank. *)
Fixpoint key_insert (key : nat -> nat) (r : nat) (l : list nat) : list nat :=
  match l with
  | [] => [r]
  | x :: t => if key r <? key x then r :: l else x :: key_insert key r t
  end.
Definition comm_split (P : nat) (color key : nat -> nat) (c : nat) : list nat :=
  fold_left (fun l r => key_insert key r l) (filter (fun r => color r =? c) (seq 0 P)) [].
(** MPI_Comm_rank in the new communicator. *)
Fixpoint index_of (r : nat) (l : list nat) : option nat :=
  match l with
  | [] => None
  | x :: t => if x =? r then Some 0 else option_map S (index_of r t)
  end.

(** A part of an array. *)
Definition slice {X} (l : list X) (at_ len : nat) : option (list X) :=
  if at_ + len <=? length l then Some (firstn len (skipn at_ l)) else None.
Definition put {X} (l : list X) (at_ : nat) (t : list X) : option (list X) :=
  if at_ + length t <=? length l then Some (firstn at_ l ++ t ++ skipn (at_ + length t) l) else None.

(** What a PE passes to MPI_Alltoallv: send buffer, counts and displacements; receive buffer, counts and displacements. *)
Record coll (X : Type) := Coll { c_send : list X; c_scnt : list nat; c_sdis : list nat; c_recv : list X; c_rcnt : list nat; c_rdis : list nat }.
Arguments Coll {X}. Arguments c_send {X}. Arguments c_scnt {X}. Arguments c_sdis {X}. Arguments c_recv {X}. Arguments c_rcnt {X}. Arguments c_rdis {X}.

Definition bind {A B} (x : option A) (f : A -> option B) : option B := match x with Some a => f a | None => None end.
Fixpoint traverse {A B} (f : A -> option B) (l : list A) : option (list B) :=
  match l with
  | [] => Some []
  | x :: t => bind (f x) (fun y => bind (traverse f t) (fun r => Some (y :: r)))
  end.

(** MPI_Alltoallv in the communicator [members] (ranks): receive buffer of its member number [me] afterwards; [args]: the
    arguments of all ranks. *)
Definition alltoallv {X} (members : list nat) (args : list (coll X)) (me : nat) : option (list X) :=
  bind (bind (nth_error members me) (nth_error args)) (fun mine =>
  fold_left (fun acc ja =>
    bind acc (fun buf =>
    bind (nth_error args (snd ja)) (fun a =>
    bind (nth_error (c_scnt a) me) (fun sc => bind (nth_error (c_sdis a) me) (fun sd =>
    bind (nth_error (c_rcnt mine) (fst ja)) (fun rc => bind (nth_error (c_rdis mine) (fst ja)) (fun rd =>
    if sc =? rc then bind (slice (c_send a) sd sc) (fun t => put buf rd t) else None)))))))
    (combine (seq 0 (length members)) members) (Some (c_recv mine))).
(** All ranks call it; [members r]: the communicator of rank r. *)
Definition alltoallv_all {X} (P : nat) (members : nat -> list nat) (args : list (coll X)) : option (list (list X)) :=
  traverse (fun r => bind (index_of r (members r)) (fun me => alltoallv (members r) args me)) (seq 0 P).

(** prefix_sum / partial_sum into [result + 1], with a leading 0. *)
Fixpoint displs_from (s : nat) (l : list nat) : list nat :=
  match l with [] => [s] | x :: t => s :: displs_from (s + x) t end.
Definition displs (l : list nat) : list nat := displs_from 0 l.

(** ** grid_topology.h *)
Section Topology.
Variable P : nat.
Definition gt_sqrt : nat := Nat.sqrt P.
(** :90-92 num_full_cols, :76-78 num_cols, :80-82 num_rows, :105-107 partial_column_size, :109-111. *)
Definition gt_full_cols : nat := P / gt_sqrt.
Definition gt_cols : nat := P / gt_sqrt + (if P mod gt_sqrt =? 0 then 0 else 1).
Definition gt_rows : nat := gt_sqrt.
Definition gt_partial : nat := P - gt_sqrt * gt_full_cols.
Definition gt_rect : nat := if gt_partial =? 0 then P else gt_cols * gt_partial.
(** :22-36 row, col. *)
Definition gt_row (pe : nat) : nat := if pe <? gt_rect then pe / gt_cols else (pe - gt_rect) / gt_full_cols + gt_partial.
Definition gt_col (pe : nat) : nat := if pe <? gt_rect then pe mod gt_cols else (pe - gt_rect) mod gt_full_cols.
(** :38-44 virtual_col. *)
Definition gt_vcol (pe : nat) : nat := if (gt_partial =? 0) || (gt_col pe <? gt_full_cols) then gt_col pe else gt_row pe.
(** :46-52 row_size, :66-68 virtual_col_size, :84-86 num_cols_in_row. *)
Definition gt_row_size (row : nat) : nat := if row <? gt_partial then gt_cols else gt_full_cols.
Definition gt_vcol_size (c : nat) : nat := gt_sqrt + (if c <? gt_partial then 1 else 0).
Definition gt_cols_in_row (row : nat) : nat := gt_full_cols + (if row <? gt_partial then 1 else 0).
(** :94-102 virtual_element. *)
Definition gt_velem (row vcol : nat) : nat :=
  if row <? gt_partial then row * gt_cols + vcol
  else if row <? gt_rows then row * gt_full_cols + vcol + gt_partial
  else gt_cols - 1 + gt_cols * vcol.

(** :113-124 GridCommunicator: the communicators of a rank. *)
Definition row_comm (r : nat) : list nat := comm_split P gt_row (fun r => r) (gt_row r).
Definition col_comm (r : nat) : list nat :=
  comm_split P gt_vcol (fun r => if gt_vcol r =? gt_col r then r else P + r) (gt_vcol r).

(** ** grid_alltoall.h:26-365 sparse_alltoall_grid *)
Section Grid.
Context {X : Type} (dummy : X).
(** The arguments of every rank: data and counts. *)
Variables (data : list (list X)) (counts : list (list nat)).

Definition rcs (r : nat) : nat := length (row_comm r).
Definition ccs (r : nat) : nat := length (col_comm r).
Definition real (r : nat) : bool := gt_col r =? gt_vcol r.

(** :57-113 step 1, arguments of rank [r]: counts for every row. *)
Definition g_args1 (r : nat) : option (coll nat) :=
  if ccs r <? gt_rows then None
  else bind (nth_error counts r) (fun cnt =>
    let sc := map gt_cols_in_row (seq 0 gt_rows) ++ repeat 0 (ccs r - gt_rows) in
    let rc := repeat (if real r then gt_row_size (gt_row r) else 0) (ccs r) in
    Some (Coll cnt sc (displs sc) (repeat 0 (rcs r * ccs r)) rc (displs rc))).
Definition g_step1 : option (list (list nat)) := bind (traverse g_args1 (seq 0 P)) (alltoallv_all P col_comm).

(** :136-187 step 2: data for every row; [rc]: row_counts of rank [r]. *)
Definition g_row_send (r : nat) (cnt : list nat) : option (list nat) :=
  fold_left (fun acc pe => bind acc (fun l => bind (nth_error cnt pe) (fun x => bind (nth_error l (gt_row pe)) (fun y =>
    Some (upd (gt_row pe) (y + x) l))))) (seq 0 P) (Some (repeat 0 (ccs r))).
Definition g_row_recv (r : nat) (rc : list nat) : list nat := map (fun j => list_sum (firstn (rcs r) (skipn (j * rcs r) rc))) (seq 0 (ccs r)).
Definition g_args2 (rcounts : list (list nat)) (r : nat) : option (coll X) :=
  bind (nth_error data r) (fun dat => bind (nth_error counts r) (fun cnt => bind (nth_error rcounts r) (fun rc =>
    bind (g_row_send r cnt) (fun sc =>
    let rv := g_row_recv r rc in
    Some (Coll dat sc (displs sc) (repeat dummy (list_sum rv)) rv (displs rv)))))).
Definition g_step2 (rcounts : list (list nat)) : option (list (list X)) := bind (traverse (g_args2 rcounts) (seq 0 P)) (alltoallv_all P col_comm).

(** :218-283 step 3: the counts of every row for every column. The loops write each entry of col_counts and col_subcounts
    once; row_counts has rcs r * ccs r entries. *)
Definition g_entry (r : nat) (rc : list nat) (col from_row : nat) : nat := nth (col + from_row * rcs r) rc 0.
Definition g_col_counts (r : nat) (rc : list nat) : list nat := map (fun col => list_sum (map (g_entry r rc col) (seq 0 (ccs r)))) (seq 0 (rcs r)).
Definition g_col_subcounts (r : nat) (rc : list nat) : list nat := flat_map (fun col => map (g_entry r rc col) (seq 0 (ccs r))) (seq 0 (rcs r)).
Definition g_args3 (rcounts : list (list nat)) (r : nat) : option (coll nat) :=
  if rcs r <? gt_full_cols then None
  else bind (nth_error rcounts r) (fun rc =>
    let sc := repeat (if real r then ccs r else 0) (rcs r) in
    let rv := map gt_vcol_size (seq 0 gt_full_cols) ++ repeat 0 (rcs r - gt_full_cols) in
    Some (Coll (g_col_subcounts r rc) sc (displs sc) (repeat 0 P) rv (displs rv))).
Definition g_step3 (rcounts : list (list nat)) : option (list (list nat)) := bind (traverse (g_args3 rcounts) (seq 0 P)) (alltoallv_all P row_comm).

(** :290-337 transpose the data and exchange it in the row; [sub]: subcounts. *)
Fixpoint split_sums (sizes : list nat) (sub : list nat) : option (list nat) :=
  match sizes with
  | [] => Some []
  | n :: t => if length sub <? n then None else bind (split_sums t (skipn n sub)) (fun l => Some (list_sum (firstn n sub) :: l))
  end.
Definition g_col_data (r : nat) (rc : list nat) (buf : list X) : option (list X) :=
  option_map (@concat X) (traverse (fun cr => slice buf (nth (snd cr * rcs r + fst cr) (displs rc) 0) (nth (snd cr * rcs r + fst cr) rc 0))
    (flat_map (fun col => map (fun row => (col, row)) (seq 0 (ccs r))) (seq 0 (rcs r)))).
Definition g_args4 (rcounts : list (list nat)) (bufs : list (list X)) (subs : list (list nat)) (r : nat) : option (coll X) :=
  if rcs r <? gt_full_cols then None
  else bind (nth_error rcounts r) (fun rc => bind (nth_error bufs r) (fun buf => bind (nth_error subs r) (fun sub =>
    bind (split_sums (map gt_vcol_size (seq 0 gt_full_cols)) sub) (fun sums =>
    let rv := sums ++ repeat 0 (rcs r - gt_full_cols) in
    let sc := g_col_counts r rc in
    bind (g_col_data r rc buf) (fun cd => Some (Coll cd sc (displs sc) (repeat dummy (list_sum rv)) rv (displs rv))))))).
Definition g_step4 (rcounts : list (list nat)) (bufs : list (list X)) (subs : list (list nat)) : option (list (list X)) :=
  bind (traverse (g_args4 rcounts bufs subs) (seq 0 P)) (alltoallv_all P row_comm).

(** :346-364 the calls of the receiver: sender and message. *)
Fixpoint g_deliver (order : list (nat * nat)) (sub : list nat) (buf : list X) : option (list (nat * list X)) :=
  match order with
  | [] => Some []
  | (col, row) :: t =>
      match sub with
      | [] => None
      | n :: sub' => if length buf <? n then None
                     else bind (g_deliver t sub' (skipn n buf)) (fun l => Some ((gt_velem row col, firstn n buf) :: l))
      end
  end.
Definition g_order : list (nat * nat) := flat_map (fun col => map (fun row => (col, row)) (seq 0 (gt_vcol_size col))) (seq 0 gt_full_cols).
Definition grid_alltoall : option (list (list (nat * list X))) :=
  bind g_step1 (fun rcounts => bind (g_step2 rcounts) (fun bufs => bind (g_step3 rcounts) (fun subs => bind (g_step4 rcounts bufs subs) (fun cols =>
    traverse (fun r => bind (nth_error subs r) (fun sub => bind (nth_error cols r) (fun buf => g_deliver g_order sub buf))) (seq 0 P))))).
End Grid.

(** :367-394 the overload for one buffer per destination. *)
Definition grid_alltoall_buffers {X} (dummy : X) (B : list (list (list X))) : option (list (list (nat * list X))) :=
  grid_alltoall dummy (map (@concat X) B) (map (map (@length X)) B).

(** alltoall.h:55-121 sparse_alltoall_alltoallv. MPI_Alltoall of the counts: one entry per pair. The receive buffer has
    recv_counts.back() more entries than needed. *)
Definition dense_alltoall {X} (dummy : X) (B : list (list (list X))) : option (list (list (nat * list X))) :=
  let world := seq 0 P in
  let one := repeat 1 P in
  bind (traverse (fun r => bind (nth_error B r) (fun b => Some (Coll (map (@length X) b) one (displs one) (repeat 0 P) one (displs one)))) world) (fun a1 =>
  bind (alltoallv_all P (fun _ => world) a1) (fun rcnts =>
  bind (traverse (fun r => bind (nth_error B r) (fun b => bind (nth_error rcnts r) (fun rc =>
          let sc := map (@length X) b in
          Some (Coll (concat b) sc (displs sc) (repeat dummy (list_sum rc + last rc 0)) rc (displs rc))))) world) (fun a2 =>
  bind (alltoallv_all P (fun _ => world) a2) (fun bufs =>
  traverse (fun r => bind (nth_error bufs r) (fun buf => bind (nth_error rcnts r) (fun rc =>
    traverse (fun pe => bind (nth_error rc pe) (fun n => bind (nth_error (displs rc) pe) (fun d =>
      option_map (fun t => (pe, t)) (slice buf d n)))) world))) world)))).
End Topology.
