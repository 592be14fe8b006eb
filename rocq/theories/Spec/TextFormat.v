(* Specification of the text file formats, independent of the code that reads and writes them. Files are lists of bytes. *)
From Verif Require Import Lib.Prelude Spec.Graph.
Local Open Scope Z_scope.

Definition newline : Z := 10.
Definition spaces (k : nat) : list Z := repeat 32 k.
Definition digit (b : Z) : Prop := 48 <= b <= 57.
(** [t] is a decimal representation of [v]. *)
Definition decimal (v : Z) (t : list Z) : Prop :=
  t <> [] /\ Forall digit t /\ fold_left (fun a d => 10 * a + (d - 48)) t 0 = v.

(** Numbers separated by one or more spaces, optionally followed by spaces. *)
Inductive numbers : list Z -> list Z -> Prop :=
| numbers_nil : numbers [] []
| numbers_one : forall v d k, decimal v d -> numbers [v] (d ++ spaces k)
| numbers_cons : forall v d k v' vs t, decimal v d -> numbers (v' :: vs) t -> numbers (v :: v' :: vs) (d ++ spaces (S k) ++ t).

(** Comment lines: they begin with a percent sign. *)
Inductive comments : list Z -> Prop :=
| comments_nil : comments []
| comments_cons : forall k body t, ~ In newline body -> comments t -> comments (spaces k ++ [37] ++ body ++ [newline] ++ t).

(** A line with the given numbers (without the newline), possibly indented and after comment lines. *)
Definition text_line (vs : list Z) (t : list Z) : Prop :=
  exists cs k body, comments cs /\ numbers vs body /\ t = cs ++ spaces k ++ body.

(** METIS: the numbers on the line of a node with weight [w]: its weight (if there are node weights), then for each
    neighbour its 1-based number and (if there are edge weights) the weight of the edge. *)
Definition node_numbers (nw ew : bool) (w : Z) (adj : list (nat * Z)) : list Z :=
  (if nw then [w] else []) ++
  concat (map (fun e => (Z.of_nat (fst e) + 1) :: (if ew then [snd e] else [])) adj).
(** Number of directed edges. *)
Definition num_arcs (g : graph) : Z := sumn (gn g) (fun u => Z.of_nat (length (gadj g u))).
(** Total weight of the directed edges. *)
Definition arc_weight (g : graph) : Z := sumn (gn g) (fun u => zsum (map snd (gadj g u))).
(** The header: number of nodes, of undirected edges, format (may be omitted if there are no weights). *)
Definition header_numbers (g : graph) (nw ew : bool) (vs : list Z) : Prop :=
  vs = [Z.of_nat (gn g); num_arcs g / 2; (if nw then 10 else 0) + (if ew then 1 else 0)] \/
  nw = false /\ ew = false /\ vs = [Z.of_nat (gn g); num_arcs g / 2].
(** The text describes the graph [g]: header line, one line per node, anything behind; the newline of the last line may
    be missing at the end of the file. *)
Definition metis_text (g : graph) (nw ew : bool) (text : list Z) : Prop :=
  exists vs header lines,
    header_numbers g nw ew vs /\ text_line vs header /\ length lines = gn g /\
    (forall u, (u < gn g)%nat -> text_line (node_numbers nw ew (gvw g u) (gadj g u)) (nth u lines [])) /\
    let full := header ++ [newline] ++ concat (map (fun l => l ++ [newline]) lines) in
    ((exists rest, text = full ++ rest) \/ ((0 < gn g)%nat /\ full = text ++ [newline])).

(** Graphs that the format can express with or without node / edge weights: simple graphs with positive weights, the
    weights being 1 if they are not written. *)
Definition expressible (g : graph) (nw ew : bool) : Prop :=
  (forall u v w, (u < gn g)%nat -> In (v, w) (gadj g u) -> (v < gn g)%nat /\ v <> u /\ 1 <= w /\ (ew = false -> w = 1)) /\
  (forall u, (u < gn g)%nat -> 1 <= gvw g u /\ (nw = false -> gvw g u = 1)) /\
  Z.even (num_arcs g) = true /\ num_arcs g <= Z.of_nat (gn g) * (Z.of_nat (gn g) - 1).

(** One number per line. *)
Definition number_lines (vs : list Z) (text : list Z) : Prop :=
  exists lines, Forall2 (fun v l => exists d k, decimal v d /\ l = d ++ spaces k ++ [newline]) vs lines /\ text = concat lines.
