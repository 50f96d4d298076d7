(** * Specification vocabulary: the sides of the rings

    The sides of the rings in a state: one directed side (from a vertex to its
    successor) for every vertex that belongs to a ring. *)
From Coq Require Import ZArith List Bool.
From Verif Require Import Py Geometry BoundM LocalMinimumM StateM SpecRing SpecHeap SpecRings.
Import ListNotations.
Open Scope Z_scope.

Definition side : Type := point * point.
Definition vertex_ids (s : st) : list nid := map Pos.of_succ_nat (seq 0 (pred (Pos.to_nat (s_nnext s)))).
(** the side that starts at vertex [i]: none unless the vertex belongs to a ring *)
Definition side_from (s : st) (i : nid) : list side :=
  match ring_of s i, n_next (node_at s i) with
  | Some _, Some j => [(npos (node_at s i), npos (node_at s j))]
  | _, _ => []
  end.
Definition sides (s : st) : list side := flat_map (side_from s) (vertex_ids s).
(** the sides of a closed polyline *)
Fixpoint path_sides (a : point) (l : list point) : list side :=
  match l with
  | [] => []
  | b :: l' => (a, b) :: path_sides b l'
  end.
Definition loop_sides (l : list point) : list side :=
  match l with
  | [] => []
  | a :: l' => path_sides a (l' ++ [a])
  end.
(** the sides of an open polyline, in particular of a ring of the result, which
    repeats its first point at the end *)
Definition line_sides (l : list point) : list side :=
  match l with
  | [] => []
  | a :: l' => path_sides a l'
  end.
(** the same side, walked the other way *)
Definition reversed_side (e : side) : side := (snd e, fst e).
