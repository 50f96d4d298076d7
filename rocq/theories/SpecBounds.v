(** * Specification vocabulary: bounds of a local minimum *)
From Coq Require Import ZArith List Bool.
From Verif Require Import Py Geometry.
Import ListNotations.
Open Scope Z_scope.

(** [ascends a l b]: the edges [l] lead from [a] to [b], every edge starts (at its
    bottom) where the previous one ended (at its top), and y never increases *)
Fixpoint ascends (a : point) (l : list edge) (b : point) : Prop :=
  match l with
  | [] => a = b
  | e :: l' => ebot e = a /\ py (etop e) <= py (ebot e) /\ ascends (etop e) l' b
  end.
(** an edge without the direction of a horizontal one *)
Definition undirected (e : edge) : edge :=
  if (py (etop e) =? py (ebot e)) && (px (etop e) <? px (ebot e))
  then Edge (ebot e) (etop e) (eslope e) else e.
(** the first edge that is not horizontal *)
Definition first_sloped (l : list edge) : option edge := find (fun e => negb (py (etop e) =? py (ebot e))) l.
(** the chain [l] leaves the minimum to the left of the chain [r]: its first
    sloped edge starts further left, or at the same point with a slope (dx/dy,
    dy < 0) that is not smaller *)
Definition opens_left_of (l r : list edge) : Prop :=
  exists el er, first_sloped l = Some el /\ first_sloped r = Some er /\
    py (ebot el) = py (ebot er) /\
    (px (ebot el) < px (ebot er) \/
     ebot el = ebot er /\ num_leb (NF (eslope er)) (NF (eslope el)) = true).
(** the chain starts with a horizontal edge *)
Definition starts_flat (l : list edge) : Prop := exists e t, l = e :: t /\ py (etop e) = py (ebot e).
(** no two consecutive edges are horizontal *)
Definition flats_apart (l : list edge) : Prop :=
  forall l1 e f l2, l = l1 ++ e :: f :: l2 ->
    py (etop e) = py (ebot e) -> py (etop f) = py (ebot f) -> False.
(** the last edge is not horizontal *)
Definition ends_sloped (l : list edge) : Prop := forall l1 e, l = l1 ++ [e] -> py (etop e) <> py (ebot e).
(** where a chain ends *)
Fixpoint tip (l : list edge) : option point :=
  match l with
  | [] => None
  | [e] => Some (etop e)
  | _ :: l' => tip l'
  end.
(** the edge has positive length, its bottom has the larger y, and its slope is
    dx / dy as Python divides ints (infinity for a horizontal edge) *)
Definition well_made (e : edge) : Prop :=
  etop e <> ebot e /\ py (etop e) <= py (ebot e) /\
  (if py (etop e) =? py (ebot e) then eslope e = f_inf
   else int_truediv (px (etop e) - px (ebot e)) (py (etop e) - py (ebot e)) = Ok (eslope e)).
(** in exact integer geometry: the first sloped edge of [l] starts to the left of
    the first sloped edge of [r], or both start at the same point and the one of
    [l] is nowhere to the right of the other above it *)
Definition really_left_of (l r : list edge) : Prop :=
  exists el er, first_sloped l = Some el /\ first_sloped r = Some er /\
    py (ebot el) = py (ebot er) /\
    (px (ebot el) < px (ebot er) \/
     ebot el = ebot er /\
     (* x of [el] <= x of [er] at equal heights above the common start *)
     (px (etop el) - px (ebot el)) * (py (ebot er) - py (etop er))
       <= (px (etop er) - px (ebot er)) * (py (ebot el) - py (etop el))).
