(** * Specification vocabulary: closed polygonal chains of the same shape

    Two lists of points write the same closed chain if one can be turned into the
    other by starting elsewhere and by leaving out or adding points that lie on the
    line through their two neighbours.  That includes repeated points, points within
    sides, and tips of spikes (the neighbours of which are in one place); nothing here
    refers to how wagyu computes anything. *)
From Coq Require Import List.
From Verif Require Import Py Geometry SpecRing.
Import ListNotations.

Inductive same_shape : list point -> list point -> Prop :=
| shape_start : forall before after, same_shape (before ++ after) (after ++ before)
| shape_drop : forall p rest, on_line (last rest p) p (hd p rest) -> same_shape (p :: rest) rest
| shape_back : forall l l', same_shape l l' -> same_shape l' l
| shape_chain : forall l l' l'', same_shape l l' -> same_shape l' l'' -> same_shape l l''.
