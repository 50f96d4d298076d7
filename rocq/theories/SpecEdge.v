(** * Specification vocabulary: points of edges, common points of segments *)
From Coq Require Import ZArith Reals.
From Verif Require Import Py Geometry.
Open Scope Z_scope.

(** the point at parameter [t] of an edge (bottom at 0, top at 1) *)
Definition at_x (e : edge) (t : R) : R := (IZR (px (ebot e)) + t * IZR (px (etop e) - px (ebot e)))%R.
Definition at_y (e : edge) (t : R) : R := (IZR (py (ebot e)) + t * IZR (py (etop e) - py (ebot e)))%R.
(** zero iff the edges are parallel *)
Definition determinant (e o : edge) : Z :=
  (px (etop e) - px (ebot e)) * (py (etop o) - py (ebot o)) - (px (etop o) - px (ebot o)) * (py (etop e) - py (ebot e)).
(** the closed segments have a common point *)
Definition meet (e o : edge) : Prop :=
  exists t s, (0 <= t <= 1)%R /\ (0 <= s <= 1)%R /\ at_x e t = at_x o s /\ at_y e t = at_y o s.
(** coordinates bounded by [k] *)
Definition small (p : point) (k : Z) : Prop := Z.abs (px p) <= k /\ Z.abs (py p) <= k.
Definition small_edge (e : edge) (k : Z) : Prop := small (etop e) k /\ small (ebot e) k.
