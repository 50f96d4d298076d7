(** * Specification vocabulary: where an output vertex comes from *)
From Coq Require Import ZArith List Bool.
From Verif Require Import Py Utils Geometry.
Import ListNotations.
Open Scope Z_scope.

(** the x-coordinate the code computes for the edge [e] on the line at height [y]
    (bottom x + slope * (y - bottom y) in floats, the top x at the top; at the
    bottom it may be the bottom x itself) *)
Definition position_at (e : edge) (y : Z) (x : float) : Prop :=
  get_current_x e y = Ok x \/ (y = py (ebot e) /\ float_of_Z (px (ebot e)) = Ok x).

(** [vertex_origin E q]: the point [q] is
    - an end of an edge of [E], or
    - the rounded crossing point of two edges of [E], or
    - on the level of a horizontal edge of [E], at the rounded position of an edge
      of [E] on that level. *)
Inductive vertex_origin (E : edge -> Prop) (q : point) : Prop :=
| vo_end : forall e, E e -> q = ebot e \/ q = etop e -> vertex_origin E q
| vo_cross : forall e f z, E e -> E f -> edge_and e f = Ok (Some z) -> round_point z = Ok q -> vertex_origin E q
| vo_level : forall h e x, E h -> py (etop h) = py (ebot h) -> py q = py (ebot h) ->
    E e -> position_at e (py q) x -> round_half_up (NF x) = Ok (px q) -> vertex_origin E q.
