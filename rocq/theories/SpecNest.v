(** * Specification vocabulary: rings inside rings

    The outline of a ring is the list of its points in [next] order.  A ring of the
    result is written the other way round, so a ring with a negative shoelace sum in
    [next] order is an exterior ring and any other one is a hole. *)
From Coq Require Import ZArith List Bool Reals.
From Verif Require Import Py Geometry BoundM LocalMinimumM StateM SpecRing SpecHeap SpecRings SpecTree FloatP.
Import ListNotations.
Open Scope Z_scope.

(** [vs] is the outline of [r], starting at its first vertex *)
Definition outline_of (s : st) (r : rid) (vs : list point) : Prop :=
  exists n l, first_of s r = Some n /\ circle s (n :: l) /\ vs = vertices s (n :: l).
Definition has_points (s : st) (r : rid) : Prop := exists vs, outline_of s r vs.
Definition exterior (s : st) (r : rid) : Prop := exists vs, outline_of s r vs /\ area2 vs < 0.
Definition hole (s : st) (r : rid) : Prop := exists vs, outline_of s r vs /\ 0 <= area2 vs.
Definition opposite (s : st) (r q : rid) : Prop := exterior s r /\ hole s q \/ hole s r /\ exterior s q.
(** the absolute area of [r], correctly rounded to a float *)
Definition abs_area (s : st) (r : rid) (a : R) : Prop :=
  exists vs f, outline_of s r vs /\ int_truediv (- area2 vs) 2 = Ok f /\ a = Rabs (val f).

(** [p] is on the closed polygonal line [vs] *)
Definition on_outline (vs : list point) (p : point) : Prop :=
  exists u v, In (u, v) (cyclic_pairs vs) /\ on_edge (QPt (px p) (py p) 1) u v.
(** the line [vs] runs an odd number of times around [p] *)
Definition surrounds (vs : list point) (p : point) : bool :=
  Z.odd (winding_number (QPt (px p) (py p) 1) vs).
(** the first point of [us] that is not on [vs] is surrounded by [vs] or not *)
Definition first_off (vs us : list point) (b : bool) : Prop :=
  exists on p rest, us = on ++ p :: rest /\ Forall (on_outline vs) on /\ ~ on_outline vs p /\ b = surrounds vs p.
(** the bounding box of [us] is within the one of [vs] *)
Definition box_within (us vs : list point) : Prop :=
  forall p, In p us ->
    (exists a, In a vs /\ px a <= px p) /\ (exists a, In a vs /\ px p <= px a) /\
    (exists a, In a vs /\ py a <= py p) /\ (exists a, In a vs /\ py p <= py a).
(** the order in which the points of a ring are tried: from the second one on, the
    first one last *)
Definition second_first (us : list point) : list point :=
  match us with [] => [] | p :: l => l ++ [p] end.

(** [lies_in s r q b]: comparing boxes, areas and the first point of [r] that is not
    on [q], the ring [r] is inside the ring [q] ([b = true]) or not ([b = false]).
    (If every point of [r] is on [q] this says nothing about the answer.) *)
Definition lies_in (s : st) (r q : rid) (b : bool) : Prop :=
  exists us vs x y, outline_of s r us /\ outline_of s q vs /\ abs_area s r x /\ abs_area s q y /\
    let touching := Forall (on_outline vs) us in
    if b then box_within us vs /\ (x <= y)%R /\ (first_off vs (second_first us) true \/ touching)
    else ~ box_within us vs \/ (y < x)%R \/ first_off vs (second_first us) false \/ touching.

(** [placed s before r]: the ring [r] hangs where it should, when the rings [before]
    (nearest last) were hung before it: under the last one of them that has the
    opposite orientation and contains it, or, if there is none, at the top - and then
    it is an exterior ring. *)
Definition placed (s : st) (before : list rid) (r : rid) : Prop :=
  let passed_over l := forall q, In q l -> has_points s q -> opposite s r q -> lies_in s r q false in
  match parent_of s r with
  | None => exterior s r /\ passed_over before
  | Some q => exists l1 l2, before = l1 ++ q :: l2 /\ opposite s r q /\ lies_in s r q true /\ passed_over l2
  end.

(** the stored statistics of every ring with points that was measured are those of
    its outline; only the stored number of points may be too large *)
Definition up_to_date (s : st) : Prop :=
  forall r n, first_of s r = Some n -> f_is_nan (r_area (ring_at s r)) = true \/
  exists l, circle s (n :: l) /\ (length (n :: l) <= r_size (ring_at s r))%nat /\
    tight_box (vertices s (n :: l)) (r_box (ring_at s r)) /\
    int_truediv (- area2 (vertices s (n :: l))) 2 = Ok (r_area (ring_at s r)) /\
    r_hole (ring_at s r) = (0 <=? area2 (vertices s (n :: l))).

(** [r] is [d] steps below a ring without parent *)
Inductive depth (s : st) : rid -> nat -> Prop :=
| depth_top r : parent_of s r = None -> depth s r 0
| depth_under r p d : parent_of s r = Some p -> depth s p d -> depth s r (S d).
(** every ring with points was measured *)
Definition all_measured (s : st) : Prop :=
  forall r, has_points s r -> f_is_nan (r_area (ring_at s r)) = false.
