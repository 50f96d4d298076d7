(** * wagyu/enums.py, wagyu/point.py, wagyu/box.py, wagyu/edge.py

    User coordinates are Python ints ([Z]); this is the domain the project's own
    tests draw from (tests/strategies/base.py:51).  [Point] objects are treated
    as immutable values here; the aliasing that [Wagyu.bounds] exposes is
    modelled separately in [BoundsM]. *)
From Coq Require Import ZArith List Bool Lia.
From Coq Require Import Floats.SpecFloat.
From Verif Require Import Py Monad Utils.
Import ListNotations.
Open Scope Z_scope.

(** ** enums.py:11-34 *)
Inductive edge_side := LEFT | RIGHT.
Inductive fill_kind := EVEN_ODD | NON_ZERO | POSITIVE | NEGATIVE.
Inductive operation_kind := INTERSECTION | UNION | DIFFERENCE | XOR.
Inductive polygon_kind := SUBJECT | CLIP.
(** enums.py:37-41 *)
Inductive pip_result := ON | INSIDE | OUTSIDE.

Definition side_eqb (a b : edge_side) : bool :=
  match a, b with LEFT, LEFT | RIGHT, RIGHT => true | _, _ => false end.
Definition fill_eqb (a b : fill_kind) : bool :=
  match a, b with
  | EVEN_ODD, EVEN_ODD | NON_ZERO, NON_ZERO
  | POSITIVE, POSITIVE | NEGATIVE, NEGATIVE => true
  | _, _ => false
  end.
Definition op_eqb (a b : operation_kind) : bool :=
  match a, b with
  | INTERSECTION, INTERSECTION | UNION, UNION
  | DIFFERENCE, DIFFERENCE | XOR, XOR => true
  | _, _ => false
  end.
Definition kind_eqb (a b : polygon_kind) : bool :=
  match a, b with SUBJECT, SUBJECT | CLIP, CLIP => true | _, _ => false end.

(** ** point.py *)
Record point := Pt { px : Z; py : Z }.
(** a point whose coordinates may be floats (results of [Edge.__and__],
    centroids) *)
Record npoint := NPt { nx : num; ny : num }.
Definition npoint_of (p : point) : npoint := NPt (NI (px p)) (NI (py p)).

(** [Point.__eq__] (point.py:16-19) *)
Definition point_eqb (a b : point) : bool := (px a =? px b) && (py a =? py b).

(** [Point.round] (point.py:21-22) *)
Definition round_point (p : npoint) : res point :=
  (x <- round_towards_max (nx p) ;; y <- round_towards_max (ny p) ;; Ok (Pt x y))%res.

(** [are_points_slopes_equal] (point.py:25-27) *)
Definition points_slopes_equal (a b c : point) : bool :=
  (py a - py b) * (px b - px c) =? (px a - px b) * (py b - py c).

(** [is_point_between_others] (point.py:30-36); [is] between bools is equality *)
Definition point_between (p1 p2 p3 : point) : bool :=
  if point_eqb p1 p2 || point_eqb p2 p3 || point_eqb p1 p3 then false
  else if negb (px p1 =? px p3)
       then Bool.eqb (px p2 >? px p1) (px p2 <? px p3)
       else Bool.eqb (py p2 >? py p1) (py p2 <? py p3).

(** ** box.py *)
Record box := Box { bmin : point; bmax : point }.
(** [Box.__eq__] (box.py:15-18) *)
Definition box_eqb (a b : box) : bool :=
  point_eqb (bmin a) (bmin b) && point_eqb (bmax a) (bmax b).
(** [Box.inside_of] (box.py:20-24) *)
Definition box_inside_of (a b : box) : bool :=
  (px (bmin b) <=? px (bmin a)) && (py (bmin b) <=? py (bmin a))
  && (px (bmax b) >=? px (bmax a)) && (py (bmax b) >=? py (bmax a)).

(** ** edge.py *)
Record edge := Edge { etop : point; ebot : point; eslope : float }.

(** [Edge.__init__] (edge.py:15-20).  Simplification: none; a slope too large
    for a float raises OverflowError as in Python. *)
Definition mk_edge (bottom top : point) : res edge :=
  let '(b, t) := if py bottom <? py top then (top, bottom) else (bottom, top) in
  let dy := py t - py b in
  if dy =? 0 then Ok (Edge t b f_inf)
  else (s <- int_truediv (px t - px b) dy ;; Ok (Edge t b s))%res.

(** [Edge.__eq__] (edge.py:43-46) *)
Definition edge_eqb (a b : edge) : bool :=
  point_eqb (etop a) (etop b) && point_eqb (ebot a) (ebot b).

(** [Edge.is_horizontal] (edge.py:48-50) *)
Definition is_horizontal (e : edge) : bool := f_is_inf (eslope e).

(** [Edge.__and__] (edge.py:24-41) *)
Definition f_one : float := S754_finite false (2 ^ 52) (-52).
Definition f_in_01 (x : float) : bool :=
  num_leb (NF f_zero) (NF x) && num_leb (NF x) (NF f_one).
Definition edge_and (e o : edge) : res (option npoint) :=
  let dx := px (etop e) - px (ebot e) in
  let dy := py (etop e) - py (ebot e) in
  let odx := px (etop o) - px (ebot o) in
  let ody := py (etop o) - py (ebot o) in
  let den := dx * ody - odx * dy in
  if den =? 0 then Ok None
  else
    (s <- int_truediv ((- dy) * (px (ebot e) - px (ebot o))
                       + dx * (py (ebot e) - py (ebot o))) den ;;
     t <- int_truediv (odx * (py (ebot e) - py (ebot o))
                       - ody * (px (ebot e) - px (ebot o))) den ;;
     if f_in_01 s && f_in_01 t then
       (tx <- num_mul (NF t) (NI dx) ;;
        x <- num_add (NI (px (ebot e))) tx ;;
        ty <- num_mul (NF t) (NI dy) ;;
        y <- num_add (NI (py (ebot e))) ty ;;
        Ok (Some (NPt x y)))
     else Ok None)%res.

(** [Edge.get_current_x] (edge.py:52-56) *)
Definition get_current_x (e : edge) (y : Z) : res float :=
  if y =? py (etop e) then float_of_Z (px (etop e))
  else (d <- num_mul (NF (eslope e)) (NI (y - py (ebot e))) ;;
        v <- num_add (NI (px (ebot e))) d ;;
        num_to_float v)%res.

(** [slope > 0] / [slope < 0] *)
Definition slope_pos (e : edge) : bool := num_gtb (NF (eslope e)) (NI 0).
Definition slope_neg (e : edge) : bool := num_ltb (NF (eslope e)) (NI 0).

(** [self.bottom.x + self.slope * lower_range_y] *)
Definition x_at_range (e : edge) (lower_range_y : num) : res num :=
  (d <- num_mul (NF (eslope e)) lower_range_y ;;
   num_add (NI (px (ebot e))) d)%res.

(** [Edge.get_min_x] (edge.py:58-73) *)
Definition get_min_x (e : edge) (y : Z) : res Z :=
  if is_horizontal e then Ok (Z.min (px (ebot e)) (px (etop e)))
  else if slope_pos e then
    if y =? py (etop e) then Ok (px (etop e))
    else (r <- num_sub (NI (y - py (ebot e))) (NF f_half) ;;
          v <- x_at_range e r ;; round_towards_min v)%res
  else if y =? py (ebot e) then Ok (px (ebot e))
  else (r <- num_add (NI (y - py (ebot e))) (NF f_half) ;;
        v <- x_at_range e r ;; round_towards_min v)%res.

(** [Edge.get_max_x] (edge.py:75-90) *)
Definition get_max_x (e : edge) (y : Z) : res Z :=
  if is_horizontal e then Ok (Z.max (px (ebot e)) (px (etop e)))
  else if slope_neg e then
    if y =? py (etop e) then Ok (px (etop e))
    else (r <- num_sub (NI (y - py (ebot e))) (NF f_half) ;;
          v <- x_at_range e r ;; round_towards_max v)%res
  else if y =? py (ebot e) then Ok (px (ebot e))
  else (r <- num_add (NI (y - py (ebot e))) (NF f_half) ;;
        v <- x_at_range e r ;; round_towards_max v)%res.

(** [Edge.reverse_horizontal] (edge.py:92-94): the slope is not touched. *)
Definition reverse_horizontal (e : edge) : edge :=
  Edge (Pt (px (ebot e)) (py (etop e))) (Pt (px (etop e)) (py (ebot e))) (eslope e).

(** [are_edges_slopes_equal] (edge.py:97-100) *)
Definition edges_slopes_equal (a b : edge) : bool :=
  (py (etop a) - py (ebot a)) * (px (etop b) - px (ebot b))
  =? (px (etop a) - px (ebot a)) * (py (etop b) - py (ebot b)).
