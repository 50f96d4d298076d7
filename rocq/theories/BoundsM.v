(** * [Wagyu.bounds] (wagyu.py:31-66) with [Point] objects as mutable cells

    [Wagyu.bounds] keeps references to the [Point] objects of the recorded edges and
    assigns to their attributes, so here points are cells of a store and an edge end is a
    reference.  Which ends share one object depends on how the rings were given and
    simplified; the model leaves that open (any assignment of references to edge ends
    whose values are the recorded edges). *)
From Coq Require Import ZArith List Bool.
From Verif Require Import Py Geometry BoundM LocalMinimumM WagyuM.
Import ListNotations.
Open Scope Z_scope.

Definition pref := positive.
Definition store := pref -> point.
Definition assign (h : store) (i : pref) (p : point) : store :=
  fun j => if Pos.eqb j i then p else h j.
(** [edge.top], [edge.bottom] as references *)
Record redge := REdge { re_top : pref; re_bottom : pref }.

(** [p.x = f(p.x, v)] and [p.y = f(p.y, v)] with [f] one of [min], [max] *)
Definition set_x (f : Z -> Z -> Z) (i : pref) (v : Z) (h : store) : store :=
  assign h i (Pt (f (px (h i)) v) (py (h i))).
Definition set_y (f : Z -> Z -> Z) (i : pref) (v : Z) (h : store) : store :=
  assign h i (Pt (px (h i)) (f (py (h i)) v)).

(** the inner [for edge in ...] loop (wagyu.py:47-49, 62-64) *)
Fixpoint widen_x (mn mx : pref) (es : list redge) (h : store) : store :=
  match es with
  | [] => h
  | e :: es' =>
      let h := set_x Z.min mn (px (h (re_bottom e))) h in
      let h := set_x Z.max mx (px (h (re_bottom e))) h in
      widen_x mn mx es' h
  end.
(** [minimum], [maximum], [first_set] *)
Definition bst := (pref * pref * bool)%type.
(** one bound (wagyu.py:37-49, 50-64); a bound with no edges is skipped *)
Definition bounds_bound (es : list redge) (x : bst * store) : bst * store :=
  let '((mn, mx, first_set), h) := x in
  match es with
  | [] => x
  | e0 :: _ =>
      let el := List.last es e0 in
      let '(mn, mx, h) :=
        if (first_set : bool) then
          let h := set_x Z.min mn (px (h (re_top el))) h in
          let h := set_y Z.min mn (py (h (re_top e0))) h in
          let h := set_x Z.max mx (px (h (re_top el))) h in
          let h := set_y Z.max mx (py (h (re_bottom el))) h in
          (mn, mx, h)
        else (re_top e0, re_bottom el, h) in
      ((mn, mx, true), widen_x mn mx es h)
  end.
(** [Wagyu.bounds] (wagyu.py:31-66) on the recorded bounds, left and right of each local
    minimum in turn; [mn0] and [mx0] are the two fresh [Point(0, 0)].  The result is the
    pair of references in the returned [Box] and the store afterwards. *)
Definition wagyu_bounds (mn0 mx0 : pref) (ms : list (list redge * list redge)) (h : store)
  : pref * pref * store :=
  let '((mn, mx, _), h) :=
    fold_left (fun x '(l, r) => bounds_bound r (bounds_bound l x)) ms ((mn0, mx0, false), h) in
  (mn, mx, h).

(** the references [ms] hold, in the store [h], the edges recorded by [w]; the two fresh
    points are nobody's *)
Definition edge_held (h : store) (r : redge) (e : edge) : Prop :=
  h (re_top r) = etop e /\ h (re_bottom r) = ebot e.
Definition holds_edges (w : wagyu) (mn0 mx0 : pref) (ms : list (list redge * list redge)) (h : store) : Prop :=
  h mn0 = Pt 0 0 /\ h mx0 = Pt 0 0 /\ mn0 <> mx0 /\
  Forall2 (fun '(l, r) lm =>
             Forall2 (edge_held h) l (b_edges (bget (lml_bounds (w_minimums w)) (lm_left lm))) /\
             Forall2 (edge_held h) r (b_edges (bget (lml_bounds (w_minimums w)) (lm_right lm))))
          ms (lml_values (w_minimums w)).
