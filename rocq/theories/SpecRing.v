(** * Specification vocabulary: closed polygonal chains

    Signed area, winding numbers and collinearity of vertex lists.  Nothing here
    refers to how wagyu computes anything. *)
From Coq Require Import ZArith List Bool.
From Verif Require Import Py Geometry.
Import ListNotations.
Open Scope Z_scope.

(** consecutive pairs of an open chain, and of a closed one *)
Fixpoint pairs (l : list point) : list (point * point) :=
  match l with
  | a :: ((b :: _) as t) => (a, b) :: pairs t
  | _ => []
  end.
Definition cyclic_pairs (l : list point) : list (point * point) :=
  match l with [] => [] | a :: _ => pairs (l ++ [a]) end.
(** cyclically consecutive triples *)
Fixpoint triples (l : list point) : list (point * point * point) :=
  match l with
  | a :: ((b :: c :: _) as t) => (a, b, c) :: triples t
  | _ => []
  end.
Definition cyclic_triples (l : list point) : list (point * point * point) :=
  match l with
  | a :: b :: _ => triples (l ++ [a; b])
  | _ => []
  end.
Definition zsum (l : list Z) : Z := fold_right Z.add 0 l.
Definition on_line (a b c : point) : Prop :=
  (px b - px a) * (py c - py a) = (py b - py a) * (px c - px a).

(** twice the signed area (shoelace formula) *)
Definition cross (a b : point) : Z := px a * py b - px b * py a.
Definition area2 (l : list point) : Z := zsum (map (fun '(a, b) => cross a b) (cyclic_pairs l)).

(** a point of the plane with rational coordinates [(qx/qd, qy/qd)] *)
Record qpoint := QPt { qx : Z; qy : Z; qd : positive }.
(** side of [q] with respect to the directed line a -> b: positive = left *)
Definition side (q : qpoint) (a b : point) : Z :=
  (px b - px a) * (qy q - py a * Zpos (qd q)) - (py b - py a) * (qx q - px a * Zpos (qd q)).
(** contribution of the directed edge a -> b to the winding number around [q]
    (half-open crossing rule: the lower end belongs to the edge) *)
Definition crossed (q : qpoint) (a b : point) : Z :=
  if (py a * Zpos (qd q) <=? qy q) && (qy q <? py b * Zpos (qd q)) then
    (if 0 <? side q a b then 1 else 0)
  else if (py b * Zpos (qd q) <=? qy q) && (qy q <? py a * Zpos (qd q)) then
    (if side q a b <? 0 then -1 else 0)
  else 0.
Definition winding_number (q : qpoint) (l : list point) : Z :=
  zsum (map (fun '(a, b) => crossed q a b) (cyclic_pairs l)).
(** [q] lies on the closed chain *)
Definition on_edge (q : qpoint) (a b : point) : Prop :=
  side q a b = 0 /\
  Z.min (px a) (px b) * Zpos (qd q) <= qx q <= Z.max (px a) (px b) * Zpos (qd q) /\
  Z.min (py a) (py b) * Zpos (qd q) <= qy q <= Z.max (py a) (py b) * Zpos (qd q).

(** an edge joins two points, its bottom being the one with the larger y *)
Definition joins (e : edge) (a b : point) : Prop :=
  (etop e = a /\ ebot e = b \/ etop e = b /\ ebot e = a) /\ py (etop e) <= py (ebot e).
(** the edges [es], in order, run once around the closed chain [vs] *)
Definition outline (vs : list point) (es : list edge) : Prop :=
  Forall2 (fun '(a, b) e => joins e a b) (cyclic_pairs vs) es.
