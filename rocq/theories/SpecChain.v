(** * Specification vocabulary: the open rings of the sweep

    While the sweep runs, a ring of the output is an open chain of points.  It hangs
    between the active bounds that hold it: a bound on its left side holds the front
    of the chain, a bound on its right side holds the back, and the end a bound holds
    is the last point that bound has put out. *)
From Coq Require Import ZArith List Bool.
From Verif Require Import Py Geometry BoundM LocalMinimumM StateM SpecHeap SpecRings SpecActive SpecRun.
Import ListNotations.
Open Scope Z_scope.

(** [ps] are the points of ring [r], from its first vertex once around *)
Definition points_of (s : st) (r : rid) (ps : list point) : Prop :=
  exists n l, first_of s r = Some n /\ circle s (n :: l) /\ members s r (n :: l) /\ vertices s (n :: l) = ps.
(** bound [i] is active and holds ring [r] *)
Definition holds (s : st) (i : bid) (r : rid) : Prop :=
  In i (live s) /\ b_ring (bget (s_bounds s) i) = Some r.
(** [p] is the end of the chain on the given side *)
Definition is_end (sd : edge_side) (ps : list point) (p : point) : Prop :=
  match sd with LEFT => exists l, ps = p :: l | RIGHT => exists l, ps = l ++ [p] end.
(** a bound that was used has left the active list and still holds a ring *)
Definition left_holding (minimums : list local_minimum) (k : nat) (s : st) : Prop :=
  exists i, entered minimums k i /\ ~ In i (live s) /\ b_ring (bget (s_bounds s) i) <> None.
Record open_chains (minimums : list local_minimum) (k : nat) (s : st) : Prop := {
  (** an open ring has points, and each holder holds its own end of them *)
  oc_end : forall i r, holds s i r -> exists ps, points_of s r ps /\
    is_end (b_side (bget (s_bounds s) i)) ps (b_last (bget (s_bounds s) i));
  (** no end is held by two bounds, so a ring has at most two holders *)
  oc_apart : forall i j r, holds s i r -> holds s j r -> i <> j ->
    b_side (bget (s_bounds s) i) <> b_side (bget (s_bounds s) j);
  (** no end is loose: the other end is held as well, unless a bound has left with it *)
  oc_both : forall i r, holds s i r -> (exists j, j <> i /\ holds s j r) \/ left_holding minimums k s
}.
