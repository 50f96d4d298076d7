(** * Specification vocabulary: what it means for the active list to be right

    The state of the sweep is read through three things only: the order of the
    bounds in the active list, the (kind, winding delta) of each bound together
    with the two counts stored in it, and whether the bound carries an output
    ring.  Nothing here refers to how wagyu computes them. *)
From Coq Require Import ZArith List Bool.
From Verif Require Import Geometry BoundM LocalMinimumM StateM SpecSweep.
Import ListNotations.
Open Scope Z_scope.

Definition sig (b : bound) : polygon_kind * Z := (b_kind b, b_wd b).
Definition unit_delta (d : Z) : Prop := d = 1 \/ d = -1.
(** does the bound carry an output ring? *)
Definition has_ring (s : st) (i : bid) : bool := is_some (b_ring (bget (s_bounds s) i)).
(** the bounds of the active list, left to right (wagyu overwrites removed
    bounds with [None] and compacts the list later) *)
Definition somes_of (l : list (option bid)) : list bid :=
  flat_map (fun o => match o with Some i => [i] | None => [] end) l.
Definition live (s : st) : list bid := somes_of (s_abl s).
Definition sigs (s : st) (l : list bid) : list (polygon_kind * Z) :=
  map (fun i => sig (bget (s_bounds s) i)) l.

Section Right.
Context (op : operation_kind) (sfk cfk : fill_kind).
(** the state of bound [i] is right when the bounds [l] lie to its left: its
    counts are the winding numbers there and it carries an output ring exactly
    when crossing it changes membership in the result *)
Definition bound_right (s : st) (l : list bid) (i : bid) : Prop :=
  let b := bget (s_bounds s) i in
  unit_delta (b_wd b) /\
  counts_right sfk cfk (sigs s l) (sig b) (b_wc b) (b_owc b) /\
  has_ring s i = changes op sfk cfk (sigs s l) (sig b).
Definition list_right (s : st) (l : list bid) : Prop :=
  forall l1 i l2, l = l1 ++ i :: l2 -> bound_right s l1 i.
(** the active list is right: no bound occurs twice and every bound is right *)
Definition active_right (s : st) : Prop := NoDup (live s) /\ list_right s (live s).
End Right.

(** two bounds that may meet at a local maximum: same kind, opposite deltas *)
Definition partners (s : st) (i m : bid) : Prop :=
  b_kind (bget (s_bounds s) m) = b_kind (bget (s_bounds s) i) /\
  b_wd (bget (s_bounds s) m) = - b_wd (bget (s_bounds s) i).
