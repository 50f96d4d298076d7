(** * Specification vocabulary: which vertices belong to which ring

    Every vertex names the ring it belongs to (or none, once it has been thrown
    away).  The heap is well ringed when, for every ring, the vertices that name it
    form exactly one closed doubly linked chain (or there are none), the first
    vertex recorded in a ring is one of them, and only existing vertices name
    existing rings. *)
From Coq Require Import ZArith List Bool.
From Verif Require Import Py Geometry BoundM LocalMinimumM StateM SpecRing SpecHeap.
Import ListNotations.
Open Scope Z_scope.

(** the ring vertex [i] names as its own *)
Definition ring_of (s : st) (i : nid) : option rid := n_ring (node_at s i).
(** the first vertex recorded in ring [r], if it has any *)
Definition first_of (s : st) (r : rid) : option nid := r_node (ring_at s r).
(** [l] lists exactly the vertices that name [r] *)
Definition members (s : st) (r : rid) (l : list nid) : Prop :=
  forall i, ring_of s i = Some r <-> In i l.
Record well_ringed (s : st) : Prop := {
  wr_circles : forall r, exists l, members s r l /\ (l = [] \/ circle s l);
  wr_first : forall r n, first_of s r = Some n -> ring_of s n = Some r;
  wr_known : forall i r, ring_of s i = Some r -> (i < s_nnext s)%positive /\ (r < s_rnext s)%positive
}.
