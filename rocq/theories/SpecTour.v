(** * Specification vocabulary: tours of rings that touch one another

    A stop of a tour is a ring together with the place at which the tour leaves it:
    the vertex [a] of that ring and the vertex [b] of the next ring.  The tour enters
    every ring at another vertex than the one at which it leaves it, visits no ring
    twice and returns to the ring it started from. *)
From Coq Require Import ZArith List Bool.
From Verif Require Import Py Geometry BoundM LocalMinimumM StateM SpecRing SpecHeap SpecRings.
Import ListNotations.
Open Scope Z_scope.

Definition stop := (rid * (nid * nid))%type.
(** from vertex [e], at which its first ring is entered, the stops [l] lead to vertex [x] *)
Fixpoint leads (s : st) (e : nid) (l : list stop) (x : nid) : Prop :=
  match l with
  | [] => x = e
  | (r, (a, b)) :: l' =>
      ring_of s e = Some r /\ ring_of s a = Some r /\ e <> a /\ leads s b l' x
  end.
Definition tour (s : st) (l : list stop) : Prop :=
  NoDup (map fst l) /\ exists e, leads s e l e.
(** vertex [i] lies on a ring of the tour *)
Definition on_tour (s : st) (l : list stop) (i : nid) : Prop :=
  exists r, In r (map fst l) /\ ring_of s i = Some r.
(** no place at which three vertices of rings meet *)
Definition two_at_most (s : st) : Prop :=
  forall i j k, ring_of s i <> None -> ring_of s j <> None -> ring_of s k <> None ->
    npos (node_at s i) = npos (node_at s j) -> npos (node_at s j) = npos (node_at s k) -> i = j \/ j = k \/ i = k.
