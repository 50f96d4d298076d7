(** * Specification vocabulary: the ring tree

    Every ring has a parent (another ring, or none for the outermost rings) and
    a list of children; the manager keeps the list of the outermost rings.  A
    list of children may contain holes ([None] slots) left by removed rings. *)
From Coq Require Import ZArith List Bool.
From Verif Require Import Py Geometry BoundM LocalMinimumM StateM.
Import ListNotations.
Open Scope Z_scope.

Definition the_ring (s : st) (r : rid) : ring := hget new_ring (s_rings s) r.
Definition parent_of (s : st) (r : rid) : option rid := r_parent (the_ring s r).
(** the children of a ring, or the outermost rings for [None] *)
Definition kids (s : st) (o : option rid) : list (option rid) :=
  match o with
  | None => s_children s
  | Some r => r_children (the_ring s r)
  end.
(** [r] is recorded as a child of [o] *)
Definition listed (s : st) (o : option rid) (r : rid) : Prop := In (Some r) (kids s o).
(** [r] occurs at exactly one place in the list *)
Definition once (r : rid) (l : list (option rid)) : Prop :=
  exists k, nth_error l k = Some (Some r) /\
            forall k', nth_error l k' = Some (Some r) -> k' = k.
(** a ring recorded as a child of [o] has [o] as its parent, is recorded there
    once, and exists *)
Definition tree_ok (s : st) : Prop :=
  forall o r, listed s o r ->
    parent_of s r = o /\ once r (kids s o) /\ (r < s_rnext s)%positive.

(** [r] is [n] steps below an outermost ring *)
Inductive rank (s : st) : rid -> nat -> Prop :=
| rank_outermost r : listed s None r -> rank s r 0
| rank_child p r n : rank s p n -> listed s (Some p) r -> rank s r (S n).

(** the children of a ring in order, skipping the empty slots *)
Fixpoint present (l : list (option rid)) : list rid :=
  match l with
  | [] => []
  | None :: l' => present l'
  | Some r :: l' => r :: present l'
  end.

(** following [dir] from [a] one meets exactly [l] and then [start] *)
Fixpoint trail (s : st) (dir : node -> option nid) (start a : nid) (l : list nid) : Prop :=
  match l with
  | [] => dir (hget dummy_node (s_nodes s) a) = Some start
  | b :: l' => dir (hget dummy_node (s_nodes s) a) = Some b /\ b <> start /\
               trail s dir start b l'
  end.
Definition place_of (s : st) (i : nid) : point := npos (hget dummy_node (s_nodes s) i).
(** the points of the ring [r], once around, the first one repeated at the end *)
Definition written (s : st) (dir : node -> option nid) (r : rid) (pts : list point) : Prop :=
  exists n l, r_node (the_ring s r) = Some n /\ trail s dir n n l /\
              pts = map (place_of s) (n :: l) ++ [place_of s n].
(** the polygon whose border is [r] and whose holes are the children of [r] *)
Definition polygon_of (s : st) (dir : node -> option nid) (r : rid) (poly : list (list point)) : Prop :=
  exists border holes, poly = border :: holes /\ written s dir r border /\
                       Forall2 (written s dir) (present (kids s (Some r))) holes.
