(** * Specification vocabulary: vertex rings in the heap

    A vertex ring is a list of distinct vertices such that [next] leads from each
    to the following one (from the last to the first) and [prev] leads back. *)
From Coq Require Import ZArith List Bool.
From Verif Require Import Py Geometry BoundM LocalMinimumM StateM SpecRing.
Import ListNotations.
Open Scope Z_scope.

Definition node_at (s : st) (i : nid) : node := hget dummy_node (s_nodes s) i.
(** [b] follows [a], and [a] precedes [b] *)
Definition linked (s : st) (a b : nid) : Prop :=
  n_next (node_at s a) = Some b /\ n_prev (node_at s b) = Some a.
Fixpoint chained (s : st) (a : nid) (l : list nid) : Prop :=
  match l with
  | [] => True
  | b :: l' => linked s a b /\ chained s b l'
  end.
(** [circle s (a :: l)]: starting at [a] and following [next] one meets [l] and
    then [a] again *)
Definition circle (s : st) (l : list nid) : Prop :=
  match l with
  | [] => False
  | a :: l' => NoDup l /\ chained s a (l' ++ [a])
  end.
Definition vertices (s : st) (l : list nid) : list point := map (fun i => npos (node_at s i)) l.
(** a vertex that does not exist yet *)
Definition allocated (s : st) (l : list nid) : Prop := Forall (fun i => (i < s_nnext s)%positive) l.
(** nothing but the listed vertices was touched *)
Definition only_vertices (l : list nid) (s s' : st) : Prop :=
  forall i, ~ In i l -> node_at s' i = node_at s i.
(** coordinates and ring membership of the vertices are as before *)
Definition same_vertex (n n' : node) : Prop :=
  n_x n' = n_x n /\ n_y n' = n_y n /\ n_ring n' = n_ring n.
Definition same_vertices (s s' : st) : Prop := forall i, same_vertex (node_at s i) (node_at s' i).

(** the smallest box around a list of points *)
Definition tight_box (l : list point) (b : box) : Prop :=
  (forall p, In p l -> px (bmin b) <= px p <= px (bmax b) /\ py (bmin b) <= py p <= py (bmax b)) /\
  (exists p, In p l /\ px p = px (bmin b)) /\ (exists p, In p l /\ px p = px (bmax b)) /\
  (exists p, In p l /\ py p = py (bmin b)) /\ (exists p, In p l /\ py p = py (bmax b)).

Definition ring_at (s : st) (r : rid) : ring := hget new_ring (s_rings s) r.
(** the statistics stored in a ring are those of the vertex ring [l]: the stored
    area is the correctly rounded half of minus the shoelace sum in [next] order
    (i.e. the signed area in [prev] order), and a hole is a ring whose area is not
    positive *)
Definition measured (s : st) (r : rid) (l : list nid) : Prop :=
  r_size (ring_at s r) = length l /\
  tight_box (vertices s l) (r_box (ring_at s r)) /\
  int_truediv (- area2 (vertices s l)) 2 = Ok (r_area (ring_at s r)) /\
  r_hole (ring_at s r) = (0 <=? area2 (vertices s l)).
(** every vertex of [l] belongs to [r] *)
Definition owned_by (s : st) (r : rid) (l : list nid) : Prop :=
  Forall (fun i => n_ring (node_at s i) = Some r) l.
