(** * The mutable state of one [Wagyu.execute] call

    Python objects with identity ([PointNode], [Ring], [Bound]) live in heaps
    indexed by identities; [None] is [None].  Reading an attribute of [None]
    raises AttributeError.  The write-only lists [RingManager.nodes] and
    [RingManager.storage] (ring_manager.py:80-82, 651) are not modelled.
    [RingManager.rings] (ring_manager.py:656-660) always lists the rings in
    creation order, so it is represented by the counter [s_rnext]: the ring
    with identity [i] has [index] [i - 1]. *)
From Coq Require Import ZArith List Bool Lia FMapPositive.
From Coq Require Import Floats.SpecFloat.
From RecordUpdate Require Import RecordSet.
From Verif Require Import Py Monad Utils Geometry LinearRingM BoundM LocalMinimumM.
Import ListNotations RecordSetNotations.
Open Scope Z_scope.

(** [PointNode] (point_node.py:18-28).  [x], [y] are ints: every node is created
    from an input vertex or from a rounded point. *)
Record node := Node {
  n_x : Z; n_y : Z;
  n_prev : option nid; n_next : option nid;
  n_ring : option rid
}.
#[export] Instance eta_node : Settable _ :=
  settable! Node <n_x; n_y; n_prev; n_next; n_ring>.

(** [Ring] (ring.py:17-39); [r_area] is [_area] (NaN = not computed). *)
Record ring := Ring {
  r_parent : option rid;
  r_children : list (option rid);
  r_node : option nid;
  r_bottom : option nid;
  r_corrected : bool;
  r_box : box;
  r_area : float;
  r_size : nat;
  r_hole : bool
}.
#[export] Instance eta_ring : Settable _ :=
  settable! Ring <r_parent; r_children; r_node; r_bottom; r_corrected; r_box;
                  r_area; r_size; r_hole>.

Definition zero_box : box := Box (Pt 0 0) (Pt 0 0).
Definition new_ring : ring := Ring None [] None None false zero_box S754_nan 0 false.
Definition dummy_node : node := Node 0 0 None None None.

(** [ConnectionMap] (ring_manager.py:54), keyed by ring identity *)
Definition conn_map := heap (list (nid * nid)).

(** [RingManager] plus the scan line structures that are passed around by
    reference ([scanbeams], [active_bounds], the bounds). *)
Record st := St {
  s_nodes : heap node;
  s_nnext : nid;
  s_rings : heap ring;
  s_rnext : rid;
  s_bounds : heap bound;
  s_children : list (option rid);
  s_hp : list point;               (* hot_pixels *)
  s_hpi : nat;                     (* current_hot_pixel_index *)
  s_all : list nid;                (* all_nodes *)
  s_scan : list Z;                 (* scanbeams *)
  s_abl : list (option bid);       (* active_bounds *)
  s_conn : conn_map
}.
#[export] Instance eta_st : Settable _ :=
  settable! St <s_nodes; s_nnext; s_rings; s_rnext; s_bounds; s_children; s_hp;
                s_hpi; s_all; s_scan; s_abl; s_conn>.

(** a fresh [RingManager()] (ring_manager.py:65-82) working on given bounds *)
Definition init_st (bounds : heap bound) : st :=
  St (PositiveMap.empty _) 1%positive (PositiveMap.empty _) 1%positive bounds [] [] 0 [] [] []
     (PositiveMap.empty _).

Notation prog := (M st).
Local Open Scope m_scope.

(** identity comparison [is] *)
Definition opt_is (a b : option positive) : bool :=
  match a, b with
  | None, None => true
  | Some i, Some j => Pos.eqb i j
  | _, _ => false
  end.
Definition is_none {A} (o : option A) : bool :=
  match o with None => true | Some _ => false end.
Definition is_some {A} (o : option A) : bool := negb (is_none o).

(** attribute access on a possibly-[None] reference *)
Definition deref {A} (o : option A) : prog A :=
  match o with Some a => ret a | None => raise AttributeError end.

(** ** Reading and writing heap objects *)
Definition nd (i : nid) : prog node := gets (fun s => hget dummy_node (s_nodes s) i).
Definition rg (i : rid) : prog ring := gets (fun s => hget new_ring (s_rings s) i).
Definition bd (i : bid) : prog bound := gets (fun s => bget (s_bounds s) i).
Definition upd_node (i : nid) (f : node -> node) : prog unit :=
  modify (fun s => s <| s_nodes := hset (s_nodes s) i (f (hget dummy_node (s_nodes s) i)) |>).
Definition upd_ring (i : rid) (f : ring -> ring) : prog unit :=
  modify (fun s => s <| s_rings := hset (s_rings s) i (f (hget new_ring (s_rings s) i)) |>).
Definition upd_bound (i : bid) (f : bound -> bound) : prog unit :=
  modify (fun s => s <| s_bounds := hset (s_bounds s) i (f (bget (s_bounds s) i)) |>).

Definition npos (n : node) : point := Pt (n_x n) (n_y n).
(** [point_node_to_point] (point_node.py:153-154) *)
Definition node_point (i : nid) : prog point := (n <- nd i ;; ret (npos n))%M.
(** [node.next], [node.prev] when the result is used as an object *)
Definition next_of (i : nid) : prog nid := (n <- nd i ;; deref (n_next n))%M.
Definition prev_of (i : nid) : prog nid := (n <- nd i ;; deref (n_prev n))%M.
Definition set_next (i : nid) (o : option nid) : prog unit :=
  upd_node i (fun n => n <| n_next := o |>).
Definition set_prev (i : nid) (o : option nid) : prog unit :=
  upd_node i (fun n => n <| n_prev := o |>).
Definition set_nring (i : nid) (o : option rid) : prog unit :=
  upd_node i (fun n => n <| n_ring := o |>).

(** [a == b] between [PointNode]s (point_node.py:32-35): by coordinates.  When
    one side is [None] the comparison is False. *)
Definition node_eq (i j : nid) : prog bool :=
  (a <- nd i ;; b <- nd j ;; ret (point_eqb (npos a) (npos b)))%M.
Definition node_eq_opt (i : option nid) (j : nid) : prog bool :=
  match i with None => ret false | Some i => node_eq i j end.

(** children list of a ring, or the manager's when [None] *)
Definition children_of (o : option rid) : prog (list (option rid)) :=
  match o with
  | None => gets s_children
  | Some r => (x <- rg r ;; ret (r_children x))%M
  end.
Definition set_children (o : option rid) (l : list (option rid)) : prog unit :=
  match o with
  | None => modify (fun s => s <| s_children := l |>)
  | Some r => upd_ring r (fun x => x <| r_children := l |>)
  end.

(** ** active bounds *)
Definition abl_get (k : nat) : prog (option bid) :=
  (l <- gets s_abl ;; lift (nth_res l k))%M.
(** [active_bounds[k]] used as an object *)
Definition abl_bound (k : nat) : prog bid := (o <- abl_get k ;; deref o)%M.
Definition abl_set (k : nat) (o : option bid) : prog unit :=
  (l <- gets s_abl ;;
   if (k <? length l)%nat then modify (fun s => s <| s_abl := upd l k o |>)
   else raise IndexError)%M.
(** [active_bounds[i], active_bounds[j] = active_bounds[j], active_bounds[i]] *)
Definition abl_swap (i j : nat) : prog unit :=
  (a <- abl_get i ;; b <- abl_get j ;; abl_set i b ;; abl_set j a)%M.
(** [list(filter(partial(is_not, None), active_bounds))] *)
Definition abl_compact : prog unit :=
  modify (fun s => s <| s_abl := filter is_some (s_abl s) |>).
(** [find] (utils.py:61-68) on active bounds *)
Definition find_bound (o : option bid) (l : list (option bid)) : nat :=
  find_if (opt_is o) l.

(** [Bound.current_edge], [Bound.next_edge] (bound.py:81-87) *)
Definition cur_edge_of (b : bound) : res edge := nth_res (b_edges b) (b_cur b).
Definition next_edge_of (b : bound) : res edge := nth_res (b_edges b) (b_next b).
Definition current_edge (i : bid) : prog edge := (b <- bd i ;; lift (cur_edge_of b))%M.
Definition next_edge (i : bid) : prog edge := (b <- bd i ;; lift (next_edge_of b))%M.
(** setters of [current_edge_index] / [next_edge_index] (bound.py:101-108) *)
Definition clip_index (b : bound) (v : nat) : nat :=
  if (v <? length (b_edges b))%nat then v else length (b_edges b).

Definition push_hp (p : point) : prog unit :=
  modify (fun s => s <| s_hp := s_hp s ++ [p] |>).
Definition insort_scan (y : Z) : prog unit :=
  modify (fun s => s <| s_scan := insort_unique (s_scan s) y |>).
