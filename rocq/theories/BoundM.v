(** * wagyu/bound.py: the part that builds bounds from edges *)
From Coq Require Import ZArith List Bool Lia.
From Coq Require Import Floats.SpecFloat.
From Verif Require Import Py Monad Utils Geometry.
Import ListNotations.
Open Scope Z_scope.

(** object identities *)
Definition bid := positive.   (* Bound *)
Definition rid := positive.   (* Ring *)
Definition nid := positive.   (* PointNode *)

(** [Bound] (bound.py:24-62).  Simplification: [_current_edge_index] /
    [_next_edge_index] are stored as the value their properties return
    ([len(edges)] for [None], bound.py:90-108); [edges] is never resized once
    the indices are used.  [position] (only read by [__eq__]) is kept. *)
Record bound := mkBound {
  b_edges : list edge;
  b_cur : nat;               (* current_edge_index *)
  b_next : nat;              (* next_edge_index *)
  b_last : point;            (* last_point *)
  b_ring : option rid;
  b_cx : num;                (* current_x *)
  b_pos : nat;               (* position *)
  b_wc : Z;                  (* winding_count *)
  b_owc : Z;                 (* opposite_winding_count *)
  b_wd : Z;                  (* winding_delta *)
  b_kind : polygon_kind;
  b_side : edge_side;
  b_max : option bid         (* maximum_bound *)
}.

(** [Bound(edges)] with the default arguments (bound.py:30-62) *)
Definition new_bound (edges : list edge) : bound :=
  mkBound edges (length edges) (length edges) (Pt 0 0) None (NF f_zero) 0 0 0 0
          SUBJECT LEFT None.

(** [Bound.fix_horizontals] (bound.py:182-195) *)
Fixpoint fix_from (e : edge) (l : list edge) : list edge :=
  match l with
  | [] => []
  | n :: l' =>
      let n' := if is_horizontal n && negb (point_eqb (etop e) (ebot n))
                then reverse_horizontal n else n in
      n' :: fix_from n' l'
  end.
Definition fix_horizontals (l : list edge) : list edge :=
  match l with
  | e :: ((n :: _) as tl) =>
      let e' := if is_horizontal e && negb (point_eqb (etop e) (ebot n))
                then reverse_horizontal e else e in
      e' :: fix_from e' tl
  | _ => l
  end.

(** [Bound.move_horizontals] (bound.py:197-209): returns (self.edges, other.edges) *)
Definition leading_horizontals (l : list edge) : nat :=
  find_if (fun e => negb (is_horizontal e)) l.
Definition move_horizontals (l other : list edge) : list edge * list edge :=
  let index := leading_horizontals l in
  let moved := map reverse_horizontal (firstn index l) in
  if (index =? 0)%nat then (l, other)
  else (skipn index l,
        rotate_sequence (other ++ rev moved) (- Z.of_nat index)).

(** [create_bound_towards_maximum] (bound.py:220-246): [scan] returns
    [next_edge_index]; the edges before it form the bound. *)
Fixpoint max_scan (e : edge) (e_hor y_dec : bool) (l : list edge) (i : nat) : nat :=
  match l with
  | [] => i
  | n :: l' =>
      let n_hor := is_horizontal n in
      if negb n_hor && negb e_hor && point_eqb (etop e) (etop n) then i
      else if negb n_hor && e_hor then
        if y_dec && (point_eqb (etop n) (ebot e) || point_eqb (etop n) (etop e)) then i
        else max_scan n n_hor y_dec l' (S i)
      else if negb y_dec && negb e_hor && n_hor
              && (point_eqb (etop e) (etop n) || point_eqb (etop e) (ebot n))
      then max_scan n n_hor true l' (S i)
      else max_scan n n_hor y_dec l' (S i)
  end.
Definition towards_maximum (edges : list edge) : res (list edge * list edge) :=
  match edges with
  | [] => Raise StopIteration
  | e :: l =>
      let k := max_scan e (is_horizontal e) false l 1 in
      Ok (firstn k edges, skipn k edges)
  end.

(** [create_bound_towards_minimum] (bound.py:249-279): every edge that joins the
    bound has been reversed if it is horizontal. *)
Definition reverse_if_horizontal (e : edge) : edge :=
  if is_horizontal e then reverse_horizontal e else e.
Fixpoint min_scan (e : edge) (e_hor y_inc : bool) (l : list edge) (i : nat) : nat :=
  match l with
  | [] => i
  | n :: l' =>
      let n_hor := is_horizontal n in
      if negb n_hor && negb e_hor && point_eqb (ebot e) (ebot n) then i
      else if negb n_hor && e_hor then
        if y_inc && (point_eqb (ebot n) (ebot e) || point_eqb (ebot n) (etop e)) then i
        else min_scan (reverse_if_horizontal n) n_hor y_inc l' (S i)
      else if negb y_inc && negb e_hor && n_hor
              && (point_eqb (ebot e) (etop n) || point_eqb (ebot e) (ebot n))
      then min_scan (reverse_if_horizontal n) n_hor true l' (S i)
      else min_scan (reverse_if_horizontal n) n_hor y_inc l' (S i)
  end.
Definition towards_minimum (edges : list edge) : res (list edge * list edge) :=
  match edges with
  | [] => Raise StopIteration
  | e :: l =>
      let k := min_scan (reverse_if_horizontal e) (is_horizontal e) false l 1 in
      Ok (rev (map reverse_if_horizontal (firstn k edges)), skipn k edges)
  end.
