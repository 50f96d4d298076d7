(** * wagyu/ring.py, the ring-dependent end of wagyu/point_node.py, and the ring
      tree operations of wagyu/ring_manager.py *)
From Coq Require Import ZArith List Bool Lia FMapPositive.
From Coq Require Import Floats.SpecFloat.
From RecordUpdate Require Import RecordSet.
From Verif Require Import Py Monad Utils Geometry LinearRingM BoundM LocalMinimumM
     StateM PointNodeM.
Import ListNotations RecordSetNotations.
Open Scope Z_scope.
Local Open Scope m_scope.

(** [remove_from_children] (ring.py:179-184) *)
Fixpoint remove_child (r : rid) (l : list (option rid)) : list (option rid) :=
  match l with
  | [] => []
  | c :: l' => if opt_is c (Some r) then None :: l' else c :: remove_child r l'
  end.
(** [set_to_children] (ring.py:187-193) *)
Fixpoint set_child (r : rid) (l : list (option rid)) : list (option rid) :=
  match l with
  | [] => [Some r]
  | None :: l' => Some r :: l'
  | c :: l' => c :: set_child r l'
  end.
Definition remove_from_children (r : rid) (o : option rid) : prog unit :=
  (l <- children_of o ;; set_children o (remove_child r l)).
Definition set_to_children (r : rid) (o : option rid) : prog unit :=
  (l <- children_of o ;; set_children o (set_child r l)).

(** [area <= 0.0] (ring.py:150, 162) *)
Definition area_is_hole (a : float) : bool := num_leb (NF a) (NF f_zero).

(** [Ring.set_stats] (ring.py:159-162) *)
Definition set_stats (r : rid) (s : stats) : prog unit :=
  upd_ring r (fun x => x <| r_area := st_area s |> <| r_size := st_size s |>
                         <| r_box := st_box s |> <| r_hole := area_is_hole (st_area s) |>).
(** [Ring.reset_stats] (ring.py:152-157); the box object is never shared *)
Definition reset_stats (r : rid) : prog unit :=
  upd_ring r (fun x => x <| r_area := S754_nan |> <| r_size := O |>
                         <| r_box := zero_box |> <| r_hole := false |>).

(** [RingManager.create_ring] (ring_manager.py:656-660) *)
Definition create_ring : prog rid :=
  (s <- get ;;
   let r := s_rnext s in
   modify (fun s => s <| s_rings := hset (s_rings s) r new_ring |>
                      <| s_rnext := Pos.succ r |>) ;;
   ret r).
(** [RingManager.create_point_node] (ring_manager.py:645-654) *)
Definition create_point_node (r : option rid) (p : point) (before : option nid)
  : prog nid :=
  (s <- get ;;
   let i := s_nnext s in
   modify (fun s => s <| s_nodes := hset (s_nodes s) i
                            (Node (px p) (py p) (Some i) (Some i) r) |>
                      <| s_nnext := Pos.succ i |>) ;;
   match before with
   | None => ret tt
   | Some o => place_before i o
   end ;;
   modify (fun s => s <| s_all := s_all s ++ [i] |>) ;;
   ret i).

(** [for child in children] where the body may change the list in place: the
    list iterator re-reads the length and the element at every step. *)
Definition iter_children (fuel : nat) (o : option rid)
           (body : nat -> rid -> prog unit) : prog unit :=
  loopM fuel (fun k =>
    (l <- children_of o ;;
     match nth_error l k with
     | None => ret (inr tt)
     | Some None => ret (inl (S k))
     | Some (Some c) => (body k c ;; ret (inl (S k)))
     end)) O.
(** [children[index] = None] *)
Definition clear_child_at (o : option rid) (k : nat) : prog unit :=
  (l <- children_of o ;; set_children o (upd l k None)).

Section Ring.
Context (fuel : nat).

(** [Ring.recalculate_stats] (ring.py:147-150) *)
Definition recalculate_stats (r : rid) : prog unit :=
  (x <- rg r ;;
   match r_node x with
   | None => ret tt
   | Some n => (s <- node_stats fuel n ;; set_stats r s)
   end).
(** the lazy properties [area], [is_hole], [size] (ring.py:57-88) *)
Definition ensure_stats (r : rid) : prog unit :=
  (x <- rg r ;; if f_is_nan (r_area x) then recalculate_stats r else ret tt).
Definition ring_area (r : rid) : prog float := ensure_stats r ;; x <- rg r ;; ret (r_area x).
Definition ring_is_hole (r : rid) : prog bool := ensure_stats r ;; x <- rg r ;; ret (r_hole x).
Definition ring_size (r : rid) : prog nat := ensure_stats r ;; x <- rg r ;; ret (r_size x).

(** [Ring.depth] (ring.py:63-70) *)
Definition ring_depth (r : rid) : prog nat :=
  (x <- rg r ;;
   loopM fuel (fun '(cursor, n) =>
     match cursor with
     | None => ret (inr n)
     | Some c => (y <- rg c ;; ret (inl (r_parent y, S n)))
     end) (r_parent x, O)).
(** [Ring.is_descendant_of] (ring.py:139-145) *)
Definition is_descendant_of (r other : rid) : prog bool :=
  (x <- rg r ;;
   loopM fuel (fun cursor =>
     match cursor with
     | None => ret (inr false)
     | Some c => if Pos.eqb c other then ret (inr true)
                 else (y <- rg c ;; ret (inl (r_parent y)))
     end) (r_parent x)).

(** [Ring.update_points] (ring.py:164-166); iterating [None] is a TypeError *)
Definition update_points (r : rid) : prog unit :=
  (x <- rg r ;;
   match r_node x with
   | None => raise TypeError
   | Some n => iter_nodes fuel n (fun i => set_nring i (Some r))
   end).

(** [Ring.sorted_nodes] (ring.py:90-93) with [node_key] (point_node.py:162-163):
    ascending (-y, x), stable *)
Definition key_lt (a b : nid * point) : bool :=
  (py (snd b) <? py (snd a))
  || ((py (snd b) =? py (snd a)) && (px (snd a) <? px (snd b))).
Definition with_points (l : list nid) : prog (list (nid * point)) :=
  gets (fun s => map (fun i => (i, npos (hget dummy_node (s_nodes s) i))) l).
Definition sorted_nodes (r : rid) : prog (list nid) :=
  (x <- rg r ;;
   match r_node x with
   | None => raise TypeError
   | Some n =>
       (l <- nodes_list fuel n ;;
        lp <- with_points l ;;
        ret (map fst (pure_sort key_lt lp)))
   end).

(** [Ring.get_lowermost_ring] (ring.py:95-119) *)
Definition ensure_bottom (r : rid) : prog nid :=
  (x <- rg r ;;
   match r_bottom x with
   | Some b => ret b
   | None =>
       (n <- deref (r_node x) ;;
        b <- bottom_node fuel n ;;
        upd_ring r (fun x => x <| r_bottom := Some b |>) ;;
        ret b)
   end).
Definition lowermost_ring (r other : rid) : prog rid :=
  (b <- ensure_bottom r ;;
   o <- ensure_bottom other ;;
   bn <- nd b ;; on <- nd o ;;
   if n_y bn >? n_y on then ret r
   else if n_y bn <? n_y on then ret other
   else if n_x bn <? n_x on then ret r
   else if n_x bn >? n_x on then ret other
   else if opt_is (n_next bn) (Some b) then ret other
   else if opt_is (n_next on) (Some o) then ret r
   else (c <- is_bottom_to fuel b o ;; ret (if (c : bool) then r else other))).

(** [is_convex] (point_node.py:226-236) *)
Definition is_convex (i : nid) : prog bool :=
  (n <- nd i ;;
   r <- deref (n_ring n) ;;
   area <- ring_area r ;;
   p <- prev_of i ;; q <- next_of i ;;
   a <- node_point p ;; c <- node_point q ;;
   let dx := n_x n - px a in let dy := n_y n - py a in
   let ndx := px c - n_x n in let ndy := py c - n_y n in
   let cross := dx * ndy - ndx * dy in
   ret ((cross <? 0) && num_gtb (NF area) (NI 0)
        || (cross >? 0) && num_ltb (NF area) (NI 0))).
(** [inside_or_outside_special] (point_node.py:204-223) *)
Definition inside_or_outside_special (first other : nid) : prog pip_result :=
  loopM fuel (fun cursor =>
    (cv <- is_convex cursor ;;
     r <- (if (cv : bool) then
             (c <- points_centroid cursor ;;
              w <- point_in_polygon fuel c first ;;
              match w with
              | INSIDE => (v <- point_in_polygon fuel c other ;; ret (Some v))
              | _ => ret None
              end)
           else ret None) ;;
     match r with
     | Some v => ret (inr v)
     | None =>
         (n <- next_of cursor ;;
          if Pos.eqb n first then raise (RuntimeError NoPointWithinPolygon)
          else ret (inl n))
     end)) first.

(** [Ring.inside_of] (ring.py:121-137) *)
Definition inside_of (r other : rid) : prog bool :=
  (x <- rg r ;; y <- rg other ;;
   if negb (box_inside_of (r_box x) (r_box y)) then ret false
   else
     (oa <- ring_area other ;; ra <- ring_area r ;;
      if num_ltb (NF (f_abs oa)) (NF (f_abs ra)) then ret false
      else
        (x <- rg r ;; y <- rg other ;;
         xn <- deref (r_node x) ;; first <- next_of xn ;;
         yn <- deref (r_node y) ;; second <- next_of yn ;;
         res <- loopM fuel (fun cursor =>
           (p <- node_point cursor ;;
            w <- point_in_polygon fuel (npoint_of p) second ;;
            match w with
            | ON => (n <- next_of cursor ;;
                     ret (if Pos.eqb n first then inr None else inl n))
            | INSIDE => ret (inr (Some true))
            | OUTSIDE => ret (inr (Some false))
            end)) first ;;
         match res with
         | Some b => ret b
         | None =>
             (w <- inside_or_outside_special first second ;;
              ret (match w with INSIDE => true | _ => false end))
         end))).

(** ** The ring tree (ring_manager.py) *)

(** [assign_as_child] (ring_manager.py:274-286) *)
Definition orientation_clash (r : rid) (parent : option rid) : prog bool :=
  match parent with
  | None => ring_is_hole r
  | Some p => (a <- ring_is_hole r ;; b <- ring_is_hole p ;; ret (Bool.eqb a b))
  end.
Definition assign_as_child (r : rid) (parent : option rid) : prog unit :=
  (c <- orientation_clash r parent ;;
   if (c : bool) then raise (RuntimeError ChildSameOrientation)
   else
     (set_to_children r parent ;;
      upd_ring r (fun x => x <| r_parent := parent |>))).
(** [assign_as_sibling] (ring_manager.py:288-300) *)
Definition assign_as_sibling (r sibling : rid) : prog unit :=
  (a <- ring_is_hole r ;; b <- ring_is_hole sibling ;;
   if negb (Bool.eqb a b) then raise (RuntimeError SiblingOrientation)
   else
     (s <- rg sibling ;;
      set_to_children r (r_parent s) ;;
      s <- rg sibling ;;
      upd_ring r (fun x => x <| r_parent := r_parent s |>))).
(** [reassign_as_child] (ring_manager.py:1872-1888) *)
Definition reassign_as_child (r : rid) (parent : option rid) : prog unit :=
  (c <- orientation_clash r parent ;;
   if (c : bool) then raise (RuntimeError ReassignSameOrientation)
   else
     (x <- rg r ;;
      remove_from_children r (r_parent x) ;;
      set_to_children r parent ;;
      upd_ring r (fun x => x <| r_parent := parent |>))).

(** [reassign_children_if_necessary] (ring_manager.py:1890-1904) *)
Definition reassign_children_if_necessary (r : rid) (sibling : option rid)
           (new_rings : list rid) : prog unit :=
  iter_children fuel sibling (fun _ child =>
    if (find_if (Pos.eqb child) new_rings <? length new_rings)%nat then ret tt
    else
      (b <- inside_of child r ;;
       if (b : bool) then reassign_as_child child (Some r) else ret tt)).

(** [remove_ring] (ring_manager.py:1967-1986); recursion bounded by [depth] *)
Fixpoint remove_ring (depth : nat) (r : rid) (remove_children remove_from_parent : bool)
  : prog unit :=
  match depth with
  | O => nofuel
  | S depth' =>
      (iter_children fuel (Some r) (fun k child =>
         ((if remove_children then remove_ring depth' child true false else ret tt) ;;
          clear_child_at (Some r) k)) ;;
       (if remove_from_parent
        then (x <- rg r ;; remove_from_children r (r_parent x)) else ret tt) ;;
       upd_ring r (fun x => x <| r_node := None |>) ;;
       reset_stats r)
  end.
(** the loop that clears the nodes of a ring (ring_manager.py:2005-2010) *)
Definition clear_nodes (n : nid) : prog unit :=
  (p <- prev_of n ;;
   set_next p None ;;
   loopM fuel (fun cursor =>
     match cursor with
     | None => ret (inr tt)
     | Some i =>
         (x <- nd i ;;
          upd_node i (fun y => y <| n_prev := None |> <| n_next := None |>
                                 <| n_ring := None |>) ;;
          ret (inl (n_next x)))
     end) (Some n)).
(** [remove_ring_and_points] (ring_manager.py:1988-2012) *)
Fixpoint remove_ring_and_points (depth : nat) (r : rid)
         (remove_children remove_from_parent : bool) : prog unit :=
  match depth with
  | O => nofuel
  | S depth' =>
      (iter_children fuel (Some r) (fun k child =>
         ((if remove_children then remove_ring_and_points depth' child true false
           else ret tt) ;;
          clear_child_at (Some r) k)) ;;
       (if remove_from_parent
        then (x <- rg r ;; remove_from_children r (r_parent x)) else ret tt) ;;
       x <- rg r ;;
       match r_node x with
       | None => ret tt
       | Some n => clear_nodes n
       end ;;
       upd_ring r (fun x => x <| r_node := None |>) ;;
       reset_stats r)
  end.

(** [replace_ring] (ring_manager.py:2014-2035) *)
Definition replace_ring (original : rid) (replacement : option rid) : prog unit :=
  if opt_is (Some original) replacement then raise AssertionError
  else
    (iter_children fuel (Some original) (fun k child =>
       (upd_ring child (fun x => x <| r_parent := replacement |>) ;;
        set_to_children child replacement ;;
        clear_child_at (Some original) k)) ;;
     x <- rg original ;;
     remove_from_children original (r_parent x) ;;
     upd_ring original (fun x => x <| r_node := None |>) ;;
     reset_stats original).

(** [find_parent_in_tree] (ring_manager.py:809-826): the lists of children do
    not change before the search succeeds; recursion bounded by [depth]. *)
Fixpoint find_parent_in_tree (depth : nat) (r possible_parent : rid) : prog bool :=
  match depth with
  | O => nofuel
  | S depth' =>
      (l <- children_of (Some possible_parent) ;;
       found <- for_breakM l (fun child =>
         match child with
         | None => ret None
         | Some c =>
             (l2 <- children_of (Some c) ;;
              for_breakM l2 (fun grand_child =>
                match grand_child with
                | None => ret None
                | Some g =>
                    (b <- find_parent_in_tree depth' r g ;;
                     ret (if (b : bool) then Some tt else None))
                end))
         end) ;;
       match found with
       | Some _ => ret true
       | None =>
           (b <- inside_of r possible_parent ;;
            if (b : bool)
            then (reassign_as_child r (Some possible_parent) ;; ret true)
            else ret false)
       end)
  end.
End Ring.
