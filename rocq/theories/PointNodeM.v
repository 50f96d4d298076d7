(** * wagyu/point_node.py *)
From Coq Require Import ZArith List Bool Lia FMapPositive.
From Coq Require Import Floats.SpecFloat.
From RecordUpdate Require Import RecordSet.
From Verif Require Import Py Monad Utils Geometry LinearRingM BoundM LocalMinimumM StateM.
Import ListNotations RecordSetNotations.
Open Scope Z_scope.
Local Open Scope m_scope.

Section PointNode.
(** bound on the number of iterations of each pointer loop *)
Context (fuel : nat).

(** [__iter__] (point_node.py:37-43): the generator yields [cursor], runs the
    loop body, then follows the (possibly just modified) [next]. *)
Definition iter_nodes (start : nid) (body : nid -> prog unit) : prog unit :=
  loopM fuel (fun cursor =>
    (c <- deref cursor ;;
     body c ;;
     n <- nd c ;;
     ret (if opt_is (n_next n) (Some start) then inr tt else inl (n_next n))))
    (Some start).
(** the list of nodes yielded by [__iter__] / [__reversed__]
    (point_node.py:37-43, 53-59) *)
Definition collect (dir : node -> option nid) (start : nid) : prog (list nid) :=
  loopM fuel (fun '(cursor, acc) =>
    (c <- deref cursor ;;
     n <- nd c ;;
     ret (if opt_is (dir n) (Some start) then inr (rev (c :: acc))
          else inl (dir n, c :: acc))))
    (Some start, []).
Definition nodes_list := collect n_next.
Definition nodes_list_rev := collect n_prev.

(** [PointNode.reverse] (point_node.py:140-142) *)
Definition reverse_nodes (start : nid) : prog unit :=
  iter_nodes start (fun i =>
    upd_node i (fun n => n <| n_next := n_prev n |> <| n_prev := n_next n |>)).

(** [PointNode.place_before] (point_node.py:144-146) *)
Definition place_before (i other : nid) : prog unit :=
  (o <- nd other ;;
   set_next i (Some other) ;; set_prev i (n_prev o) ;;
   p <- prev_of i ;;
   set_next p (Some i) ;; set_prev other (Some i)).

(** [PointNode.stats] (point_node.py:93-115); Python evaluates
    [cursor.prev.x] before following [next]. *)
Record stats := Stats { st_area : float; st_size : nat; st_box : box }.
Definition stats_step (acc : Z * nat * box) (c p : node) : Z * nat * box :=
  let '(area, size, Box (Pt min_x min_y) (Pt max_x max_y)) := acc in
  let '(min_x, max_x) := if n_x c >? max_x then (min_x, n_x c)
                         else if n_x c <? min_x then (n_x c, max_x)
                         else (min_x, max_x) in
  let '(min_y, max_y) := if n_y c >? max_y then (min_y, n_y c)
                         else if n_y c <? min_y then (n_y c, max_y)
                         else (min_y, max_y) in
  (area + (n_x p + n_x c) * (n_y p - n_y c), S size,
   Box (Pt min_x min_y) (Pt max_x max_y)).
Definition node_stats (i : nid) : prog stats :=
  (n <- nd i ;;
   r <- loopM fuel (fun '(cursor, acc) =>
     (c <- nd cursor ;;
      pi <- deref (n_prev c) ;;
      p <- nd pi ;;
      let acc' := stats_step acc c p in
      if opt_is (n_next c) (Some i) then ret (inr acc')
      else (nx <- deref (n_next c) ;; ret (inl (nx, acc')))))
     (i, (0, O, Box (npos n) (npos n))) ;;
   let '(area, size, bx) := (r : Z * nat * box) in
   a <- lift (int_truediv area 2) ;;
   ret (Stats a size bx)).

(** [get_points_slope] (point_node.py:149-150) *)
Definition points_slope (i j : nid) : prog float :=
  (a <- node_point i ;; b <- node_point j ;;
   e <- lift (mk_edge a b) ;; ret (eslope e)).

(** the loops [while node == self and node is not self: node = node.prev/next]
    (point_node.py:118-130) *)
Definition skip_equal (dir : node -> option nid) (i : nid) : prog nid :=
  (n <- nd i ;;
   start <- deref (dir n) ;;
   loopM fuel (fun j =>
     (b <- node_eq j i ;;
      if b && negb (Pos.eqb j i)
      then (m <- nd j ;; j' <- deref (dir m) ;; ret (inl j'))
      else ret (inr j))) start).

(** Python's two-argument [max] / [min] on floats *)
Definition py_fmax (a b : float) : float := if num_gtb (NF b) (NF a) then b else a.
Definition py_fmin (a b : float) : float := if num_ltb (NF b) (NF a) then b else a.

(** [PointNode.is_bottom_to] (point_node.py:117-138) *)
Definition is_bottom_to (i other : nid) : prog bool :=
  (p <- skip_equal n_prev i ;; s1p <- points_slope i p ;;
   n <- skip_equal n_next i ;; s1n <- points_slope i n ;;
   p <- skip_equal n_prev other ;; s2p <- points_slope other p ;;
   n <- skip_equal n_next other ;; s2n <- points_slope other n ;;
   let dx1p := f_abs s1p in let dx1n := f_abs s1n in
   let dx2p := f_abs s2p in let dx2n := f_abs s2n in
   if f_almost_equal (py_fmax dx1p dx1n) (py_fmax dx2p dx2n)
      && f_almost_equal (py_fmin dx1p dx1n) (py_fmin dx2p dx2n)
   then (st <- node_stats i ;; ret (num_gtb (NF (st_area st)) (NI 0)))
   else
     let ge a b := num_gtb (NF a) (NF b) || f_almost_equal a b in
     ret (ge dx1p dx2p && ge dx1p dx2n || ge dx1n dx2p && ge dx1n dx2n)).

(** [PointNode.bottom_node] (point_node.py:65-91) *)
Definition bottom_scan (i : nid) : prog (nid * option nid * nid) :=
  (c0 <- next_of i ;;
   loopM fuel (fun '(cursor, node, dups) =>
     if Pos.eqb cursor node then ret (inr (node, dups, cursor))
     else
       (c <- nd cursor ;; n <- nd node ;;
        let '(node', dups') :=
          if n_y c >? n_y n then (cursor, None)
          else if (n_y c =? n_y n) && (n_x c <=? n_x n) then
            if n_x c <? n_x n then (cursor, None)
            else if negb (opt_is (n_next c) (Some node)) && opt_is (n_prev c) (Some node)
                 then (node, Some cursor) else (node, dups)
          else (node, dups) in
        nx <- deref (n_next c) ;;
        ret (inl (nx, node', dups')))) (c0, i, None)).
(** the inner [while dups != node: dups = dups.next] *)
Definition skip_to_equal (start node : nid) : prog nid :=
  loopM fuel (fun d =>
    (b <- node_eq d node ;;
     if (b : bool) then ret (inr d) else (d' <- next_of d ;; ret (inl d')))) start.
Definition bottom_node (i : nid) : prog nid :=
  (r <- bottom_scan i ;;
   let '(node, dups, cursor) := (r : nid * option nid * nid) in
   match dups with
   | None => ret node
   | Some d =>
       loopM fuel (fun '(dups, node) =>
         if Pos.eqb dups cursor then ret (inr node)
         else
           (b <- is_bottom_to cursor dups ;;
            let node' := if (b : bool) then node else dups in
            d1 <- next_of dups ;;
            d2 <- skip_to_equal d1 node' ;;
            ret (inl (d2, node')))) (d, node)
   end).

(** [point_in_polygon] (point_node.py:166-201): one iteration on the edge from
    [op] to [op.next]; [None] means "return ON", otherwise whether to flip. *)
Definition pip_cross (pt : npoint) (op nxt : point) : res num :=
  (a <- num_sub (NI (px op)) (nx pt) ;; b <- num_sub (NI (py nxt)) (ny pt) ;;
   c <- num_sub (NI (px nxt)) (nx pt) ;; d <- num_sub (NI (py op)) (ny pt) ;;
   ab <- num_mul a b ;; cd <- num_mul c d ;; num_sub ab cd)%res.
Definition pip_step (pt : npoint) (op nxt : point) : res (option bool) :=
  let x := nx pt in let y := ny pt in
  if num_eqb (NI (py nxt)) y
     && (num_eqb (NI (px nxt)) x
         || (num_eqb (NI (py op)) y
             && Bool.eqb (num_gtb (NI (px nxt)) x) (num_ltb (NI (px op)) x)))
  then Ok None
  else if negb (Bool.eqb (num_ltb (NI (py op)) y) (num_ltb (NI (py nxt)) y)) then
    let by_cross :=
      (d <- pip_cross pt op nxt ;;
       z <- almost_zero d ;;
       if (z : bool) then Ok None
       else Ok (Some (Bool.eqb (num_gtb d (NI 0)) (py nxt >? py op))))%res in
    if num_geb (NI (px op)) x then
      if num_gtb (NI (px nxt)) x then Ok (Some true) else by_cross
    else if num_gtb (NI (px nxt)) x then by_cross else Ok (Some false)
  else Ok (Some false).
Definition pip_flip (r : pip_result) : pip_result :=
  match r with OUTSIDE => INSIDE | _ => OUTSIDE end.
Definition point_in_polygon (pt : npoint) (start : nid) : prog pip_result :=
  loopM fuel (fun '(op, result) =>
    (a <- node_point op ;; nx <- next_of op ;; b <- node_point nx ;;
     r <- lift (pip_step pt a b) ;;
     match r with
     | None => ret (inr ON)
     | Some fl =>
         let result' := if (fl : bool) then pip_flip result else result in
         ret (if Pos.eqb nx start then inr result' else inl (nx, result'))
     end)) (start, OUTSIDE).

(** [points_centroid] (point_node.py:239-243) *)
Definition points_centroid (i : nid) : prog npoint :=
  (p <- prev_of i ;; n <- next_of i ;;
   a <- node_point p ;; b <- node_point i ;; c <- node_point n ;;
   x <- lift (int_truediv (px a + px b + px c) 3) ;;
   y <- lift (int_truediv (py a + py b + py c) 3) ;;
   ret (NPt (NF x) (NF y))).

(** [has_collinear_edge] (point_node.py:246-249); if both neighbours are [None]
    Python compares [None == None] *)
Definition node_eq_opts (i j : option nid) : prog bool :=
  match i, j with
  | None, None => ret true
  | Some i, Some j => node_eq i j
  | _, _ => ret false
  end.
Definition has_collinear_edge (i j : nid) : prog bool :=
  (a <- nd i ;; b <- nd j ;;
   r1 <- node_eq_opts (n_next a) (n_prev b) ;;
   if (r1 : bool) then ret true else node_eq_opts (n_next b) (n_prev a)).

(** One inner loop of [find_start_and_end_of_collinear_edges]:
    [while back.prev == back and back is not forward: back = back.prev;
     if back is pt: break] (point_node.py:262-265 and its three siblings) *)
Definition slide (dir : node -> option nid) (start other stop : nid) : prog nid :=
  loopM fuel (fun back =>
    (b <- nd back ;;
     e <- node_eq_opt (dir b) back ;;
     if e && negb (Pos.eqb back other)
     then (back' <- deref (dir b) ;;
           ret (if Pos.eqb back' stop then inr back' else inl back'))
     else ret (inr back))) start.
(** The outer search loop (point_node.py:258-282 with [a = pt_a], [b = pt_b];
    point_node.py:293-318 with the roles exchanged).  In the second copy the
    extra condition [first is None and ...] is never true, [first] being a bool.
    Simplification: a [None] neighbour raises AttributeError when it is assigned
    rather than at its next use; nothing is observable in between. *)
Definition collinear_search (pt_a pt_b : nid) : prog (nid * nid) :=
  loopM fuel (fun '(back, forward, first) =>
    (back <- slide n_prev back forward pt_a ;;
     if Pos.eqb back forward then
       (p <- prev_of back ;; n <- next_of forward ;; ret (inr (p, n)))
     else
       (forward <- slide n_next forward back pt_b ;;
        if negb first && (Pos.eqb back pt_a || Pos.eqb forward pt_b)
        then ret (inr (back, forward))
        else
          (p <- prev_of back ;; n <- next_of forward ;;
           if Pos.eqb back forward then ret (inr (p, n))
           else
             (e <- node_eq p n ;;
              ret (if (e : bool) then inl (p, n, false) else inr (p, n)))))))
    (pt_a, pt_b, true).
(** [while not same_ring and x == x.next and x is not pt: x = x.next]
    (point_node.py:286-291, 320-324) *)
Definition skip_repeats (dir : node -> option nid) (same_ring : bool) (start pt : nid)
  : prog nid :=
  loopM fuel (fun x =>
    (n <- nd x ;;
     e <- node_eq_opt (dir n) x ;;
     if negb same_ring && e && negb (Pos.eqb x pt)
     then (x' <- deref (dir n) ;; ret (inl x'))
     else ret (inr x))) start.
(** [find_start_and_end_of_collinear_edges] (point_node.py:252-325) *)
Definition collinear_path (pt_a pt_b : nid) : prog (nid * nid * nid * nid) :=
  (a <- nd pt_a ;; b <- nd pt_b ;;
   let same_ring := opt_is (n_ring a) (n_ring b) in
   bf1 <- collinear_search pt_a pt_b ;;
   sa <- next_of (fst bf1) ;;
   start_a <- skip_repeats n_next same_ring sa pt_a ;;
   eb <- prev_of (snd bf1) ;;
   end_b <- skip_repeats n_prev same_ring eb pt_b ;;
   bf2 <- collinear_search pt_b pt_a ;;
   sb <- next_of (fst bf2) ;;
   start_b <- skip_repeats n_next same_ring sb pt_b ;;
   ea <- prev_of (snd bf2) ;;
   end_a <- skip_repeats n_prev same_ring ea pt_a ;;
   ret (start_a, end_a, start_b, end_b)).

(** [itr.prev.next = None; itr.prev = None; itr.ring = None; itr = itr.next]
    (point_node.py:348-352 and siblings) *)
Definition detach (i : nid) : prog (option nid) :=
  (p <- prev_of i ;;
   set_next p None ;; set_prev i None ;; set_nring i None ;;
   n <- nd i ;; ret (n_next n)).
(** [while itr is not stop: detach] *)
Definition detach_until (start : option nid) (stop : option nid) : prog unit :=
  loopM fuel (fun itr =>
    if opt_is itr stop then ret (inr tt)
    else (i <- deref itr ;; n <- detach i ;; ret (inl n))) start.
(** [while True: detach; if itr is stop or itr is None: break] *)
Definition detach_do (start : nid) (stop : nid) : prog unit :=
  loopM fuel (fun i =>
    (n <- detach i ;;
     match n with
     | None => ret (inr tt)
     | Some j => ret (if Pos.eqb j stop then inr tt else inl j)
     end)) start.
(** [prev.next = end; end.prev = prev] *)
Definition link (p e : nid) : prog unit := set_next p (Some e) ;; set_prev e (Some p).

(** [fix_collinear_path] (point_node.py:328-412) *)
Definition fix_collinear_path (path : nid * nid * nid * nid)
  : prog (option nid * option nid) :=
  let '(start_1, end_1, start_2, end_2) := path in
  let spike_left := Pos.eqb start_1 end_2 in
  let spike_right := Pos.eqb start_2 end_1 in
  if spike_left && spike_right then
    (detach_until (Some start_1) None ;; ret (None, None))
  else if spike_left then
    (p <- prev_of start_2 ;;
     detach_until (Some start_2) (Some end_1) ;;
     link p end_1 ;; ret (Some end_1, None))
  else if spike_right then
    (p <- prev_of start_1 ;;
     detach_until (Some start_1) (Some end_2) ;;
     link p end_2 ;; ret (Some end_2, None))
  else
    (p1 <- prev_of start_1 ;;
     p2 <- prev_of start_2 ;;
     detach_do start_1 end_1 ;;
     detach_do start_2 end_2 ;;
     if Pos.eqb start_1 end_1 && Pos.eqb start_2 end_2 then ret (None, None)
     else if Pos.eqb start_1 end_1 then (link p2 end_2 ;; ret (Some end_2, None))
     else if Pos.eqb start_2 end_2 then (link p1 end_1 ;; ret (Some end_1, None))
     else (link p1 end_2 ;; link p2 end_1 ;; ret (Some end_1, Some end_2))).
End PointNode.
