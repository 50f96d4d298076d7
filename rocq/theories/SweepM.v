(** * The scan line part of wagyu: wagyu/bound.py (sweep functions),
      wagyu/intersect_node.py, [LocalMinimum.initialize] and the Vatti and
      hot-pixel passes of wagyu/ring_manager.py *)
From Coq Require Import ZArith List Bool Lia FMapPositive.
From Coq Require Import Floats.SpecFloat.
From RecordUpdate Require Import RecordSet.
From Verif Require Import Py Monad Utils Geometry LinearRingM BoundM LocalMinimumM
     StateM PointNodeM RingM.
Import ListNotations RecordSetNotations.
Open Scope Z_scope.
Local Open Scope m_scope.

(** ** Winding rules on one bound (bound.py:110-172) *)

(** [Bound.is_contributing] (bound.py:110-160) *)
Definition fill_of (sfk cfk : fill_kind) (k : polygon_kind) : fill_kind :=
  match k with SUBJECT => sfk | CLIP => cfk end.
Definition alt_fill_of (sfk cfk : fill_kind) (k : polygon_kind) : fill_kind :=
  match k with SUBJECT => cfk | CLIP => sfk end.
Definition is_contributing (op : operation_kind) (sfk cfk : fill_kind)
           (kind : polygon_kind) (wc owc : Z) : bool :=
  let pft := fill_of sfk cfk kind in
  let pft2 := alt_fill_of sfk cfk kind in
  let own_ok := match pft with
                | NON_ZERO => Z.abs wc =? 1
                | POSITIVE => wc =? 1
                | NEGATIVE => wc =? -1
                | EVEN_ODD => true
                end in
  if negb own_ok then false
  else
    let inside := match pft2 with
                  | EVEN_ODD | NON_ZERO => negb (owc =? 0)
                  | POSITIVE => owc >? 0
                  | NEGATIVE => owc <? 0
                  end in
    let outside := match pft2 with
                   | EVEN_ODD | NON_ZERO => owc =? 0
                   | POSITIVE => owc <=? 0
                   | NEGATIVE => owc >=? 0
                   end in
    match op with
    | INTERSECTION => inside
    | UNION => outside
    | DIFFERENCE => match kind with SUBJECT => outside | CLIP => inside end
    | XOR => true
    end.

(** [Bound.is_even_odd_fill_kind], [is_even_odd_alt_fill_kind] (bound.py:162-177) *)
Definition even_odd_fill (sfk cfk : fill_kind) (k : polygon_kind) : bool :=
  fill_eqb (fill_of sfk cfk k) EVEN_ODD.
Definition even_odd_alt_fill (sfk cfk : fill_kind) (k : polygon_kind) : bool :=
  fill_eqb (alt_fill_of sfk cfk k) EVEN_ODD.

(** [set_winding_count] (bound.py:315-377) as a function of the bounds to the
    left ([before], leftmost first): returns (winding_count,
    opposite_winding_count).  The forward loop runs over the bounds after the
    nearest bound of the same polygon kind. *)
Definition next_winding_count (rwc rwd wd : Z) : Z :=
  if rwc * rwd <? 0 then
    if Z.abs rwc >? 1 then
      if rwd * wd <? 0 then rwc else rwc + wd
    else wd
  else if rwd * wd <? 0 then rwc else rwc + wd.
(** nearest preceding bound of the same kind and the bounds after it; the
    argument is the reversed prefix *)
Fixpoint split_same_kind (kind : polygon_kind) (rev_before after : list bound)
  : option bound * list bound :=
  match rev_before with
  | [] => (None, after)
  | b :: l => if kind_eqb (b_kind b) kind then (Some b, after)
              else split_same_kind kind l (b :: after)
  end.
Definition toggle (z : Z) : Z := if z =? 0 then 1 else 0.
Definition winding_counts (sfk cfk : fill_kind) (before : list bound)
           (kind : polygon_kind) (wd : Z) : Z * Z :=
  match before with
  | [] => (wd, 0)
  | _ =>
    let '(prev, between) := split_same_kind kind (rev before) [] in
    let '(wc, owc0) :=
      match prev with
      | None => (wd, 0)
      | Some p => if even_odd_fill sfk cfk kind then (wd, b_owc p)
                  else (next_winding_count (b_wc p) (b_wd p) wd, b_owc p)
      end in
    let owc := if even_odd_alt_fill sfk cfk kind
               then fold_left (fun z _ => toggle z) between owc0
               else fold_left (fun z b => z + b_wd b) between owc0 in
    (wc, owc)
  end.

(** the bounds of [active_bounds[:k]]; a [None] there would raise
    AttributeError, and none is left when the function is called *)
Definition set_winding_count (sfk cfk : fill_kind) (k : nat) : prog unit :=
  (i <- abl_bound k ;;
   s <- get ;;
   b <- bd i ;;
   let before := flat_map (fun o => match o with
                                    | Some j => [bget (s_bounds s) j]
                                    | None => []
                                    end) (firstn k (s_abl s)) in
   let '(wc, owc) := winding_counts sfk cfk before (b_kind b) (b_wd b) in
   upd_bound i (fun b => b <| b_wc := wc |> <| b_owc := owc |>)).

(** ** Edges of a bound *)

(** [is_intermediate], [is_maxima] (bound.py:174-180) *)
Definition is_intermediate (i : bid) (y : Z) : prog bool :=
  (b <- bd i ;;
   if (b_next b <? length (b_edges b))%nat
   then (e <- lift (cur_edge_of b) ;; ret (py (etop e) =? y))
   else ret false).
Definition is_maxima (i : bid) (y : Z) : prog bool :=
  (b <- bd i ;;
   if (b_next b =? length (b_edges b))%nat
   then (e <- lift (cur_edge_of b) ;; ret (py (etop e) =? y))
   else ret false).

(** [Bound.to_next_edge] (bound.py:211-217) *)
Definition to_next_edge (i : bid) : prog unit :=
  (upd_bound i (fun b => b <| b_cur := clip_index b (S (b_cur b)) |>) ;;
   b <- bd i ;;
   if (b_cur b <? length (b_edges b))%nat then
     (upd_bound i (fun b => b <| b_next := clip_index b (S (b_next b)) |>) ;;
      e <- current_edge i ;;
      upd_bound i (fun b => b <| b_cx := NI (px (ebot e)) |>) ;;
      if is_horizontal e then ret tt else insort_scan (py (etop e)))
   else ret tt).

(** [bound_insert_location] (bound.py:282-293) *)
Definition bound_insert_location (l r : bound) : res bool :=
  (ae <- almost_equal (b_cx l) (b_cx r) ;;
   if (ae : bool) then
     le <- cur_edge_of l ;; re <- cur_edge_of r ;;
     if py (etop le) >? py (etop re) then
       a <- float_of_Z (px (etop le)) ;;
       b <- get_current_x re (py (etop le)) ;;
       float_lt (NF a) (NF b)
     else
       a <- float_of_Z (px (etop re)) ;;
       b <- get_current_x le (py (etop re)) ;;
       float_gt (NF a) (NF b)
   else Ok (num_ltb (b_cx l) (b_cx r)))%res.
(** [insert_bound_into_abl] (bound.py:296-303) *)
Fixpoint find_insert (h : heap bound) (l : bound) (abl : list (option bid)) : res nat :=
  match abl with
  | [] => Ok O
  | None :: _ => Raise AttributeError
  | Some j :: abl' =>
      (b <- bound_insert_location l (bget h j) ;;
       if (b : bool) then Ok O
       else (k <- find_insert h l abl' ;; Ok (S k)))%res
  end.
Definition insert_bound_into_abl (left right : bid) : prog nat :=
  (s <- get ;;
   k <- lift (find_insert (s_bounds s) (bget (s_bounds s) left) (s_abl s)) ;;
   modify (fun s => s <| s_abl := list_insert (list_insert (s_abl s) k (Some right)) k
                                              (Some left) |>) ;;
   ret k).

(** [intersection_compare] (bound.py:306-308) on identities *)
Definition intersection_compare (i j : bid) : prog bool :=
  (a <- bd i ;; b <- bd j ;;
   if num_leb (b_cx a) (b_cx b) then ret true
   else (ea <- lift (cur_edge_of a) ;; eb <- lift (cur_edge_of b) ;;
         ret (edges_slopes_equal ea eb))).

(** [update_current_x] (ring_manager.py:2061-2064) *)
Definition update_current_x (y : Z) : prog unit :=
  (abl <- gets s_abl ;;
   forM (combine (seq 0 (length abl)) abl) (fun '(k, o) =>
     (i <- deref o ;;
      upd_bound i (fun b => b <| b_pos := k |>) ;;
      e <- current_edge i ;;
      x <- lift (get_current_x e y) ;;
      upd_bound i (fun b => b <| b_cx := NF x |>)))).

(** [LocalMinimum.initialize] (local_minimum.py:47-64) *)
Definition init_bound (i : bid) (side : edge_side) : prog unit :=
  (b <- bd i ;;
   match b_edges b with
   | [] => ret tt
   | e :: _ =>
       (x <- lift (float_of_Z (px (ebot e))) ;;
        upd_bound i (fun b => b <| b_cur := 0%nat |> <| b_next := clip_index b 1 |>
                                <| b_cx := NF x |> <| b_wc := 0 |> <| b_owc := 0 |>
                                <| b_side := side |> <| b_ring := None |>))
   end).
Definition initialize (m : local_minimum) : prog unit :=
  init_bound (lm_left m) LEFT ;; init_bound (lm_right m) RIGHT.

(** ** Hot pixels (ring_manager.py:389-410, 828-868, 868-876, 1062-1094, 1598-1634) *)

(** [Bound] references in an active bounds list without [None] *)
Definition abl_ids : prog (list bid) :=
  (abl <- gets s_abl ;;
   lift ((fix go l := match l with
                      | [] => Ok []
                      | None :: _ => Raise AttributeError
                      | Some i :: l' => (r <- go l' ;; Ok (i :: r))%res
                      end) abl)).

(** [hot_pixels_on_swap] (ring_manager.py:868-876) *)
Definition hot_pixels_on_swap (i j : bid) : prog unit :=
  (a <- current_edge i ;; b <- current_edge j ;;
   p <- lift (edge_and a b) ;;
   match p with
   | None => raise (RuntimeError LinesDoNotIntersect)
   | Some q => (r <- lift (round_point q) ;; push_hp r)
   end).
(** [process_hot_pixel_intersections] (ring_manager.py:1626-1632) *)
Definition process_hot_pixel_intersections (fuel : nat) (y : Z) : prog unit :=
  (update_current_x y ;;
   ids <- abl_ids ;;
   sorted <- bubble_sort intersection_compare hot_pixels_on_swap fuel ids ;;
   modify (fun s => s <| s_abl := map Some sorted |>)).

(** [left_bound.current_edge_index = 0; next_edge_index = 1; current_x = ...]
    (ring_manager.py:1076-1082) *)
Definition start_bound (i : bid) : prog unit :=
  (upd_bound i (fun b => b <| b_cur := clip_index b 0 |> <| b_next := clip_index b 1 |>) ;;
   e <- current_edge i ;;
   upd_bound i (fun b => b <| b_cx := NI (px (ebot e)) |>)).
(** [insert_local_minima_into_abl_hot_pixel] (ring_manager.py:1060-1094) *)
Definition insert_minima_hot_pixel (fuel : nat) (y : Z) (ms : list local_minimum)
           (k : nat) : prog nat :=
  loopM fuel (fun k =>
    match nth_error ms k with
    | Some m =>
        if lm_y m =? y then
          (lb <- bd (lm_left m) ;;
           e0 <- lift (nth_res (b_edges lb) 0) ;;
           push_hp (ebot e0) ;;
           start_bound (lm_left m) ;;
           start_bound (lm_right m) ;;
           i <- insert_bound_into_abl (lm_left m) (lm_right m) ;;
           li <- abl_bound i ;;
           le <- current_edge li ;;
           (if is_horizontal le then ret tt else insort_scan (py (etop le))) ;;
           ri <- abl_bound (S i) ;;
           re <- current_edge ri ;;
           (if is_horizontal re then ret tt else insort_scan (py (etop re))) ;;
           ret (inl (S k)))
        else ret (inr k)
    | None => ret (inr k)
    end) k.

(** [horizontals_at_top_scanbeam] (ring_manager.py:828-866): the list of indices
    is the [range]; the loop state is [(bound_index, shifted)]. *)
Fixpoint shift_bound (y : Z) (dirle : num -> num -> bool) (i : bid) (k : nat)
         (idx : list nat) : prog nat :=
  match idx with
  | [] => ret k
  | j :: idx' =>
      (o <- abl_get j ;;
       b <- bd i ;;
       stop <- match o with
               | None => ret false
               | Some n =>
                   (nb <- bd n ;;
                    if dirle (b_cx nb) (b_cx b) then ret true
                    else
                      (e <- lift (cur_edge_of nb) ;;
                       (if negb (py (etop e) =? y) && negb (py (ebot e) =? y)
                        then (x <- lift (round_half_up (b_cx nb)) ;; push_hp (Pt x y))
                        else ret tt) ;;
                       ret false))
               end ;;
       if (stop : bool) then ret k
       else
         (abl_set k o ;; abl_set j (Some i) ;;
          shift_bound y dirle i j idx'))
  end.
Definition horizontals_at_top_scanbeam (y : Z) (k : nat) : prog (nat * bool) :=
  (i <- abl_bound k ;;
   e <- current_edge i ;;
   upd_bound i (fun b => b <| b_cx := NI (px (etop e)) |>) ;;
   abl <- gets s_abl ;;
   if px (ebot e) <? px (etop e) then
     (k' <- shift_bound y num_geb i k (range (S k) (length abl)) ;;
      ret (k', negb (k' =? k)%nat))
   else
     (k' <- shift_bound y num_leb i k (rev (range 0 k)) ;;
      ret (k', false))).

(** [process_hot_pixel_edges_at_top_of_scanbeam] (ring_manager.py:1598-1624) *)
Definition hot_pixel_edges_of (fuel : nat) (y : Z) (i : bid) (k : nat)
  : prog (nat * bool) :=
  loopM fuel (fun '(k, shifted) =>
    (b <- bd i ;;
     if (b_cur b <? length (b_edges b))%nat then
       (e <- lift (cur_edge_of b) ;;
        if py (etop e) =? y then
          (push_hp (etop e) ;;
           ks <- (if is_horizontal e then horizontals_at_top_scanbeam y k
                  else ret (k, shifted)) ;;
           to_next_edge i ;;
           ret (inl ks))
        else ret (inr (k, shifted)))
     else ret (inr (k, shifted)))) (k, false).
Definition process_hot_pixel_edges (fuel : nat) (y : Z) : prog unit :=
  (loopM fuel (fun k =>
     (abl <- gets s_abl ;;
      match nth_error abl k with
      | None => ret (inr tt)
      | Some None => ret (inl (S k))
      | Some (Some i) =>
          (ks <- hot_pixel_edges_of fuel y i k ;;
           let '(k', shifted) := (ks : nat * bool) in
           b <- bd i ;;
           (if (b_cur b =? length (b_edges b))%nat then abl_set k' None else ret tt) ;;
           ret (inl (if (shifted : bool) then k else S k)))
      end)) O ;;
   abl_compact).

(** [hot_pixels_compare] (ring_manager.py:2067-2068) *)
Definition hot_pixels_compare (l r : point) : bool :=
  (py r >? py l) || ((py r =? py l) && (px l >=? px r)).
(** [[key for key, _ in groupby(...)]] (ring_manager.py:2055): drop each element
    equal to its predecessor's group key *)
Fixpoint groupby_go (key : point) (l : list point) : list point :=
  match l with
  | [] => []
  | q :: l' => if point_eqb key q then groupby_go key l' else q :: groupby_go q l'
  end.
Definition groupby (l : list point) : list point :=
  match l with [] => [] | p :: l' => p :: groupby_go p l' end.
(** [sort_hot_pixels] (ring_manager.py:2052-2055) *)
Definition sort_hot_pixels (fuel : nat) : prog unit :=
  (l <- gets s_hp ;;
   sorted <- lift (quicksort hot_pixels_compare fuel l) ;;
   modify (fun s => s <| s_hp := groupby sorted |>)).

(** [scanbeams.pop()] with IndexError ignored (ring_manager.py:398-401, 716-719);
    [scanline_y] keeps its value if there is nothing to pop.  The initial
    [math.inf] is never used because the first iteration always pops. *)
Definition pop_scanbeam (y : Z) : prog Z :=
  (l <- gets s_scan ;;
   match last_opt l with
   | None => ret y
   | Some v => (modify (fun s => s <| s_scan := removelast l |>) ;; ret v)
   end).
(** [while scanbeams or minimums_index < len(minimums)]
    (ring_manager.py:397, 715) *)
Definition sweep_pending (ms : list local_minimum) (k : nat) : prog bool :=
  (scan <- gets s_scan ;;
   ret (match scan with [] => (k <? length ms)%nat | _ => true end)).
(** [build_hot_pixels] (ring_manager.py:389-410) *)
Definition build_hot_pixels (fuel : nat) (minimums : list local_minimum) : prog unit :=
  let ms := pure_sort_rev lm_lt minimums in
  (modify (fun s => s <| s_scan := scanbeams_of minimums |> <| s_abl := [] |>) ;;
   loopM fuel (fun '(y, k) =>
     (go <- sweep_pending ms k ;;
      if (go : bool) then
        (y' <- pop_scanbeam y ;;
         process_hot_pixel_intersections fuel y' ;;
         k' <- insert_minima_hot_pixel fuel y' ms k ;;
         process_hot_pixel_edges fuel y' ;;
         ret (inl (y', k')))
      else ret (inr tt))) (0, O) ;;
   sort_hot_pixels fuel).

(** ** Adding points to rings (ring_manager.py:133-193, 878-951, 969-1013) *)
Section Vatti.
Context (fuel : nat).

(** [set_hole_state] (ring_manager.py:2037-2050) *)
Fixpoint last_index (i : bid) (l : list (option bid)) (k : nat) (acc : option nat)
  : option nat :=
  match l with
  | [] => acc
  | o :: l' => last_index i l' (S k) (if opt_is o (Some i) then Some k else acc)
  end.
Fixpoint hole_scan (h : heap bound) (rev_before : list (option bid)) (tmp : option bid)
  : option bid :=
  match rev_before with
  | [] => tmp
  | o :: l =>
      hole_scan h l
        (match o with
         | None => tmp
         | Some j =>
             match b_ring (bget h j) with
             | None => tmp
             | Some r =>
                 match tmp with
                 | None => Some j
                 | Some t => if opt_is (b_ring (bget h t)) (Some r) then None else tmp
                 end
             end
         end)
  end.
Definition set_hole_state (i : bid) : prog unit :=
  (s <- get ;;
   match last_index i (s_abl s) 0 None with
   | None => raise StopIteration
   | Some k =>
       let tmp := hole_scan (s_bounds s) (rev (firstn k (s_abl s))) None in
       let parent := match tmp with
                     | None => None
                     | Some t => b_ring (bget (s_bounds s) t)
                     end in
       (b <- bd i ;;
        r <- deref (b_ring b) ;;
        upd_ring r (fun x => x <| r_parent := parent |>) ;;
        l <- children_of parent ;;
        set_children parent (l ++ [Some r]))
   end).

(** [add_first_point] (ring_manager.py:133-138) *)
Definition add_first_point (i : bid) (p : point) : prog unit :=
  (r <- create_ring ;;
   upd_bound i (fun b => b <| b_ring := Some r |>) ;;
   n <- create_point_node (Some r) p None ;;
   upd_ring r (fun x => x <| r_node := Some n |>) ;;
   set_hole_state i ;;
   upd_bound i (fun b => b <| b_last := p |>)).

(** insertion of a point next to [ring.node] unless it repeats the end it is
    added to (ring_manager.py:187-193 and 901-911, 939-949) *)
Definition put_point (i : bid) (p : point) : prog unit :=
  (b <- bd i ;;
   r <- deref (b_ring b) ;;
   x <- rg r ;;
   op <- deref (r_node x) ;;
   let to_front := side_eqb (b_side b) LEFT in
   q <- (if to_front then ret op else prev_of op) ;;
   qp <- node_point q ;;
   if point_eqb p qp then ret tt
   else
     (n <- create_point_node (Some r) p (Some op) ;;
      if to_front then upd_ring r (fun x => x <| r_node := Some n |>) else ret tt)).

(** the body of the loops of [hot_pixel_set_left_to_right] and
    [hot_pixel_set_right_to_left] (ring_manager.py:878-951); the returned index
    is not used by the callers.  [stop_at]/[skip_at] are the comparisons with the
    x range. *)
Fixpoint hot_pixel_walk (i : bid) (end_x : Z) (add_end : bool)
         (skip stop : Z -> bool) (l : list point) : prog unit :=
  match l with
  | [] => ret tt
  | h :: l' =>
      if skip (px h) then hot_pixel_walk i end_x add_end skip stop l'
      else if stop (px h) then ret tt
      else if negb add_end && (px h =? end_x)
           then hot_pixel_walk i end_x add_end skip stop l'
      else (put_point i h ;; hot_pixel_walk i end_x add_end skip stop l')
  end.
Definition hot_pixel_set_left_to_right (y start_x end_x : Z) (i : bid)
           (group : list point) (add_end : bool) : prog unit :=
  (e <- current_edge i ;;
   mn <- lift (get_min_x e y) ;; mx <- lift (get_max_x e y) ;;
   let x_min := Z.max mn start_x in
   let x_max := Z.min mx end_x in
   hot_pixel_walk i end_x add_end (fun x => x <? x_min) (fun x => x >? x_max) group).
Definition hot_pixel_set_right_to_left (y start_x end_x : Z) (i : bid)
           (group : list point) (add_end : bool) : prog unit :=
  (e <- current_edge i ;;
   mn <- lift (get_min_x e y) ;; mx <- lift (get_max_x e y) ;;
   let x_min := Z.max mn end_x in
   let x_max := Z.min mx start_x in
   hot_pixel_walk i end_x add_end (fun x => x >? x_max) (fun x => x <? x_min) (rev group)).

(** [insert_hot_pixels_in_path] (ring_manager.py:969-1013); the search for the
    start index goes down from [current_hot_pixel_index] *)
Fixpoint hp_start (hp : list point) (start_y : Z) (k : nat) : res nat :=
  match k with
  | O => Ok O
  | S k' =>
      (h <- nth_res hp k ;;
       if py h >? start_y then Ok k else hp_start hp start_y k')%res
  end.
Definition group_end (hp : list point) (y : Z) (k : nat) : nat :=
  Nat.add k (find_if (fun h => negb (py h =? y)) (skipn k hp)).
Definition insert_hot_pixels_in_path (i : bid) (end_point : point) (add_end : bool)
  : prog unit :=
  (b <- bd i ;;
   if point_eqb end_point (b_last b) then ret tt
   else
     (let start := b_last b in
      s <- get ;;
      let hp := s_hp s in
      k0 <- lift (hp_start hp (py start) (s_hpi s)) ;;
      loopM (S (length hp)) (fun k =>
        match nth_error hp k with
        | None => ret (inr tt)
        | Some h =>
            let y := py h in
            if y >? py start then ret (inl (S k))
            else if y <? py end_point then ret (inr tt)
            else
              let e := group_end hp y k in
              let group := firstn (e - k) (skipn k hp) in
              let add := negb (y =? py end_point) || add_end in
              ((if px start >? px end_point
                then hot_pixel_set_right_to_left y (px start) (px end_point) i group add
                else hot_pixel_set_left_to_right y (px start) (px end_point) i group add) ;;
               ret (inl e))
        end) k0 ;;
      upd_bound i (fun b => b <| b_last := end_point |>))).

(** [add_point_to_ring] (ring_manager.py:180-193) *)
Definition add_point_to_ring (i : bid) (p : point) : prog unit :=
  (b <- bd i ;;
   if is_none (b_ring b) then raise AssertionError
   else (insert_hot_pixels_in_path i p false ;; put_point i p)).
(** [add_point] (ring_manager.py:173-178) *)
Definition add_point (i : bid) (p : point) : prog unit :=
  (b <- bd i ;;
   if is_none (b_ring b) then add_first_point i p else add_point_to_ring i p).

(** [add_local_minimum_point] (ring_manager.py:157-171) *)
Definition add_local_minimum_point (p : point) (i j : bid) : prog unit :=
  (ej <- current_edge j ;;
   first <- (if is_horizontal ej then ret true
             else (ei <- current_edge i ;;
                   ret (num_gtb (NF (eslope ei)) (NF (eslope ej))))) ;;
   if (first : bool) then
     (add_point i p ;;
      upd_bound j (fun b => b <| b_last := p |>) ;;
      bi <- bd i ;;
      upd_bound j (fun b => b <| b_ring := b_ring bi |>) ;;
      upd_bound i (fun b => b <| b_side := LEFT |>) ;;
      upd_bound j (fun b => b <| b_side := RIGHT |>))
   else
     (add_point j p ;;
      upd_bound i (fun b => b <| b_last := p |>) ;;
      bj <- bd j ;;
      upd_bound i (fun b => b <| b_ring := b_ring bj |>) ;;
      upd_bound i (fun b => b <| b_side := RIGHT |>) ;;
      upd_bound j (fun b => b <| b_side := LEFT |>))).

(** [append_ring] (ring_manager.py:195-272).  The final loop re-labels the first
    active bound whose ring is the removed one. *)
Fixpoint find_ring_bound (h : heap bound) (r : rid) (l : list (option bid)) : option bid :=
  match l with
  | [] => None
  | Some j :: l' => if opt_is (b_ring (bget h j)) (Some r) then Some j
                    else find_ring_bound h r l'
  | None :: l' => find_ring_bound h r l'
  end.
(** the four ways of joining the two chains (ring_manager.py:222-254) *)
Definition join_chains (keep_left remove_left : bool) (p1_lft p2_lft : nid)
  : prog (option nid) :=
  (p1_rt <- prev_of p1_lft ;;
   p2_rt <- prev_of p2_lft ;;
   if keep_left then
     if remove_left then
       (reverse_nodes fuel p2_lft ;;
        set_next p2_lft (Some p1_lft) ;; set_prev p1_lft (Some p2_lft) ;;
        set_next p1_rt (Some p2_rt) ;; set_prev p2_rt (Some p1_rt) ;;
        ret (Some p2_rt))
     else
       (set_next p2_rt (Some p1_lft) ;; set_prev p1_lft (Some p2_rt) ;;
        set_prev p2_lft (Some p1_rt) ;; set_next p1_rt (Some p2_lft) ;;
        ret (Some p2_lft))
   else
     if remove_left then
       (set_next p1_rt (Some p2_lft) ;; set_prev p2_lft (Some p1_rt) ;;
        set_prev p1_lft (Some p2_rt) ;; set_next p2_rt (Some p1_lft) ;;
        ret None)
     else
       (reverse_nodes fuel p2_lft ;;
        set_next p1_rt (Some p2_rt) ;; set_prev p2_rt (Some p1_rt) ;;
        set_next p2_lft (Some p1_lft) ;; set_prev p1_lft (Some p2_lft) ;;
        ret None)).
Definition append_ring (i j : bid) : prog unit :=
  (bi <- bd i ;; bj <- bd j ;;
   r1 <- deref (b_ring bi) ;; r2 <- deref (b_ring bj) ;;
   d12 <- is_descendant_of fuel r1 r2 ;;
   keep_first <-
     (if (d12 : bool) then ret false
      else (d21 <- is_descendant_of fuel r2 r1 ;;
            if (d21 : bool) then ret true
            else (l <- lowermost_ring fuel r1 r2 ;; ret (Pos.eqb r1 l)))) ;;
   let '(keep, remove, kb, rb) :=
     if (keep_first : bool) then (r1, r2, i, j) else (r2, r1, j, i) in
   kr <- rg keep ;; rr <- rg remove ;;
   p1_lft <- deref (r_node kr) ;; p2_lft <- deref (r_node rr) ;;
   kbd <- bd kb ;; rbd <- bd rb ;;
   head <- join_chains (side_eqb (b_side kbd) LEFT) (side_eqb (b_side rbd) LEFT)
                       p1_lft p2_lft ;;
   match head with
   | Some n => upd_ring keep (fun x => x <| r_node := Some n |>)
   | None => ret tt
   end ;;
   upd_ring keep (fun x => x <| r_bottom := None |>) ;;
   kd <- ring_depth fuel keep ;;
   rd <- ring_depth fuel remove ;;
   upd_ring remove (fun x => x <| r_node := None |> <| r_bottom := None |>) ;;
   (if negb (Bool.eqb (is_odd kd) (is_odd rd))
    then (kr <- rg keep ;; replace_ring fuel remove (r_parent kr))
    else replace_ring fuel remove (Some keep)) ;;
   update_points fuel keep ;;
   upd_bound rb (fun b => b <| b_ring := None |>) ;;
   upd_bound kb (fun b => b <| b_ring := None |>) ;;
   s <- get ;;
   match find_ring_bound (s_bounds s) remove (s_abl s) with
   | None => ret tt
   | Some t =>
       (kbd <- bd kb ;;
        upd_bound t (fun b => b <| b_ring := Some keep |> <| b_side := b_side kbd |>))
   end).

(** [add_local_maximum_point] (ring_manager.py:140-155) *)
Definition add_local_maximum_point (p : point) (i j : bid) : prog unit :=
  (insert_hot_pixels_in_path j p false ;;
   add_point i p ;;
   bi <- bd i ;; bj <- bd j ;;
   if opt_is (b_ring bi) (b_ring bj) then
     (upd_bound i (fun b => b <| b_ring := None |>) ;;
      upd_bound j (fun b => b <| b_ring := None |>))
   else
     (ri <- deref (b_ring bi) ;; rj <- deref (b_ring bj) ;;
      if Pos.ltb ri rj then append_ring i j else append_ring j i)).

Context (op : operation_kind) (sfk cfk : fill_kind).

(** ** [intersect_bounds] (ring_manager.py:1096-1254) *)

(** update of the winding counts (ring_manager.py:1106-1141):
    ((wc1, owc1), (wc2, owc2)) from the two bounds *)
Definition crossed_windings (b1 b2 : bound) : (Z * Z) * (Z * Z) :=
  if kind_eqb (b_kind b1) (b_kind b2) then
    if even_odd_fill sfk cfk (b_kind b1) then
      ((b_wc b2, b_owc b1), (b_wc b1, b_owc b2))
    else
      let wc1 := if b_wc b1 + b_wd b2 =? 0 then - b_wc b1 else b_wc b1 + b_wd b2 in
      let wc2 := if b_wc b2 - b_wd b1 =? 0 then - b_wc b2 else b_wc b2 - b_wd b1 in
      ((wc1, b_owc b1), (wc2, b_owc b2))
  else
    let owc1 := if negb (even_odd_fill sfk cfk (b_kind b2))
                then b_owc b1 + b_wd b2 else toggle (b_owc b1) in
    let owc2 := if negb (even_odd_fill sfk cfk (b_kind b1))
                then b_owc b2 - b_wd b1 else toggle (b_owc b2) in
    ((b_wc b1, owc1), (b_wc b2, owc2)).

(** the winding count normalised by a fill kind (ring_manager.py:1152-1163,
    1212-1229) *)
Definition norm_winding (f : fill_kind) (wc : Z) : Z :=
  match f with
  | POSITIVE => wc
  | NEGATIVE => - wc
  | _ => Z.abs wc
  end.
Definition zero_or_one (z : Z) : bool := (z =? 0) || (z =? 1).

(** what happens to the two output chains at a crossing
    (ring_manager.py:1164-1254) *)
Inductive crossing_action :=
| ActMaximum         (* both chains end here *)
| ActSwap            (* both chains continue, exchanged *)
| ActSwapFirst       (* only the first bound contributes *)
| ActSwapSecond      (* only the second bound contributes *)
| ActMinimum         (* two chains start here *)
| ActSwapSides
| ActNothing.
Definition crossing (c1 c2 : bool) (k1 k2 : polygon_kind) (wc1 owc1 wc2 owc2 : Z)
  : crossing_action :=
  let n1 := norm_winding (fill_of sfk cfk k1) wc1 in
  let n2 := norm_winding (fill_of sfk cfk k2) wc2 in
  if c1 && c2 then
    if negb (n1 =? 0) && negb (n1 =? 1)
       || negb (n2 =? 0) && negb (n2 =? 1)
       || negb (kind_eqb k1 k2) && negb (op_eqb op XOR)
    then ActMaximum else ActSwap
  else if c1 then (if zero_or_one n2 then ActSwapFirst else ActNothing)
  else if c2 then (if zero_or_one n1 then ActSwapSecond else ActNothing)
  else if zero_or_one n1 && zero_or_one n2 then
    let o1 := norm_winding (alt_fill_of sfk cfk k1) owc1 in
    let o2 := norm_winding (alt_fill_of sfk cfk k2) owc2 in
    if negb (kind_eqb k1 k2) then ActMinimum
    else if (n1 =? 1) && (n2 =? 1) then
      let yes := match op with
                 | INTERSECTION => (o1 >? 0) && (o2 >? 0)
                 | UNION => (o1 <=? 0) && (o2 <=? 0)
                 | DIFFERENCE =>
                     kind_eqb k1 CLIP && (o1 >? 0) && (o2 >? 0)
                     || kind_eqb k1 SUBJECT && (o1 <=? 0) && (o2 <=? 0)
                 | XOR => true
                 end in
      if yes then ActMinimum else ActNothing
    else ActSwapSides
  else ActNothing.

(** [first.side, second.side = second.side, first.side] *)
Definition swap_sides (i j : bid) : prog unit :=
  (a <- bd i ;; b <- bd j ;;
   upd_bound i (fun x => x <| b_side := b_side b |>) ;;
   upd_bound j (fun x => x <| b_side := b_side a |>)).
Definition swap_rings (i j : bid) : prog unit :=
  (a <- bd i ;; b <- bd j ;;
   upd_bound i (fun x => x <| b_ring := b_ring b |>) ;;
   upd_bound j (fun x => x <| b_ring := b_ring a |>)).

Definition intersect_bounds (p : point) (i j : bid) : prog unit :=
  (b1 <- bd i ;; b2 <- bd j ;;
   let '((wc1, owc1), (wc2, owc2)) := crossed_windings b1 b2 in
   upd_bound i (fun b => b <| b_wc := wc1 |> <| b_owc := owc1 |>) ;;
   upd_bound j (fun b => b <| b_wc := wc2 |> <| b_owc := owc2 |>) ;;
   match crossing (is_some (b_ring b1)) (is_some (b_ring b2)) (b_kind b1) (b_kind b2)
                  wc1 owc1 wc2 owc2 with
   | ActMaximum => add_local_maximum_point p i j
   | ActSwap => (add_point i p ;; add_point j p ;; swap_sides i j ;; swap_rings i j)
   | ActSwapFirst =>
       (add_point i p ;; upd_bound j (fun b => b <| b_last := p |>) ;;
        swap_sides i j ;; swap_rings i j)
   | ActSwapSecond =>
       (upd_bound i (fun b => b <| b_last := p |>) ;; add_point j p ;;
        swap_sides i j ;; swap_rings i j)
   | ActMinimum => add_local_minimum_point p i j
   | ActSwapSides => swap_sides i j
   | ActNothing => ret tt
   end).

(** ** Inserting local minima (ring_manager.py:953-967, 1015-1058) *)

(** [insert_lm_left_and_right_bound] (ring_manager.py:1015-1038) *)
Definition insert_lm_left_and_right_bound (left right : bid) : prog unit :=
  (k <- insert_bound_into_abl left right ;;
   set_winding_count sfk cfk k ;;
   i <- abl_bound k ;;
   j <- abl_bound (S k) ;;
   bi <- bd i ;;
   upd_bound j (fun b => b <| b_wc := b_wc bi |> <| b_owc := b_owc bi |>) ;;
   lb <- bd left ;;
   (if is_contributing op sfk cfk (b_kind lb) (b_wc lb) (b_owc lb)
    then (e <- current_edge i ;; add_local_minimum_point (ebot e) i j)
    else ret tt) ;;
   ei <- current_edge i ;;
   insort_scan (py (etop ei)) ;;
   ej <- current_edge j ;;
   if is_horizontal ej then ret tt else insort_scan (py (etop ej))).

(** [insert_horizontal_local_minima_into_abl] ([only_hor = true],
    ring_manager.py:953-967) and [insert_local_minima_into_abl]
    (ring_manager.py:1040-1058) *)
Definition insert_local_minima (only_hor : bool) (y : Z) (ms : list local_minimum)
           (k : nat) : prog nat :=
  loopM fuel (fun k =>
    match nth_error ms k with
    | Some m =>
        if (lm_y m =? y) && (negb only_hor || lm_hor m) then
          (initialize m ;;
           insert_lm_left_and_right_bound (lm_left m) (lm_right m) ;;
           ret (inl (S k)))
        else ret (inr k)
    | None => ret (inr k)
    end) k.

(** ** Intersections (intersect_node.py, ring_manager.py:1634-1688) *)

(** [IntersectNode] (intersect_node.py:14-26) *)
Record intersect_node := IN { in_first : bid; in_second : bid; in_point : npoint }.
(** [to_int32] (intersect_node.py:47-48) *)
Definition to_int32 (v : Z) : Z :=
  let m := v mod 2 ^ 32 in if m <? 2 ^ 31 then m else m - 2 ^ 32.
(** [IntersectNode.__lt__] (intersect_node.py:33-41) *)
Definition in_lt (a b : intersect_node) : prog bool :=
  (ya <- lift (num_to_float (ny (in_point a))) ;;
   yb <- lift (num_to_float (ny (in_point b))) ;;
   if f_almost_equal ya yb then
     (a1 <- bd (in_first a) ;; a2 <- bd (in_second a) ;;
      b1 <- bd (in_first b) ;; b2 <- bd (in_second b) ;;
      ret (to_int32 (b_owc a1 + b_owc a2) <? to_int32 (b_owc b1 + b_owc b2)))
   else ret (num_ltb (ny (in_point b)) (ny (in_point a)))).
(** [IntersectNode.has_bound] (intersect_node.py:43-44) *)
Definition has_bound (n : intersect_node) (o : option bid) : bool :=
  opt_is (Some (in_first n)) o || opt_is (Some (in_second n)) o.

(** [build_intersect_list] (intersect_node.py:51-63): the sorted copy of the
    active bounds is dropped by the only caller.  [on_swap] records the pair; the
    list is accumulated in the state of an extended monad. *)
Definition build_intersect_list : prog (list intersect_node) :=
  fun s =>
    match abl_ids s with
    | Ok (ids, _) =>
        let cmp i j : M (list intersect_node) bool :=
          fun acc => match intersection_compare i j s with
                     | Ok (b, _) => Ok (b, acc)
                     | Raise e => Raise e
                     | NoFuel => NoFuel
                     end in
        let on_swap i j : M (list intersect_node) unit :=
          fun acc =>
            match (a <- current_edge i ;; b <- current_edge j ;; lift (edge_and a b)) s with
            | Ok (Some q, _) => Ok (tt, acc ++ [IN i j q])
            | Ok (None, _) => Raise (RuntimeError LinesDoNotIntersect)
            | Raise e => Raise e
            | NoFuel => NoFuel
            end in
        match bubble_sort cmp on_swap fuel ids [] with
        | Ok (_, l) => Ok (l, s)
        | Raise e => Raise e
        | NoFuel => NoFuel
        end
    | Raise e => Raise e
    | NoFuel => NoFuel
    end.

(** adjacency test of [process_intersect_list]: index of the first active bound
    of the node, and whether its other bound is right after it
    (ring_manager.py:1657-1668) *)
Definition adjacent_at (abl : list (option bid)) (n : intersect_node) : res (nat * bool) :=
  let k := find_if (has_bound n) abl in
  (o <- nth_res abl (S k) ;; Ok (k, has_bound n o))%res.
(** search for a later node whose bounds are adjacent (ring_manager.py:1659-1671):
    (position in [l], index in the active bounds) *)
Fixpoint find_adjacent (abl : list (option bid)) (l : list intersect_node) (pos : nat)
  : res (option (nat * nat)) :=
  match l with
  | [] => Ok None
  | n :: l' =>
      ('(k, ok) <- adjacent_at abl n ;;
       if (ok : bool) then Ok (Some (pos, k)) else find_adjacent abl l' (S pos))%res
  end.
(** [process_intersect_list] (ring_manager.py:1649-1688); the processed prefix is
    dropped, exchanging [intersections[index]] with a later element is [upd]. *)
Fixpoint process_intersect_list (l : list intersect_node) (count : nat) : prog unit :=
  match count, l with
  | S count', n :: rest =>
      (abl <- gets s_abl ;;
       ka <- lift (adjacent_at abl n) ;;
       let '(k, ok) := (ka : nat * bool) in
       c <- (if (ok : bool) then ret (n, rest, k)
             else
               (f <- lift (find_adjacent abl rest 0) ;;
                match f with
                | None => raise (RuntimeError IntersectionOrder)
                | Some (pos, k') =>
                    (m <- lift (nth_res rest pos) ;;
                     ret (m, upd rest pos n, k'))
                end)) ;;
       let '(m, rest', k') := (c : intersect_node * list intersect_node * nat) in
       p <- lift (round_point (in_point m)) ;;
       intersect_bounds p (in_first m) (in_second m) ;;
       abl_swap k' (S k') ;;
       process_intersect_list rest' count')
  | _, _ => ret tt
  end.
(** [process_intersections] (ring_manager.py:1634-1647) *)
Definition process_intersections (y : Z) : prog unit :=
  (abl <- gets s_abl ;;
   match abl with
   | [] => ret tt
   | _ =>
       (update_current_x y ;;
        l <- build_intersect_list ;;
        match l with
        | [] => ret tt
        | _ => (l' <- py_sort in_lt l ;; process_intersect_list l' (length l'))
        end)
   end).

(** [update_current_hot_pixel_index] (ring_manager.py:2057-2059) with the clipping
    setter (ring_manager.py:108-113) *)
Definition update_current_hot_pixel_index (y : Z) : prog unit :=
  loopM fuel (fun _ =>
    (s <- get ;;
     h <- lift (nth_res (s_hp s) (s_hpi s)) ;;
     if py h >? y then
       (modify (fun s => s <| s_hpi := Nat.min (S (s_hpi s)) (length (s_hp s)) |>) ;;
        ret (inl tt))
     else ret (inr tt))) tt.

(** ** Horizontal edges (ring_manager.py:1383-1596) *)

(** first hot pixel to consider (ring_manager.py:1437-1443, 1525-1532) *)
Definition hp_from (hp : list point) (k : nat) (p : point -> bool) : nat :=
  Nat.add k (find_if p (skipn k hp)).

(** hot pixels met before the next bound, left to right
    (ring_manager.py:1453-1463, 1500-1507); returns the new index *)
Fixpoint add_hot_pixels_ltr (n : nat) (stop : point -> res bool) (i : bid) (k : nat)
  : prog nat :=
  match n with
  | O => ret k
  | S n' =>
      (hp <- gets s_hp ;;
       match nth_error hp k with
       | None => ret k
       | Some h =>
           (st <- lift (stop h) ;;
            if (st : bool) then ret k
            else
              (b <- bd i ;;
               (if is_some (b_ring b) then add_point_to_ring i h else ret tt) ;;
               add_hot_pixels_ltr n' stop i (S k)))
       end)
  end.

(** one [next_bound] of [process_horizontal_left_to_right]
    (ring_manager.py:1444-1499).  Loop state: (bound_index, hot_pixel_index,
    shifted); result [Some true]: both bounds were removed, function returns;
    [Some false]: [break]; [None]: continue. *)
Definition ltr_step (i : bid) (y : Z) (is_max : bool) (max_idx : nat) (j : nat)
           (x : nat * nat * bool) : prog ((nat * nat * bool) * option bool) :=
  let '(k, h, shifted) := x in
  (o <- abl_get j ;;
   match o with
   | None => ret (x, None)
   | Some n =>
       (hp <- gets s_hp ;;
        nb <- bd n ;;
        e <- current_edge i ;;
        h' <- add_hot_pixels_ltr (S (length hp)) (fun q =>
                if negb (py q =? y) then Ok true
                else (r <- round_half_up (b_cx nb) ;;
                      Ok ((px q >=? r) || (px q >=? px (etop e))))%res) i h ;;
        ex <- lift (float_of_Z (px (etop e))) ;;
        gt <- lift (float_gt (b_cx nb) (NF ex)) ;;
        if (gt : bool) then ret ((k, h', shifted), Some false)
        else
          (r <- lift (round_half_up (b_cx nb)) ;;
           b <- bd i ;;
           stop <- (if (r =? px (etop e)) && (b_next b <? length (b_edges b))%nat
                    then (ne <- lift (next_edge_of b) ;;
                          ret (num_ltb (NF (eslope e)) (NF (eslope ne))))
                    else ret false) ;;
           if (stop : bool) then ret ((k, h', shifted), Some false)
           else
             ((if is_some (b_ring b) then add_point_to_ring i (Pt r y) else ret tt) ;;
              if is_max && (j =? max_idx)%nat then
                (b <- bd i ;; nb <- bd n ;;
                 (if is_some (b_ring b) && is_some (b_ring nb)
                  then add_local_maximum_point (etop e) i n else ret tt) ;;
                 abl_set max_idx None ;; abl_set k None ;;
                 ret ((k, h', shifted), Some true))
              else
                (intersect_bounds (Pt r y) i n ;;
                 abl_swap k j ;;
                 ret ((j, h', true), None)))))
   end).
Fixpoint ltr_loop (i : bid) (y : Z) (is_max : bool) (max_idx : nat) (js : list nat)
         (x : nat * nat * bool) : prog ((nat * nat * bool) * option bool) :=
  match js with
  | [] => ret (x, None)
  | j :: js' =>
      (r <- ltr_step i y is_max max_idx j x ;;
       match snd r with
       | None => ltr_loop i y is_max max_idx js' (fst r)
       | Some _ => ret r
       end)
  end.
(** the end of both horizontal passes (ring_manager.py:1508-1514, 1590-1596) *)
Definition finish_horizontal (i : bid) (k : nat) : prog unit :=
  (b <- bd i ;;
   (if is_some (b_ring b)
    then (e <- current_edge i ;; add_point_to_ring i (etop e)) else ret tt) ;;
   b <- bd i ;;
   if (b_next b <? length (b_edges b))%nat then to_next_edge i else abl_set k None).

(** [process_horizontal_left_to_right] (ring_manager.py:1417-1514) *)
Definition process_horizontal_left_to_right (y : Z) (k : nat) : prog nat :=
  (i <- abl_bound k ;;
   is_max <- is_maxima i y ;;
   s <- get ;;
   b <- bd i ;;
   let n := length (s_abl s) in
   let max_idx := if (is_max : bool) then find_bound (b_max b) (s_abl s) else n in
   e <- current_edge i ;;
   let h := hp_from (s_hp s) (s_hpi s) (fun q =>
              (py q <? y) || ((py q =? y) && (px (ebot e) <=? px q))) in
   r <- ltr_loop i y is_max max_idx (range (S k) n) (k, h, false) ;;
   let '((k', h', shifted), out) := (r : (nat * nat * bool) * option bool) in
   let result := if (shifted : bool) then k else S k in
   match out with
   | Some true => ret result
   | _ =>
       (b <- bd i ;;
        hp <- gets s_hp ;;
        (if is_some (b_ring b) then
           (e <- current_edge i ;;
            add_hot_pixels_ltr (S (length hp)) (fun q =>
              Ok (negb (py q =? y) || (px q >=? px (etop e)))) i h' ;; ret tt)
         else ret tt) ;;
        finish_horizontal i k' ;;
        ret result)
   end).

(** hot pixels right to left (ring_manager.py:1537-1546, 1581-1588); the index is
    [S hot_pixel_index], [0] stands for Python's [-1] *)
Fixpoint add_hot_pixels_rtl (stop : point -> res bool) (i : bid) (k : nat) : prog nat :=
  match k with
  | O => ret O
  | S k' =>
      (hp <- gets s_hp ;;
       h <- lift (nth_res hp k') ;;
       st <- lift (stop h) ;;
       if (st : bool) then ret k
       else
         (b <- bd i ;;
          (if is_some (b_ring b) then add_point_to_ring i h else ret tt) ;;
          add_hot_pixels_rtl stop i k'))
  end.
Definition rtl_step (i : bid) (y : Z) (is_max : bool) (max_idx : nat) (j : nat)
           (x : nat * nat) : prog ((nat * nat) * option bool) :=
  let '(k, h) := x in
  (o <- abl_get j ;;
   match o with
   | None => ret (x, None)
   | Some n =>
       (nb <- bd n ;;
        e <- current_edge i ;;
        h' <- add_hot_pixels_rtl (fun q =>
                if negb (py q =? y) then Ok true
                else (r <- round_half_up (b_cx nb) ;;
                      Ok ((px q <=? r) || (px q <=? px (etop e))))%res) i h ;;
        ex <- lift (float_of_Z (px (etop e))) ;;
        lt <- lift (float_lt (b_cx nb) (NF ex)) ;;
        if (lt : bool) then ret ((k, h'), Some false)
        else
          (r <- lift (round_half_up (b_cx nb)) ;;
           b <- bd i ;;
           stop <- (if (r =? px (etop e)) && (b_next b <? length (b_edges b))%nat
                    then (ne <- lift (next_edge_of b) ;;
                          ret (num_ltb (NF (eslope e)) (NF (eslope ne))))
                    else ret false) ;;
           if (stop : bool) then ret ((k, h'), Some false)
           else
             ((if is_some (b_ring b) then add_point_to_ring i (Pt r y) else ret tt) ;;
              if is_max && (j =? max_idx)%nat then
                (b <- bd i ;; nb <- bd n ;;
                 (if is_some (b_ring b) && is_some (b_ring nb)
                  then add_local_maximum_point (etop e) i n else ret tt) ;;
                 abl_set j None ;; abl_set k None ;;
                 ret ((k, h'), Some true))
              else
                (intersect_bounds (Pt r y) n i ;;
                 abl_swap j k ;;
                 ret ((j, h'), None)))))
   end).
Fixpoint rtl_loop (i : bid) (y : Z) (is_max : bool) (max_idx : nat) (js : list nat)
         (x : nat * nat) : prog ((nat * nat) * option bool) :=
  match js with
  | [] => ret (x, None)
  | j :: js' =>
      (r <- rtl_step i y is_max max_idx j x ;;
       match snd r with
       | None => rtl_loop i y is_max max_idx js' (fst r)
       | Some _ => ret r
       end)
  end.
(** [process_horizontal_right_to_left] (ring_manager.py:1516-1596) *)
Definition process_horizontal_right_to_left (y : Z) (k : nat) : prog nat :=
  (i <- abl_bound k ;;
   is_max <- is_maxima i y ;;
   s <- get ;;
   b <- bd i ;;
   let n := length (s_abl s) in
   let max_idx := if (is_max : bool) then find_bound (b_max b) (s_abl s) else n in
   e <- current_edge i ;;
   let h := hp_from (s_hp s) (s_hpi s) (fun q =>
              (py q >? y) || ((py q =? y) && (px q >=? px (etop e)))) in
   r <- rtl_loop i y is_max max_idx (rev (range 0 k)) (k, h) ;;
   let '((k', h'), out) := (r : (nat * nat) * option bool) in
   match out with
   | Some true => ret (S k)
   | _ =>
       (b <- bd i ;;
        (if is_some (b_ring b) then
           (e <- current_edge i ;;
            add_hot_pixels_rtl (fun q =>
              Ok (negb (py q =? y) || (px q <=? px (etop e)))) i h' ;; ret tt)
         else ret tt) ;;
        finish_horizontal i k' ;;
        ret (S k))
   end).

(** [process_horizontal] (ring_manager.py:1383-1397) *)
Definition process_horizontal (y : Z) (k : nat) : prog nat :=
  (i <- abl_bound k ;;
   e <- current_edge i ;;
   if px (ebot e) <? px (etop e) then process_horizontal_left_to_right y k
   else process_horizontal_right_to_left y k).
(** [process_horizontals] (ring_manager.py:1399-1415) *)
Definition process_horizontals (y : Z) : prog unit :=
  (loopM fuel (fun k =>
     (abl <- gets s_abl ;;
      match nth_error abl k with
      | None => ret (inr tt)
      | Some None => ret (inl (S k))
      | Some (Some i) =>
          (e <- current_edge i ;;
           if is_horizontal e then (k' <- process_horizontal y k ;; ret (inl k'))
           else ret (inl (S k)))
      end)) O ;;
   abl_compact).

(** ** [do_maxima] (ring_manager.py:662-698) *)
Definition maxima_walk (k : nat) (max_idx : nat) : prog (nat * bool) :=
  (n <- gets (fun s => length (s_abl s)) ;;
   (fix go (js : list nat) (k : nat) (skipped : bool) : prog (nat * bool) :=
      match js with
      | [] => ret (k, skipped)
      | j :: js' =>
          if (j =? max_idx)%nat then ret (k, skipped)
          else
            (o <- abl_get j ;;
             match o with
             | None => go js' k skipped
             | Some n =>
                 (i <- abl_bound k ;;
                  e <- current_edge i ;;
                  intersect_bounds (etop e) i n ;;
                  abl_swap k j ;;
                  go js' j true)
             end)
      end) (range (S k) n) k false).
Definition do_maxima (k max_idx : nat) : prog nat :=
  (r <- maxima_walk k max_idx ;;
   let '(k', skipped) := (r : nat * bool) in
   i <- abl_bound k' ;;
   b <- bd i ;;
   j <- abl_bound max_idx ;;
   c <- bd j ;;
   (if is_some (b_ring b) && is_some (b_ring c) then
      (e <- current_edge i ;; add_local_maximum_point (etop e) i j)
    else if is_some (b_ring b) || is_some (b_ring c)
         then raise (RuntimeError DoMaximaError) else ret tt) ;;
   abl_set k' None ;; abl_set max_idx None ;;
   ret (if (skipped : bool) then k else S k)).

(** ** [process_edges_at_top_of_scanbeam] (ring_manager.py:1326-1381) *)
Definition top_step (y : Z) (k : nat) (i : bid) : prog nat :=
  (mx <- is_maxima i y ;;
   m <- (if (mx : bool) then
           (b <- bd i ;;
            abl <- gets s_abl ;;
            let m := find_bound (b_max b) abl in
            if (m =? length abl)%nat then ret (Some m)
            else
              (j <- abl_bound m ;;
               e <- current_edge j ;;
               if is_horizontal e then ret None
               else (jm <- is_maxima j y ;; ret (if (jm : bool) then Some m else None))))
         else ret None) ;;
   match m with
   | Some m => do_maxima k m
   | None =>
       (im <- is_intermediate i y ;;
        promote <- (if (im : bool) then (ne <- next_edge i ;; ret (is_horizontal ne))
                    else ret false) ;;
        (if (promote : bool) then
           (b <- bd i ;;
            (if is_some (b_ring b)
             then (e <- current_edge i ;; insert_hot_pixels_in_path i (etop e) false)
             else ret tt) ;;
            to_next_edge i ;;
            b <- bd i ;;
            if is_some (b_ring b)
            then (e <- current_edge i ;; add_point_to_ring i (ebot e))
            else ret tt)
         else
           (e <- current_edge i ;;
            x <- lift (get_current_x e y) ;;
            upd_bound i (fun b => b <| b_cx := NF x |>))) ;;
        ret (S k))
   end).
Definition process_edges_at_top_of_scanbeam (y : Z) (ms : list local_minimum) (k : nat)
  : prog nat :=
  (loopM fuel (fun idx =>
     (abl <- gets s_abl ;;
      match nth_error abl idx with
      | None => ret (inr tt)
      | Some None => ret (inl (S idx))
      | Some (Some i) => (idx' <- top_step y idx i ;; ret (inl idx'))
      end)) O ;;
   abl_compact ;;
   k' <- insert_local_minima true y ms k ;;
   process_horizontals y ;;
   ids <- abl_ids ;;
   forM ids (fun i =>
     (im <- is_intermediate i y ;;
      if (im : bool) then
        (b <- bd i ;;
         (if is_some (b_ring b)
          then (e <- current_edge i ;; add_point_to_ring i (etop e)) else ret tt) ;;
         to_next_edge i)
      else ret tt)) ;;
   ret k').

(** [execute_vatti] (ring_manager.py:700-740) *)
Definition execute_vatti (minimums : list local_minimum) : prog unit :=
  let ms := pure_sort_rev lm_lt minimums in
  (modify (fun s => s <| s_scan := scanbeams_of minimums |> <| s_abl := [] |>
                      <| s_hpi := 0%nat |>) ;;
   loopM fuel (fun '(y, k) =>
     (go <- sweep_pending ms k ;;
      if (go : bool) then
        (y' <- pop_scanbeam y ;;
         process_intersections y' ;;
         update_current_hot_pixel_index y' ;;
         k' <- process_edges_at_top_of_scanbeam y' ms k ;;
         k'' <- insert_local_minima false y' ms k' ;;
         ret (inl (y', k'')))
      else ret (inr tt))) (0, O)).
End Vatti.
