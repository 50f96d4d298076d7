(** * wagyu/polygon.py and wagyu/wagyu.py *)
From Coq Require Import ZArith List Bool Lia FMapPositive.
From Coq Require Import Floats.SpecFloat.
From RecordUpdate Require Import RecordSet.
From Verif Require Import Py Monad Utils Geometry LinearRingM BoundM LocalMinimumM
     StateM PointNodeM RingM SweepM TopologyM.
Import ListNotations RecordSetNotations.
Open Scope Z_scope.
Local Open Scope m_scope.

(** [LinearRing], [Polygon], [Multipolygon] as data (linear_ring.py:13-30,
    polygon.py:14-33, 44-60) *)
Definition linear_ring := list point.
Definition polygon := list linear_ring.
Definition multipolygon := list polygon.

Section Result.
Context (fuel : nat).

(** [point_node_to_linear_ring] (polygon.py:90-95); [None] is not iterable *)
Definition points_of (l : list nid) : prog (list point) :=
  gets (fun s => map (fun i => npos (hget dummy_node (s_nodes s) i)) l).
Definition ring_output (reverse_output : bool) (r : rid) : prog linear_ring :=
  (x <- rg r ;;
   match r_node x with
   | None => raise TypeError
   | Some n =>
       (l <- (if reverse_output then nodes_list fuel n else nodes_list_rev fuel n) ;;
        pts <- points_of l ;;
        p <- node_point n ;;
        ret (pts ++ [p]))
   end).

Fixpoint mapM {A B} (f : A -> prog B) (l : list A) : prog (list B) :=
  match l with
  | [] => ret []
  | a :: l' => (b <- f a ;; r <- mapM f l' ;; ret (b :: r))
  end.
Definition somes {A} (l : list (option A)) : list A :=
  flat_map (fun o => match o with Some a => [a] | None => [] end) l.

(** [rings_to_polygons] (polygon.py:74-87), [Polygon.from_ring], [Polygon.append]
    (polygon.py:35-41); recursion over the ring tree bounded by [depth] *)
Fixpoint rings_to_polygons (depth : nat) (reverse_output : bool)
         (rings : list (option rid)) : prog multipolygon :=
  match depth with
  | O => nofuel
  | S depth' =>
      (pss <- mapM (fun r =>
         (x <- rg r ;;
          outer <- ring_output reverse_output r ;;
          holes <- mapM (ring_output reverse_output) (somes (r_children x)) ;;
          subs <- mapM (fun c =>
                    (y <- rg c ;; rings_to_polygons depth' reverse_output (r_children y)))
                    (somes (r_children x)) ;;
          ret ((outer :: holes) :: concat subs))) (somes rings) ;;
       ret (concat pss))
  end.
(** [RingManager.build_result] (ring_manager.py:412-413) *)
Definition build_result (reverse_output : bool) : prog multipolygon :=
  (c <- gets s_children ;; rings_to_polygons fuel reverse_output c).
End Result.

(** ** [Wagyu] (wagyu.py:15-122) *)
Record wagyu := Wagyu { w_minimums : lm_list; w_reverse : bool }.
(** [Wagyu(reverse_output)] (wagyu.py:18-21) *)
Definition new_wagyu (reverse_output : bool) : wagyu := Wagyu empty_lm_list reverse_output.

(** [Wagyu.add_linear_ring] (wagyu.py:68-71) *)
Definition w_add_linear_ring (w : wagyu) (pts : linear_ring) (kind : polygon_kind)
  : res (bool * wagyu) :=
  ('(b, L) <- add_linear_ring (w_minimums w) pts kind ;;
   Ok (b, Wagyu L (w_reverse w)))%res.
(** [Wagyu.add_polygon] (wagyu.py:73-80) *)
Fixpoint add_polygon_go (result : bool) (w : wagyu) (p : polygon) (kind : polygon_kind)
  : res (bool * wagyu) :=
  match p with
  | [] => Ok (result, w)
  | lr :: p' =>
      ('(b, w') <- w_add_linear_ring w lr kind ;;
       add_polygon_go (if b && negb result then true else result) w' p' kind)%res
  end.
Definition add_polygon (w : wagyu) (p : polygon) (kind : polygon_kind)
  : res (bool * wagyu) := add_polygon_go false w p kind.
(** [Wagyu.clear] (wagyu.py:82-83) *)
Definition clear (w : wagyu) : wagyu := Wagyu (lml_clear (w_minimums w)) (w_reverse w).

(** the body of [Wagyu.execute] after the emptiness test (wagyu.py:91-96) *)
Definition run (fuel : nat) (op : operation_kind) (sfk cfk : fill_kind)
           (reverse_output : bool) (minimums : list local_minimum) : prog multipolygon :=
  (build_hot_pixels fuel minimums ;;
   execute_vatti fuel op sfk cfk minimums ;;
   correct_topology fuel ;;
   build_result fuel reverse_output).
(** [Wagyu.execute] (wagyu.py:85-96): the result and the (mutated) object *)
Definition execute (fuel : nat) (w : wagyu) (op : operation_kind) (sfk cfk : fill_kind)
  : res (multipolygon * wagyu) :=
  match lml_values (w_minimums w) with
  | [] => Ok ([], w)
  | ms =>
      ('(r, s) <- run fuel op sfk cfk (w_reverse w) ms
                      (init_st (lml_bounds (w_minimums w))) ;;
       Ok (r, Wagyu (LML ms (s_bounds s) (lml_next (w_minimums w))) (w_reverse w)))%res
  end.
(** [intersect], [subtract], [symmetric_subtract], [unite] (wagyu.py:98-122) *)
Definition intersect fuel w sfk cfk := execute fuel w INTERSECTION sfk cfk.
Definition subtract fuel w sfk cfk := execute fuel w DIFFERENCE sfk cfk.
Definition symmetric_subtract fuel w sfk cfk := execute fuel w XOR sfk cfk.
Definition unite fuel w sfk cfk := execute fuel w UNION sfk cfk.
