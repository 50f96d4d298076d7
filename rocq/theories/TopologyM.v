(** * Topology correction of wagyu/ring_manager.py *)
From Coq Require Import ZArith List Bool Lia FMapPositive.
From Coq Require Import Floats.SpecFloat.
From RecordUpdate Require Import RecordSet.
From Verif Require Import Py Monad Utils Geometry LinearRingM BoundM LocalMinimumM
     StateM PointNodeM RingM.
Import ListNotations RecordSetNotations.
Open Scope Z_scope.
Local Open Scope m_scope.

Section Topology.
Context (fuel : nat).

(** [self.rings]: creation order *)
Definition all_rings (s : st) : list rid :=
  map Pos.of_succ_nat (seq 0 (pred (Pos.to_nat (s_rnext s)))).

(** The loop over runs of equal nodes shared by [correct_chained_rings],
    [correct_collinear_edges] and [find_and_correct_repeated_points]
    (ring_manager.py:446-467, 472-495, 744-762); [f first stop] is called for
    every maximal run [nodes[first:stop]] of at least two equal nodes. *)
Definition for_repeats (nodes : list nid) (f : nat -> nat -> prog unit) : prog unit :=
  loopM (S (length nodes)) (fun '(count, prev_index, index) =>
    if (index <? length nodes)%nat then
      (a <- lift (nth_res nodes prev_index) ;;
       b <- lift (nth_res nodes index) ;;
       e <- node_eq a b ;;
       let count' := if (e : bool) then S count else count in
       let index' := S index in
       if e && (index' <? length nodes)%nat then ret (inl (count', S prev_index, index'))
       else
         let prev' := if (e : bool) then S (S prev_index) else S prev_index in
         if (count' =? 0)%nat then ret (inl (count', prev', index'))
         else
           (f (prev' - S count')%nat prev' ;; ret (inl (O, prev', index'))))
    else ret (inr tt)) (O, O, 1%nat).

(** ** Sorting nodes and rings *)

(** [PointNode.__lt__] (point_node.py:45-51) *)
Definition node_lt (a b : nid) : prog bool :=
  (x <- nd a ;; y <- nd b ;;
   if negb (n_y x =? n_y y) then ret (n_y y <? n_y x)
   else if negb (n_x y =? n_x x) then ret (n_x y >? n_x x)
   else
     (rb <- deref (n_ring y) ;; db <- ring_depth fuel rb ;;
      ra <- deref (n_ring x) ;; da <- ring_depth fuel ra ;;
      ret (db <? da)%nat)).
(** [self.all_nodes.sort()] (ring_manager.py:592) *)
Definition sort_all_nodes : prog unit :=
  (l <- gets s_all ;; l' <- py_sort node_lt l ;;
   modify (fun s => s <| s_all := l' |>)).

(** [Ring.__lt__] (ring.py:49-54) *)
Definition ring_lt (a b : rid) : prog bool :=
  (x <- rg a ;; y <- rg b ;;
   if is_none (r_node x) || is_none (r_node y) then ret (is_some (r_node x))
   else
     (aa <- ring_area fuel a ;; ab <- ring_area fuel b ;;
      ret (num_ltb (NF (f_abs aa)) (NF (f_abs ab))))).
(** [sorted_rings], [reversed_sorted_rings] (ring_manager.py:123-131) *)
Definition sorted_rings : prog (list rid) :=
  (s <- get ;; py_sort ring_lt (all_rings s)).
Definition reversed_sorted_rings : prog (list rid) :=
  (s <- get ;; py_sort_rev ring_lt (all_rings s)).

(** ** [correct_orientations] (ring_manager.py:517-527) *)
Definition correct_orientation (r : rid) : prog unit :=
  (x <- rg r ;;
   match r_node x with
   | None => ret tt
   | Some n =>
       (recalculate_stats fuel r ;;
        size <- ring_size fuel r ;;
        if (size <? 3)%nat then remove_ring_and_points fuel fuel r false true
        else
          (d <- ring_depth fuel r ;;
           h <- ring_is_hole fuel r ;;
           if negb (Bool.eqb (is_odd d) h)
           then (reverse_nodes fuel n ;; recalculate_stats fuel r) else ret tt))
   end).
Definition correct_orientations : prog unit :=
  (s <- get ;; forM (all_rings s) correct_orientation).

(** ** [correct_self_intersection] (ring_manager.py:558-582) *)
Definition correct_self_intersection (i j : nid) : prog (option rid) :=
  (a <- nd i ;; b <- nd j ;;
   if negb (opt_is (n_ring a) (n_ring b)) then ret None
   else
     (r <- deref (n_ring a) ;;
      third <- prev_of i ;; fourth <- prev_of j ;;
      set_prev i (Some fourth) ;; set_next fourth (Some i) ;;
      set_prev j (Some third) ;; set_next third (Some j) ;;
      new <- create_ring ;;
      s1 <- node_stats fuel i ;;
      s2 <- node_stats fuel j ;;
      (if num_gtb (NF (f_abs (st_area s1))) (NF (f_abs (st_area s2))) then
         (upd_ring r (fun x => x <| r_node := Some i |>) ;; set_stats r s1 ;;
          upd_ring new (fun x => x <| r_node := Some j |>) ;; set_stats new s2)
       else
         (upd_ring r (fun x => x <| r_node := Some j |>) ;; set_stats r s2 ;;
          upd_ring new (fun x => x <| r_node := Some i |>) ;; set_stats new s1)) ;;
      update_points fuel new ;;
      ret (Some new))).

(** [correct_repeated_points] (ring_manager.py:529-545); the accumulated new
    rings are returned *)
Definition forM_acc {A B} (l : list A) (f : A -> B -> prog B) (b : B) : prog B :=
  (fix go l b := match l with
                 | [] => ret b
                 | x :: l' => (b' <- f x b ;; go l' b')
                 end) l b.
Definition correct_repeated_points (nodes : list nid) (start stop : nat)
           (new_rings : list rid) : prog (list rid) :=
  forM_acc (range start stop) (fun k acc =>
    (i <- lift (nth_res nodes k) ;;
     n <- nd i ;;
     if is_none (n_ring n) then ret acc
     else
       forM_acc (range (S k) stop) (fun k' acc =>
         (j <- lift (nth_res nodes k') ;;
          m <- nd j ;;
          if is_none (n_ring m) then ret acc
          else
            (o <- correct_self_intersection i j ;;
             ret (match o with None => acc | Some r => acc ++ [r] end)))) acc))
    new_rings.
(** [find_and_correct_repeated_points] (ring_manager.py:742-762): the runs do not
    depend on the corrections, so the list of new rings is threaded through a
    second loop with the same control flow. *)
Definition find_and_correct_repeated_points (r : rid) : prog (list rid) :=
  (nodes <- sorted_nodes fuel r ;;
   loopM (S (length nodes)) (fun '(count, prev_index, index, acc) =>
     if (index <? length nodes)%nat then
       (a <- lift (nth_res nodes prev_index) ;;
        b <- lift (nth_res nodes index) ;;
        e <- node_eq a b ;;
        let count' := if (e : bool) then S count else count in
        let index' := S index in
        if e && (index' <? length nodes)%nat
        then ret (inl (count', S prev_index, index', acc))
        else
          let prev' := if (e : bool) then S (S prev_index) else S prev_index in
          if (count' =? 0)%nat then ret (inl (count', prev', index', acc))
          else
            (acc' <- correct_repeated_points nodes (prev' - S count')%nat prev' acc ;;
             ret (inl (O, prev', index', acc'))))
     else ret (inr acc)) (O, O, 1%nat, [])).

(** ** [assign_new_ring_parents] (ring_manager.py:302-387) *)

(** [ring_have_points_and_non_zero_area] (ring_manager.py:57-58) *)
Definition usable_ring (r : rid) : prog bool :=
  (x <- rg r ;;
   if is_none (r_node x) then ret false
   else (a <- ring_area fuel r ;; z <- lift (almost_zero (NF a)) ;; ret (negb z))).
Fixpoint filterM {A} (p : A -> prog bool) (l : list A) : prog (list A) :=
  match l with
  | [] => ret []
  | x :: l' => (b <- p x ;; r <- filterM p l' ;; ret (if (b : bool) then x :: r else r))
  end.
Definition positive_area (r : rid) : prog bool :=
  (a <- ring_area fuel r ;; ret (num_gtb (NF a) (NF f_zero))).

(** the search of the trees of earlier new rings (ring_manager.py:347-370) *)
Definition try_prev_ring (original r : rid) (same : bool) (new_rings : list rid)
           (prev : rid) : prog (option unit) :=
  (x <- rg prev ;; o <- rg original ;;
   if negb (opt_is (r_parent x) (r_parent o)) then ret None
   else if same then
     for_breakM (r_children x) (fun c =>
       match c with
       | None => ret None
       | Some c =>
           (b <- find_parent_in_tree fuel fuel r c ;;
            if (b : bool) then
              (reassign_children_if_necessary fuel r (Some original) new_rings ;;
               ret (Some tt))
            else ret None)
       end)
   else
     (b <- find_parent_in_tree fuel fuel r prev ;;
      if (b : bool) then
        (o <- rg original ;;
         reassign_children_if_necessary fuel r (r_parent o) new_rings ;;
         ret (Some tt))
      else ret None)).
Definition place_new_ring (original : rid) (original_positive : bool)
           (new_rings : list rid) (before : list rid) (r : rid) : prog unit :=
  (pos <- positive_area r ;;
   let same := Bool.eqb pos original_positive in
   found <- for_breakM before (try_prev_ring original r same new_rings) ;;
   match found with
   | Some _ => ret tt
   | None =>
       o <- rg original ;;
       if same then
         (found <- for_breakM (r_children o) (fun c =>
            match c with
            | None => ret None
            | Some c =>
                (b <- find_parent_in_tree fuel fuel r c ;;
                 if (b : bool) then
                   (reassign_children_if_necessary fuel r (Some original) new_rings ;;
                    ret (Some tt))
                 else ret None)
            end) ;;
          match found with
          | Some _ => ret tt
          | None =>
              (o <- rg original ;;
               assign_as_child fuel r (r_parent o) ;;
               reassign_children_if_necessary fuel r (Some original) new_rings)
          end)
       else
         (b <- find_parent_in_tree fuel fuel r original ;;
          if (b : bool) then
            (o <- rg original ;;
             reassign_children_if_necessary fuel r (r_parent o) new_rings)
          else raise (RuntimeError NoProperParent))
   end).
Fixpoint place_new_rings (original : rid) (original_positive : bool)
         (new_rings before l : list rid) : prog unit :=
  match l with
  | [] => ret tt
  | r :: l' =>
      (place_new_ring original original_positive new_rings before r ;;
       place_new_rings original original_positive new_rings (before ++ [r]) l')
  end.
Definition assign_new_ring_parents (original : rid) (new_rings0 : list rid) : prog unit :=
  (new_rings <- filterM usable_ring new_rings0 ;;
   match new_rings with
   | [] => ret tt
   | [r] =>
       (op <- positive_area original ;;
        np <- positive_area r ;;
        o <- rg original ;;
        if Bool.eqb op np then
          (assign_as_child fuel r (r_parent o) ;;
           reassign_children_if_necessary fuel r (Some original) new_rings)
        else
          (assign_as_child fuel r (Some original) ;;
           o <- rg original ;;
           reassign_children_if_necessary fuel r (r_parent o) new_rings))
   | _ =>
       (op <- positive_area original ;;
        keyed <- (fix go l := match l with
                              | [] => ret []
                              | r :: l' => (a <- ring_area fuel r ;; k <- go l' ;;
                                            ret ((r, f_abs a) :: k))
                              end) new_rings ;;
        let sorted := map fst (pure_sort_rev
              (fun a b => num_ltb (NF (snd a)) (NF (snd b))) keyed) in
        place_new_rings original op sorted [] sorted)
   end).

(** [correct_ring_self_intersections] (ring_manager.py:547-556) *)
Definition correct_ring_self_intersections (r : rid) (correct_tree : bool) : prog bool :=
  (x <- rg r ;;
   if r_corrected x || is_none (r_node x) then ret false
   else
     (new_rings <- find_and_correct_repeated_points r ;;
      (if correct_tree then assign_new_ring_parents r new_rings else ret tt) ;;
      upd_ring r (fun x => x <| r_corrected := true |>) ;;
      ret true)).
(** [correct_self_intersections] (ring_manager.py:584-589) *)
Definition correct_self_intersections (correct_tree : bool) : prog bool :=
  (l <- sorted_rings ;;
   forM_acc l (fun r acc =>
     (b <- correct_ring_self_intersections r correct_tree ;; ret (acc || b))) false).

(** ** Collinear edges (ring_manager.py:469-515, 1256-1324, 1906-1965) *)

(** [outsider = node.next; node.next = outsider.next; ...]
    (ring_manager.py:1925-1931, 1944-1950): unlink a neighbour *)
Definition unlink (i outsider : nid) : prog unit :=
  (upd_node outsider (fun n => n <| n_prev := None |> <| n_next := None |>
                                 <| n_ring := None |>) ;;
   n <- nd i ;;
   r <- deref (n_ring n) ;;
   x <- rg r ;;
   if opt_is (r_node x) (Some outsider)
   then upd_ring r (fun x => x <| r_node := Some i |>) else ret tt).
Definition drop_next (i : nid) (outsider : nid) : prog unit :=
  (o <- nd outsider ;;
   set_next i (n_next o) ;;
   nx <- next_of i ;;
   set_prev nx (Some i) ;;
   unlink i outsider).
Definition drop_prev (i : nid) (outsider : nid) : prog unit :=
  (o <- nd outsider ;;
   set_prev i (n_prev o) ;;
   pv <- prev_of i ;;
   set_next pv (Some i) ;;
   unlink i outsider).
(** [while node.next == node and node.next is not node] etc. *)
Definition drop_equal (dir : node -> option nid) (drop : nid -> nid -> prog unit)
           (i : nid) : prog unit :=
  loopM fuel (fun _ =>
    (n <- nd i ;;
     e <- node_eq_opt (dir n) i ;;
     if e && negb (opt_is (dir n) (Some i)) then
       (o <- deref (dir n) ;; drop i o ;; ret (inl tt))
     else ret (inr tt))) tt.
(** [remove_duplicate_points] (ring_manager.py:1906-1965) *)
Definition remove_duplicate_points (i j : nid) : prog bool :=
  (a <- nd i ;; b <- nd j ;;
   let same := opt_is (n_ring a) (n_ring b) in
   if same && opt_is (n_next a) (Some j) then (drop_next i j ;; ret true)
   else if same && opt_is (n_next b) (Some i) then (drop_prev i j ;; ret true)
   else
     (drop_equal n_next drop_next i ;;
      drop_equal n_prev drop_prev i ;;
      a <- nd i ;;
      if opt_is (n_next a) (Some i) then
        (r <- deref (n_ring a) ;; remove_ring_and_points fuel fuel r false true ;;
         ret true)
      else
        (b <- nd j ;;
         if is_none (n_ring b) then ret true
         else
           (drop_equal n_next drop_next j ;;
            drop_equal n_prev drop_prev j ;;
            b <- nd j ;;
            if opt_is (n_next b) (Some j) then
              (r <- deref (n_ring b) ;; remove_ring_and_points fuel fuel r false true ;;
               ret true)
            else (a <- nd i ;; ret (is_none (n_ring a))))))).

(** [process_collinear_edges_different_rings] (ring_manager.py:1277-1300) *)
Definition collinear_different_rings (i j : nid) : prog unit :=
  (a <- nd i ;; b <- nd j ;;
   r1 <- deref (n_ring a) ;; r2 <- deref (n_ring b) ;;
   a1 <- ring_area fuel r1 ;; a2 <- ring_area fuel r2 ;;
   let larger := num_gtb (NF (f_abs a1)) (NF (f_abs a2)) in
   path <- collinear_path fuel i j ;;
   f <- fix_collinear_path fuel path ;;
   match fst f with
   | None => (remove_ring fuel fuel r1 false true ;; remove_ring fuel fuel r2 false true)
   | Some p =>
       let '(union, outsider) := if larger then (r1, r2) else (r2, r1) in
       (upd_ring union (fun x => x <| r_node := Some p |>) ;;
        update_points fuel union ;;
        recalculate_stats fuel union ;;
        size <- ring_size fuel union ;;
        (if (size <? 3)%nat then remove_ring_and_points fuel fuel union false true
         else ret tt) ;;
        remove_ring fuel fuel outsider false true)
   end).
(** [process_collinear_edges_same_ring] (ring_manager.py:1302-1324) *)
Definition collinear_same_ring (i j : nid) : prog unit :=
  (a <- nd i ;;
   r <- deref (n_ring a) ;;
   path <- collinear_path fuel i j ;;
   f <- fix_collinear_path fuel path ;;
   match f with
   | (None, _) => remove_ring fuel fuel r false true
   | (Some p, None) =>
       (upd_ring r (fun x => x <| r_node := Some p |>) ;; recalculate_stats fuel r)
   | (Some p, Some q) =>
       (new <- create_ring ;;
        upd_ring new (fun x => x <| r_node := Some q |>) ;;
        recalculate_stats fuel new ;;
        update_points fuel new ;;
        upd_ring r (fun x => x <| r_node := Some p |>) ;;
        recalculate_stats fuel r)
   end).
(** [process_collinear_edges] (ring_manager.py:1256-1275) *)
Definition process_collinear_edges (i j : nid) : prog bool :=
  (a <- nd i ;; b <- nd j ;;
   if is_none (n_ring a) || is_none (n_ring b) then ret false
   else
     (d <- remove_duplicate_points i j ;;
      if (d : bool) then ret true
      else
        (c <- has_collinear_edge i j ;;
         a <- nd i ;; b <- nd j ;;
         let same := opt_is (n_ring a) (n_ring b) in
         if negb c then
           if same then (correct_self_intersection i j ;; ret true) else ret false
         else
           ((if same then collinear_same_ring i j else collinear_different_rings i j) ;;
            ret true)))).
(** [correct_collinear_repeats] (ring_manager.py:497-515) *)
Definition correct_collinear_repeats (nodes : list nid) (start stop : nat) : prog unit :=
  forM (range start stop) (fun k =>
    (i <- lift (nth_res nodes k) ;;
     n <- nd i ;;
     if is_none (n_ring n) then ret tt
     else
       loopM fuel (fun other =>
         if (other <? stop)%nat then
           (n <- nd i ;;
            if is_none (n_ring n) then ret (inr tt)
            else
              (j <- lift (nth_res nodes other) ;;
               m <- nd j ;;
               if is_none (n_ring m) || Pos.eqb i j then ret (inl (S other))
               else
                 (b <- process_collinear_edges i j ;;
                  ret (inl (if (b : bool) then start else S other)))))
         else ret (inr tt)) start)).
(** [correct_collinear_edges] (ring_manager.py:469-495) *)
Definition correct_collinear_edges : prog unit :=
  (nodes <- gets s_all ;;
   if (length nodes <? 2)%nat then ret tt
   else for_repeats nodes (correct_collinear_repeats nodes)).

(** ** [correct_tree] (ring_manager.py:609-643) *)
Fixpoint find_parent (r : rid) (rev_before : list rid) : prog bool :=
  match rev_before with
  | [] => ret false
  | q :: l =>
      (h <- ring_is_hole fuel r ;;
       h2 <- ring_is_hole fuel q ;;
       if Bool.eqb h h2 then find_parent r l
       else
         (b <- inside_of fuel r q ;;
          if (b : bool) then (reassign_as_child fuel r (Some q) ;; ret true)
          else find_parent r l))
  end.
Definition correct_tree_ring (rev_before : list rid) (r : rid) : prog unit :=
  (x <- rg r ;;
   if is_none (r_node x) then ret tt
   else
     (size <- ring_size fuel r ;;
      small <- (if (size <? 3)%nat then ret true
                else (a <- ring_area fuel r ;; lift (almost_zero (NF a)))) ;;
      if (small : bool) then remove_ring_and_points fuel fuel r false true
      else
        (upd_ring r (fun x => x <| r_corrected := true |>) ;;
         found <- find_parent r rev_before ;;
         if (found : bool) then ret tt
         else
           (h <- ring_is_hole fuel r ;;
            if (h : bool) then raise (RuntimeError HoleWithoutParent)
            else reassign_as_child fuel r None)))).
Fixpoint correct_tree_loop (rev_before l : list rid) : prog unit :=
  match l with
  | [] => ret tt
  | r :: l' => (correct_tree_ring rev_before r ;; correct_tree_loop (r :: rev_before) l')
  end.
Definition correct_tree : prog unit :=
  (l <- reversed_sorted_rings ;; correct_tree_loop [] l).

(** ** Chained rings (ring_manager.py:415-467, 764-807, 1690-1870) *)

Definition conn_get (r : rid) : prog (list (nid * nid)) :=
  gets (fun s => hget [] (s_conn s) r).
Definition conn_set (r : rid) (l : list (nid * nid)) : prog unit :=
  modify (fun s => s <| s_conn := hset (s_conn s) r l |>).
Definition conn_add (r : rid) (p : nid * nid) : prog unit :=
  (l <- conn_get r ;; conn_set r (l ++ [p])).

Definition inter := (rid * (nid * nid))%type.

(** First scan of [find_intersect_loop] (ring_manager.py:774-791): (the pair that
    closes the loop, the pairs that are kept).  [ring_parent and it_ring2] is true
    exactly when [ring_parent] is not [None]. *)
Fixpoint loop_scan (ring_parent : option rid) (ring_origin ring_search : rid)
         (orig_pt prev_pt : nid) (l : list (nid * nid))
  : prog (option (nid * nid) * list (nid * nid)) :=
  match l with
  | [] => ret (None, [])
  | (op1, op2) :: l' =>
      (n1 <- nd op1 ;; n2 <- nd op2 ;;
       drop <- match n_ring n1, n_ring n2 with
               | Some r1, Some r2 =>
                   if negb (Pos.eqb r1 ring_search) then ret true
                   else
                     (h1 <- ring_is_hole fuel r1 ;;
                      if (h1 : bool) then ret false
                      else (h2 <- ring_is_hole fuel r2 ;; ret (negb h2)))
               | _, _ => ret true
               end ;;
       if (drop : bool) then
         loop_scan ring_parent ring_origin ring_search orig_pt prev_pt l'
       else
         (hit <- match n_ring n2 with
                 | Some r2 =>
                     if Pos.eqb r2 ring_origin then
                       (x2 <- rg r2 ;;
                        if is_some ring_parent || opt_is ring_parent (r_parent x2) then
                          (e1 <- node_eq prev_pt op2 ;; e2 <- node_eq orig_pt op2 ;;
                           ret (negb e1 && negb e2))
                        else ret false)
                     else ret false
                 | None => ret false
                 end ;;
          if (hit : bool) then ret (Some (op1, op2), [])
          else
            (r <- loop_scan ring_parent ring_origin ring_search orig_pt prev_pt l' ;;
             ret (fst r, (op1, op2) :: snd r))))
  end.

(** [find_intersect_loop] (ring_manager.py:764-807): returns whether a loop was
    found, the items to put in front of [iList] and the visited rings; recursion
    bounded by [depth]. *)
Fixpoint find_intersect_loop (depth : nat) (ring_parent : option rid)
         (ring_origin ring_search : rid) (visited : list rid) (orig_pt prev_pt : nid)
  : prog (option (list inter) * list rid) :=
  match depth with
  | O => nofuel
  | S depth' =>
      (pairs <- conn_get ring_search ;;
       sc <- loop_scan ring_parent ring_origin ring_search orig_pt prev_pt pairs ;;
       match fst sc with
       | Some p => ret (Some [(ring_search, p)], visited)
       | None =>
           let pairs' := snd sc in
           (conn_set ring_search pairs' ;;
            (fix go (l : list (nid * nid)) (visited : list rid) :=
               match l with
               | [] => ret (None, visited)
               | (op1, op2) :: l' =>
                   (n2 <- nd op2 ;;
                    match n_ring n2 with
                    | None => go l' visited
                    | Some r =>
                        if existsb (Pos.eqb r) visited then go l' visited
                        else
                          (x <- rg r ;;
                           if negb (opt_is ring_parent (Some r))
                              && negb (opt_is ring_parent (r_parent x))
                           then go l' visited
                           else
                             (a <- ring_area fuel r ;;
                              z <- lift (almost_zero (NF a)) ;;
                              if (z : bool) then go l' visited
                              else
                                (e <- node_eq prev_pt op2 ;;
                                 if (e : bool) then go l' visited
                                 else
                                   (f <- find_intersect_loop depth' ring_parent
                                           ring_origin r visited orig_pt op2 ;;
                                    match fst f with
                                    | Some items =>
                                        ret (Some ((ring_search, (op1, op2)) :: items),
                                             snd f)
                                    | None => go l' (snd f)
                                    end))))
                    end)
               end) pairs' (ring_search :: visited))
       end)
  end.

(** direct connection (ring_manager.py:1729-1744): (found, item, kept pairs);
    the scan stops at the first connecting pair that is not at the same place *)
Fixpoint direct_scan (ring_origin : rid) (op_origin_1 : nid) (l : list (nid * nid))
  : prog (bool * option (nid * nid) * list (nid * nid)) :=
  match l with
  | [] => ret (false, None, [])
  | (op1, op2) :: l' =>
      (n1 <- nd op1 ;; n2 <- nd op2 ;;
       if is_none (n_ring n1) || is_none (n_ring n2)
       then direct_scan ring_origin op_origin_1 l'
       else if opt_is (n_ring n2) (Some ring_origin) then
         (e <- node_eq op_origin_1 op2 ;;
          if (e : bool) then
            (r <- direct_scan ring_origin op_origin_1 l' ;;
             let '(_, it, kept) := (r : bool * option (nid * nid) * list (nid * nid)) in
             ret (true, it, (op1, op2) :: kept))
          else ret (true, Some (op1, op2), (op1, op2) :: l'))
       else
         (r <- direct_scan ring_origin op_origin_1 l' ;;
          let '(f, it, kept) := (r : bool * option (nid * nid) * list (nid * nid)) in
          ret (f, it, (op1, op2) :: kept)))
  end.

(** chain of connections (ring_manager.py:1746-1761) *)
Fixpoint chain_scan (ring_parent : option rid) (ring_origin ring_search : rid)
         (op_origin_2 : nid) (l : list (nid * nid)) (visited : list rid)
  : prog (option (list inter)) :=
  match l with
  | [] => ret None
  | (op1, op2) :: l' =>
      (n2 <- nd op2 ;;
       match n_ring n2 with
       | None => chain_scan ring_parent ring_origin ring_search op_origin_2 l' visited
       | Some r =>
           if Pos.eqb r ring_search
           then chain_scan ring_parent ring_origin ring_search op_origin_2 l' visited
           else
             (e <- node_eq op_origin_2 op2 ;;
              x <- rg r ;;
              if (e : bool)
                 || negb (opt_is ring_parent (Some r) || opt_is ring_parent (r_parent x))
              then chain_scan ring_parent ring_origin ring_search op_origin_2 l' visited
              else
                (a <- ring_area fuel r ;;
                 z <- lift (almost_zero (NF a)) ;;
                 if (z : bool)
                 then chain_scan ring_parent ring_origin ring_search op_origin_2 l' visited
                 else
                   (f <- find_intersect_loop fuel ring_parent ring_origin r visited
                           op_origin_2 op2 ;;
                    match fst f with
                    | Some items => ret (Some ((ring_search, (op1, op2)) :: items))
                    | None => chain_scan ring_parent ring_origin ring_search op_origin_2
                                         l' (snd f)
                    end)))
       end)
  end.

(** exchange the successors of two nodes (ring_manager.py:1790-1806) *)
Definition switch_nexts (a b : nid) : prog unit :=
  (an <- next_of a ;; bn <- next_of b ;;
   set_next a (Some bn) ;; set_next b (Some an) ;;
   set_prev an (Some b) ;; set_prev bn (Some a)).

(** replacement of the origin by the first non-hole of the list
    (ring_manager.py:1780-1788): (new iList, new origin ring, op1, op2, changed) *)
Fixpoint origin_swap (ring_origin : rid) (o1 o2 : nid) (l : list inter)
  : prog (list inter * rid * nid * nid * bool) :=
  match l with
  | [] => ret ([], ring_origin, o1, o2, false)
  | (r, (op1, op2)) :: l' =>
      (h <- ring_is_hole fuel r ;;
       if (h : bool) then
         (x <- origin_swap ring_origin o1 o2 l' ;;
          let '(l2, ro, p1, p2, c) := (x : list inter * rid * nid * nid * bool) in
          ret ((r, (op1, op2)) :: l2, ro, p1, p2, c))
       else ret ((ring_origin, (o1, o2)) :: l', r, op1, op2, true))
  end.

(** children that move into the new ring (ring_manager.py:1834-1849) *)
Definition give_children (from : option rid) (to : rid) : prog unit :=
  iter_children fuel from (fun _ c =>
    (b <- inside_of fuel c to ;;
     if (b : bool) then reassign_as_child fuel c (Some to) else ret tt)).

(** pairs that have to move to another ring's list (ring_manager.py:1850-1885) *)
Fixpoint moved_pairs (l : list (nid * nid)) : prog (list inter) :=
  match l with
  | [] => ret []
  | (op1, op2) :: l' =>
      (n1 <- nd op1 ;; n2 <- nd op2 ;;
       here <- match n_ring n1, n_ring n2 with
               | Some r1, Some r2 =>
                   if Pos.eqb r1 r2 then ret []
                   else
                     (h1 <- ring_is_hole fuel r1 ;;
                      h2 <- (if (h1 : bool) then ret true else ring_is_hole fuel r2) ;;
                      ret (if (h2 : bool) then [(r1, (op1, op2))] else []))
               | _, _ => ret []
               end ;;
       rest <- moved_pairs l' ;;
       ret (here ++ rest))
  end.
Fixpoint origin_pairs (ring_origin : rid) (l : list (nid * nid))
  : prog (list inter * list (nid * nid)) :=
  match l with
  | [] => ret ([], [])
  | (op1, op2) :: l' =>
      (n1 <- nd op1 ;; n2 <- nd op2 ;;
       here <- match n_ring n1, n_ring n2 with
               | Some r1, Some r2 =>
                   if Pos.eqb r1 r2 then ret ([], [])
                   else
                     (h1 <- ring_is_hole fuel r1 ;;
                      h <- (if (h1 : bool) then ret true else ring_is_hole fuel r2) ;;
                      ret (if negb (Pos.eqb r1 ring_origin)
                           then (if (h : bool) then [(r1, (op1, op2))] else [], [])
                           else ([], if (h : bool) then [(op1, op2)] else [])))
               | _, _ => ret ([], [])
               end ;;
       rest <- origin_pairs ring_origin l' ;;
       ret (fst here ++ fst rest, snd here ++ snd rest))
  end.

(** the reconnection proper (ring_manager.py:1780-1889) *)
Definition reconnect (ring_parent : option rid) (ring_origin : rid) (o1 o2 : nid)
           (ilist : list inter) : prog unit :=
  (h <- ring_is_hole fuel ring_origin ;;
   sw <- (if (h : bool) then origin_swap ring_origin o1 o2 ilist
          else ret (ilist, ring_origin, o1, o2, false)) ;;
   let '(ilist, origin, o1, o2, changed) :=
     (sw : list inter * rid * nid * nid * bool) in
   let parent := if (changed : bool) then Some origin else ring_parent in
   origin_is_hole <- ring_is_hole fuel origin ;;
   switch_nexts o1 o2 ;;
   forM ilist (fun it => switch_nexts (fst (snd it)) (snd (snd it))) ;;
   new <- create_ring ;;
   upd_ring origin (fun x => x <| r_corrected := false |>) ;;
   s1 <- node_stats fuel o1 ;;
   s2 <- node_stats fuel o2 ;;
   (if origin_is_hole && num_ltb (NF (st_area s1)) (NF f_zero) then
      (upd_ring origin (fun x => x <| r_node := Some o1 |>) ;; set_stats origin s1 ;;
       upd_ring new (fun x => x <| r_node := Some o2 |>) ;; set_stats new s2)
    else
      (upd_ring origin (fun x => x <| r_node := Some o2 |>) ;; set_stats origin s2 ;;
       upd_ring new (fun x => x <| r_node := Some o1 |>) ;; set_stats new s1)) ;;
   update_points fuel origin ;;
   update_points fuel new ;;
   upd_ring origin (fun x => x <| r_bottom := None |>) ;;
   forM ilist (fun it =>
     (upd_ring (fst it) (fun x => x <| r_bottom := None |>) ;;
      if (origin_is_hole : bool) then replace_ring fuel (fst it) (Some origin)
      else (x <- rg origin ;; replace_ring fuel (fst it) (r_parent x)))) ;;
   (if (origin_is_hole : bool) then
      (assign_as_child fuel new (Some origin) ;;
       p <- deref parent ;;
       give_children (Some p) new)
    else
      (assign_as_sibling fuel new origin ;;
       give_children (Some origin) new)) ;;
   moves1 <- forM_acc ilist (fun it acc =>
     (l <- conn_get (fst it) ;;
      m <- moved_pairs l ;;
      conn_set (fst it) [] ;;
      ret (acc ++ m))) [] ;;
   l <- conn_get origin ;;
   op <- origin_pairs origin l ;;
   conn_set origin (snd op) ;;
   forM (moves1 ++ fst op) (fun it => conn_add (fst it) (snd it))).

(** [process_single_intersection] (ring_manager.py:1690-1889) *)
Definition process_single_intersection (op_j op_k : nid) : prog unit :=
  (nj <- nd op_j ;; nk <- nd op_k ;;
   if opt_is (n_ring nj) (n_ring nk) then ret tt
   else
     (rj <- deref (n_ring nj) ;; rk <- deref (n_ring nk) ;;
      hj <- ring_is_hole fuel rj ;;
      hk <- ring_is_hole fuel rk ;;
      if negb hj && negb hk then ret tt
      else
        (xj <- rg rj ;;
         let '(origin, parent, search, o1, o2) :=
           if negb hj then (rj, Some rj, rk, op_j, op_k)
           else if negb hk then (rk, Some rk, rj, op_k, op_j)
           else (rj, r_parent xj, rk, op_j, op_k) in
         xs <- rg search ;;
         if negb (opt_is parent (r_parent xs)) then ret tt
         else
           (pairs <- conn_get search ;;
            ds <- direct_scan origin o1 pairs ;;
            let '(found, item, kept) :=
              (ds : bool * option (nid * nid) * list (nid * nid)) in
            conn_set search kept ;;
            fi <- match item with
                  | Some p => ret (true, [(search, p)])
                  | None =>
                      (c <- chain_scan parent origin search o2 kept [search] ;;
                       match c with
                       | Some items => ret (true, items)
                       | None => ret (found, [])
                       end)
                  end ;;
            let '(found, ilist) := (fi : bool * list inter) in
            if negb found then
              (conn_add origin (o1, o2) ;; conn_add search (o2, o1))
            else
              match ilist with
              | [] =>
                  (l <- conn_get origin ;;
                   s <- get ;;
                   let missing := negb (existsb (fun p =>
                     opt_is (n_ring (hget dummy_node (s_nodes s) (snd p))) (Some search)) l) in
                   if missing then conn_add origin (o1, o2) else ret tt)
              | _ => reconnect parent origin o1 o2 ilist
              end)))).

(** [correct_chained_repeats] (ring_manager.py:415-431) *)
Definition correct_chained_repeats (nodes : list nid) (start stop : nat) : prog unit :=
  forM (range start stop) (fun k =>
    (i <- lift (nth_res nodes k) ;;
     n <- nd i ;;
     if is_none (n_ring n) then ret tt
     else
       forM (range (S k) stop) (fun k' =>
         (j <- lift (nth_res nodes k') ;;
          m <- nd j ;;
          if is_none (n_ring m) then ret tt else process_single_intersection i j)))).
(** [correct_chained_rings] (ring_manager.py:433-467) *)
Definition correct_chained_rings : prog unit :=
  (nodes <- gets s_all ;;
   if (length nodes <? 2)%nat then ret tt
   else
     (modify (fun s => s <| s_conn := PositiveMap.empty _ |>) ;;
      for_repeats nodes (correct_chained_repeats nodes))).

(** ** [correct_topology] (ring_manager.py:591-607) *)
Definition correct_topology : prog unit :=
  (sort_all_nodes ;;
   correct_orientations ;;
   correct_collinear_edges ;;
   correct_self_intersections false ;;
   correct_tree ;;
   loopM fuel (fun _ =>
     (correct_chained_rings ;;
      again <- correct_self_intersections true ;;
      ret (if (again : bool) then inl tt else inr tt))) tt).
End Topology.
