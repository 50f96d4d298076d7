(** * Functions that neither look at the bounds nor at the active list

    [blind m]: running [m] on a state whose bounds and active bounds have been
    replaced gives the same answer, and the replacement is still there.  Everything
    in point_node.py, ring.py and the topology correction is blind. *)
From Coq Require Import ZArith List Bool Lia FMapPositive.
From Coq Require Import Floats.SpecFloat.
From RecordUpdate Require Import RecordSet.
From Verif Require Import Py Monad Utils Geometry LinearRingM BoundM LocalMinimumM StateM
     PointNodeM RingM SweepM TopologyM WagyuM.
Import ListNotations RecordSetNotations.
Local Open Scope m_scope.

Definition veil (B : heap bound) (L : list (option bid)) (s : st) : st :=
  St (s_nodes s) (s_nnext s) (s_rings s) (s_rnext s) B (s_children s) (s_hp s) (s_hpi s)
     (s_all s) (s_scan s) L (s_conn s).
Definition blind {A} (m : prog A) : Prop := forall B L s,
  m (veil B L s) = match m s with
                   | Ok (a, s') => Ok (a, veil B L s')
                   | Raise e => Raise e
                   | NoFuel => NoFuel
                   end.
Lemma blind_ret {A} (a : A) : blind (ret a). Proof. intros B L s. reflexivity. Qed.
Lemma blind_raise {A} e : blind (raise (A := A) e). Proof. intros B L s. reflexivity. Qed.
Lemma blind_nofuel {A} : blind (nofuel (A := A)). Proof. intros B L s. reflexivity. Qed.
Lemma blind_lift {A} (r : res A) : blind (lift r). Proof. intros B L s. destruct r; reflexivity. Qed.
Lemma blind_deref {A} (o : option A) : blind (deref o). Proof. destruct o; intros B L s; reflexivity. Qed.
Lemma blind_gets {A} (f : st -> A) : (forall B L s, f (veil B L s) = f s) -> blind (gets f).
Proof. intros H B L s. unfold gets. rewrite H. reflexivity. Qed.
Lemma blind_modify (f : st -> st) : (forall B L s, f (veil B L s) = veil B L (f s)) -> blind (modify f).
Proof. intros H B L s. unfold modify. rewrite H. reflexivity. Qed.
Lemma blind_bind {A C} (m : prog A) (k : A -> prog C) : blind m -> (forall a, blind (k a)) -> blind (bind m k).
Proof. intros H K B L s. unfold bind. rewrite H. destruct (m s) as [[a s']| |]; [apply K|reflexivity|reflexivity]. Qed.
Lemma blind_get {C} (k : st -> prog C) : (forall B L s, k (veil B L s) = k s) -> (forall s, blind (k s)) -> blind (bind get k).
Proof. intros H K B L s. unfold bind, get. rewrite H. apply K. Qed.
Lemma blind_loop {X R} f (b : X -> prog (X + R)) x : (forall x, blind (b x)) -> blind (loopM f b x).
Proof.
  intros H. revert x. induction f as [|f IH]; intros x; [apply blind_nofuel|].
  cbn. apply blind_bind; [apply H|]. intros [y|r]; [apply IH|apply blind_ret].
Qed.
Lemma blind_for {A} (l : list A) (b : A -> prog unit) : (forall x, blind (b x)) -> blind (forM l b).
Proof. intros H. induction l; cbn; [apply blind_ret|]. apply blind_bind; auto. Qed.
Lemma blind_for_break {A R} (l : list A) (b : A -> prog (option R)) : (forall x, blind (b x)) -> blind (for_breakM l b).
Proof. intros H. induction l; cbn; [apply blind_ret|]. apply blind_bind; auto. intros [r|]; [apply blind_ret|auto]. Qed.
Lemma blind_forM_acc {A B} (l : list A) (f : A -> B -> prog B) b : (forall x b, blind (f x b)) -> blind (forM_acc l f b).
Proof. intros H. revert b. induction l; intros b; cbn; [apply blind_ret|]. apply blind_bind; auto. Qed.
Lemma blind_mapM {A B} (f : A -> prog B) l : (forall x, blind (f x)) -> blind (mapM f l).
Proof. intros H. induction l; cbn; [apply blind_ret|]. apply blind_bind; auto. intros a0. apply blind_bind; auto. intros; apply blind_ret. Qed.
Lemma blind_filterM {A} (f : A -> prog bool) l : (forall x, blind (f x)) -> blind (filterM f l).
Proof. intros H. induction l; cbn; [apply blind_ret|]. apply blind_bind; auto. intros a0. apply blind_bind; auto. intros; apply blind_ret. Qed.

Create HintDb blind.
Ltac unfold_head m := match m with ?f _ => unfold_head f | ?f => unfold f end.
Ltac bl_step :=
  match goal with
  | |- blind (ret _) => apply blind_ret
  | |- blind (raise _) => apply blind_raise
  | |- blind nofuel => apply blind_nofuel
  | |- blind (lift _) => apply blind_lift
  | |- blind (deref _) => apply blind_deref
  | |- blind (gets _) => apply blind_gets; intros; reflexivity
  | |- blind (modify _) => apply blind_modify; intros; reflexivity
  | |- blind (bind get _) => apply blind_get; [intros; reflexivity|intros ?]
  | |- blind (bind _ _) => apply blind_bind; [|intros ?]
  | |- blind (loopM _ _ _) => apply blind_loop; intros ?
  | |- blind (forM _ _) => apply blind_for; intros ?
  | |- blind (for_breakM _ _) => apply blind_for_break; intros ?
  | |- blind (forM_acc _ _ _) => apply blind_forM_acc; intros ? ?
  | |- blind (mapM _ _) => apply blind_mapM; intros ?
  | |- blind (filterM _ _) => apply blind_filterM; intros ?
  | |- _ => solve [auto with blind]
  | |- blind (match ?x with _ => _ end) => destruct x
  | |- blind (let _ := _ in _) => cbv zeta
  | |- blind ((fun _ => _) _) => cbv beta
  | |- blind ?m => unfold_head m
  end.
Ltac bl := cbv beta; repeat (bl_step; cbv beta).

Section PySort.
Context {A : Type} (c : A -> A -> prog bool) (H : forall a b, blind (c a b)).
Lemma blind_count_run d x l : blind (count_run c d x l).
Proof. revert x. induction l; intros x; cbn [count_run]; bl. Qed.
Lemma blind_bin_search n pre x lo hi : blind (bin_search c n pre x lo hi).
Proof. revert lo hi. induction n; intros lo hi; cbn [bin_search]; bl. Qed.
Lemma blind_binary_insertion pre l : blind (binary_insertion c pre l).
Proof. revert pre. induction l; intros pre; cbn [binary_insertion]; [apply blind_ret|]. apply blind_bind; [apply blind_bin_search|auto]. Qed.
Lemma blind_py_sort l : blind (py_sort c l).
Proof.
  unfold py_sort. destruct l as [|x [|y l]]; try apply blind_ret. apply blind_bind; [apply H|intros d].
  apply blind_bind; [apply blind_count_run|]. intros [run rest]. apply blind_binary_insertion.
Qed.
Lemma blind_py_sort_rev l : blind (py_sort_rev c l).
Proof. unfold py_sort_rev. apply blind_bind; [apply blind_py_sort|]. intros; apply blind_ret. Qed.
End PySort.
#[export] Hint Resolve blind_py_sort blind_py_sort_rev : blind.

Section Blind.
Context (f : nat).
Lemma bl_iter_nodes s (b : nid -> prog unit) : (forall x, blind (b x)) -> blind (iter_nodes f s b).
Proof. intros H. unfold iter_nodes. bl. Qed.
#[local] Hint Resolve bl_iter_nodes : blind.
Lemma bl_collect : forall dir start, blind (collect f dir start).
Proof. intros. unfold collect. bl. Qed.
#[local] Hint Resolve bl_collect : blind.
Lemma bl_nodes_list : forall start, blind (nodes_list f start).
Proof. intros. unfold nodes_list. bl. Qed.
#[local] Hint Resolve bl_nodes_list : blind.
Lemma bl_nodes_list_rev : forall start, blind (nodes_list_rev f start).
Proof. intros. unfold nodes_list_rev. bl. Qed.
#[local] Hint Resolve bl_nodes_list_rev : blind.
Lemma bl_reverse_nodes : forall i, blind (reverse_nodes f i).
Proof. intros. unfold reverse_nodes. apply bl_iter_nodes; intros; bl. Qed.
#[local] Hint Resolve bl_reverse_nodes : blind.
Lemma bl_node_stats : forall i, blind (node_stats f i).
Proof. intros. unfold node_stats. bl. Qed.
#[local] Hint Resolve bl_node_stats : blind.
Lemma bl_skip_equal : forall dir i, blind (skip_equal f dir i).
Proof. intros. unfold skip_equal. bl. Qed.
#[local] Hint Resolve bl_skip_equal : blind.
Lemma bl_is_bottom_to : forall i j, blind (is_bottom_to f i j).
Proof. intros. unfold is_bottom_to. bl. Qed.
#[local] Hint Resolve bl_is_bottom_to : blind.
Lemma bl_bottom_scan : forall i, blind (bottom_scan f i).
Proof. intros. unfold bottom_scan. bl. Qed.
#[local] Hint Resolve bl_bottom_scan : blind.
Lemma bl_skip_to_equal : forall i j, blind (skip_to_equal f i j).
Proof. intros. unfold skip_to_equal. bl. Qed.
#[local] Hint Resolve bl_skip_to_equal : blind.
Lemma bl_bottom_node : forall i, blind (bottom_node f i).
Proof. intros. unfold bottom_node. bl. Qed.
#[local] Hint Resolve bl_bottom_node : blind.
Lemma bl_point_in_polygon : forall pt i, blind (point_in_polygon f pt i).
Proof. intros. unfold point_in_polygon. bl. Qed.
#[local] Hint Resolve bl_point_in_polygon : blind.
Lemma bl_slide : forall dir i j k, blind (slide f dir i j k).
Proof. intros. unfold slide. bl. Qed.
#[local] Hint Resolve bl_slide : blind.
Lemma bl_collinear_search : forall i j, blind (collinear_search f i j).
Proof. intros. unfold collinear_search. bl. Qed.
#[local] Hint Resolve bl_collinear_search : blind.
Lemma bl_skip_repeats : forall dir b i j, blind (skip_repeats f dir b i j).
Proof. intros. unfold skip_repeats. bl. Qed.
#[local] Hint Resolve bl_skip_repeats : blind.
Lemma bl_collinear_path : forall i j, blind (collinear_path f i j).
Proof. intros. unfold collinear_path. bl. Qed.
#[local] Hint Resolve bl_collinear_path : blind.
Lemma bl_detach_until : forall i j, blind (detach_until f i j).
Proof. intros. unfold detach_until. bl. Qed.
#[local] Hint Resolve bl_detach_until : blind.
Lemma bl_detach_do : forall i j, blind (detach_do f i j).
Proof. intros. unfold detach_do. bl. Qed.
#[local] Hint Resolve bl_detach_do : blind.
Lemma bl_fix_collinear_path : forall p, blind (fix_collinear_path f p).
Proof. intros. unfold fix_collinear_path. bl. Qed.
#[local] Hint Resolve bl_fix_collinear_path : blind.
Lemma bl_iter_children o (b : nat -> rid -> prog unit) : (forall k x, blind (b k x)) -> blind (iter_children f o b).
Proof. intros H. unfold iter_children. bl. Qed.
#[local] Hint Resolve bl_iter_children : blind.
Lemma bl_recalculate_stats : forall r, blind (recalculate_stats f r).
Proof. intros. unfold recalculate_stats. bl. Qed.
#[local] Hint Resolve bl_recalculate_stats : blind.
Lemma bl_ensure_stats : forall r, blind (ensure_stats f r).
Proof. intros. unfold ensure_stats. bl. Qed.
#[local] Hint Resolve bl_ensure_stats : blind.
Lemma bl_ring_area : forall r, blind (ring_area f r).
Proof. intros. unfold ring_area. bl. Qed.
#[local] Hint Resolve bl_ring_area : blind.
Lemma bl_ring_is_hole : forall r, blind (ring_is_hole f r).
Proof. intros. unfold ring_is_hole. bl. Qed.
#[local] Hint Resolve bl_ring_is_hole : blind.
Lemma bl_ring_size : forall r, blind (ring_size f r).
Proof. intros. unfold ring_size. bl. Qed.
#[local] Hint Resolve bl_ring_size : blind.
Lemma bl_ring_depth : forall r, blind (ring_depth f r).
Proof. intros. unfold ring_depth. bl. Qed.
#[local] Hint Resolve bl_ring_depth : blind.
Lemma bl_is_descendant_of : forall r o, blind (is_descendant_of f r o).
Proof. intros. unfold is_descendant_of. bl. Qed.
#[local] Hint Resolve bl_is_descendant_of : blind.
Lemma bl_update_points : forall r, blind (update_points f r).
Proof. intros. unfold update_points. bl. all: apply bl_iter_nodes; intros; bl. Qed.
#[local] Hint Resolve bl_update_points : blind.
Lemma bl_sorted_nodes : forall r, blind (sorted_nodes f r).
Proof. intros. unfold sorted_nodes. bl. Qed.
#[local] Hint Resolve bl_sorted_nodes : blind.
Lemma bl_ensure_bottom : forall r, blind (ensure_bottom f r).
Proof. intros. unfold ensure_bottom. bl. Qed.
#[local] Hint Resolve bl_ensure_bottom : blind.
Lemma bl_lowermost_ring : forall r o, blind (lowermost_ring f r o).
Proof. intros. unfold lowermost_ring. bl. Qed.
#[local] Hint Resolve bl_lowermost_ring : blind.
Lemma bl_is_convex : forall i, blind (is_convex f i).
Proof. intros. unfold is_convex. bl. Qed.
#[local] Hint Resolve bl_is_convex : blind.
Lemma bl_inside_or_outside_special : forall i j, blind (inside_or_outside_special f i j).
Proof. intros. unfold inside_or_outside_special. bl. Qed.
#[local] Hint Resolve bl_inside_or_outside_special : blind.
Lemma bl_inside_of : forall r o, blind (inside_of f r o).
Proof. intros. unfold inside_of. bl. Qed.
#[local] Hint Resolve bl_inside_of : blind.
Lemma bl_orientation_clash : forall r p, blind (orientation_clash f r p).
Proof. intros. unfold orientation_clash. bl. Qed.
#[local] Hint Resolve bl_orientation_clash : blind.
Lemma bl_assign_as_child : forall r p, blind (assign_as_child f r p).
Proof. intros. unfold assign_as_child. bl. Qed.
#[local] Hint Resolve bl_assign_as_child : blind.
Lemma bl_assign_as_sibling : forall r p, blind (assign_as_sibling f r p).
Proof. intros. unfold assign_as_sibling. bl. Qed.
#[local] Hint Resolve bl_assign_as_sibling : blind.
Lemma bl_reassign_as_child : forall r p, blind (reassign_as_child f r p).
Proof. intros. unfold reassign_as_child. bl. Qed.
#[local] Hint Resolve bl_reassign_as_child : blind.
Lemma bl_reassign_children_if_necessary : forall r o l, blind (reassign_children_if_necessary f r o l).
Proof. intros. unfold reassign_children_if_necessary. apply bl_iter_children. intros; bl. Qed.
#[local] Hint Resolve bl_reassign_children_if_necessary : blind.
Lemma bl_remove_ring_go : forall d r a b, blind (remove_ring f d r a b).
Proof.
  induction d as [|d IH]; intros r a b; [apply blind_nofuel|].
  cbn [remove_ring]. apply blind_bind.
  - apply bl_iter_children. intros. bl.
  - intros _. bl.
Qed.
Lemma bl_remove_ring : forall r a b, blind (remove_ring f f r a b).
Proof. intros. apply bl_remove_ring_go. Qed.
#[local] Hint Resolve bl_remove_ring : blind.
Lemma bl_remove_ring_and_points_go : forall d r a b, blind (remove_ring_and_points f d r a b).
Proof.
  induction d as [|d IH]; intros r a b; [apply blind_nofuel|].
  cbn [remove_ring_and_points]. apply blind_bind.
  - apply bl_iter_children. intros. bl.
  - intros _. unfold clear_nodes. bl.
Qed.
Lemma bl_remove_ring_and_points : forall r a b, blind (remove_ring_and_points f f r a b).
Proof. intros. apply bl_remove_ring_and_points_go. Qed.
#[local] Hint Resolve bl_remove_ring_and_points : blind.
Lemma bl_replace_ring : forall r o, blind (replace_ring f r o).
Proof. intros. unfold replace_ring. bl. all: apply bl_iter_children; intros; bl. Qed.
#[local] Hint Resolve bl_replace_ring : blind.
Lemma bl_find_parent_in_tree_go : forall d r a, blind (find_parent_in_tree f d r a).
Proof.
  induction d as [|d IH]; intros r a; [apply blind_nofuel|].
  cbn [find_parent_in_tree]. bl.
Qed.
Lemma bl_find_parent_in_tree : forall r a, blind (find_parent_in_tree f f r a).
Proof. intros. apply bl_find_parent_in_tree_go. Qed.
#[local] Hint Resolve bl_find_parent_in_tree : blind.
Lemma bl_join_chains : forall a b i j, blind (join_chains f a b i j).
Proof. intros. unfold join_chains. bl. Qed.
#[local] Hint Resolve bl_join_chains : blind.
Lemma bl_node_lt : forall a b, blind (node_lt f a b).
Proof. intros. unfold node_lt. bl. Qed.
#[local] Hint Resolve bl_node_lt : blind.
Lemma bl_sort_all_nodes : blind (sort_all_nodes f).
Proof. unfold sort_all_nodes. bl. all: apply blind_py_sort; intros; bl. Qed.
#[local] Hint Resolve bl_sort_all_nodes : blind.
Lemma bl_ring_lt : forall a b, blind (ring_lt f a b).
Proof. intros. unfold ring_lt. bl. Qed.
#[local] Hint Resolve bl_ring_lt : blind.
Lemma bl_sorted_rings : blind (sorted_rings f).
Proof. unfold sorted_rings. bl. all: apply blind_py_sort; intros; bl. Qed.
#[local] Hint Resolve bl_sorted_rings : blind.
Lemma bl_reversed_sorted_rings : blind (reversed_sorted_rings f).
Proof. unfold reversed_sorted_rings. bl. all: apply blind_py_sort_rev; intros; bl. Qed.
#[local] Hint Resolve bl_reversed_sorted_rings : blind.
Lemma bl_correct_orientation : forall r, blind (correct_orientation f r).
Proof. intros. unfold correct_orientation. bl. Qed.
#[local] Hint Resolve bl_correct_orientation : blind.
Lemma bl_correct_orientations : blind (correct_orientations f ).
Proof. intros. unfold correct_orientations. bl. Qed.
#[local] Hint Resolve bl_correct_orientations : blind.
Lemma bl_correct_self_intersection : forall i j, blind (correct_self_intersection f i j).
Proof. intros. unfold correct_self_intersection. bl. Qed.
#[local] Hint Resolve bl_correct_self_intersection : blind.
Lemma bl_correct_repeated_points : forall ns a b l, blind (correct_repeated_points f ns a b l).
Proof. intros. unfold correct_repeated_points. bl. Qed.
#[local] Hint Resolve bl_correct_repeated_points : blind.
Lemma bl_find_and_correct_repeated_points : forall r, blind (find_and_correct_repeated_points f r).
Proof. intros. unfold find_and_correct_repeated_points. bl. Qed.
#[local] Hint Resolve bl_find_and_correct_repeated_points : blind.
Lemma bl_usable_ring : forall r, blind (usable_ring f r).
Proof. intros. unfold usable_ring. bl. Qed.
#[local] Hint Resolve bl_usable_ring : blind.
Lemma bl_positive_area : forall r, blind (positive_area f r).
Proof. intros. unfold positive_area. bl. Qed.
#[local] Hint Resolve bl_positive_area : blind.
Lemma bl_try_prev_ring : forall o r b ns p, blind (try_prev_ring f o r b ns p).
Proof. intros. unfold try_prev_ring. bl. Qed.
#[local] Hint Resolve bl_try_prev_ring : blind.
Lemma bl_place_new_ring : forall o b ns l r, blind (place_new_ring f o b ns l r).
Proof. intros. unfold place_new_ring. bl. Qed.
#[local] Hint Resolve bl_place_new_ring : blind.
Lemma bl_place_new_rings : forall o b ns l before, blind (place_new_rings f o b ns before l).
Proof. intros o b ns l. induction l; intros before; cbn [place_new_rings]; bl. Qed.
#[local] Hint Resolve bl_place_new_rings : blind.
Lemma bl_keyed : forall l,
  blind ((fix go l := match l with [] => ret [] | r :: l' => (a <- ring_area f r ;; k <- go l' ;; ret ((r, f_abs a) :: k)) end) l).
Proof. induction l as [|r l IH]; [solve [bl]|]. bl. Qed.
Lemma bl_assign_new_ring_parents : forall o l, blind (assign_new_ring_parents f o l).
Proof. intros. unfold assign_new_ring_parents. bl. all: apply bl_keyed. Qed.
#[local] Hint Resolve bl_assign_new_ring_parents : blind.
Lemma bl_correct_ring_self_intersections : forall r b, blind (correct_ring_self_intersections f r b).
Proof. intros. unfold correct_ring_self_intersections. bl. Qed.
#[local] Hint Resolve bl_correct_ring_self_intersections : blind.
Lemma bl_correct_self_intersections : forall b, blind (correct_self_intersections f b).
Proof. intros. unfold correct_self_intersections. bl. Qed.
#[local] Hint Resolve bl_correct_self_intersections : blind.
Lemma bl_drop_next : forall i j, blind (drop_next i j).
Proof. intros. bl. Qed.
Lemma bl_drop_prev : forall i j, blind (drop_prev i j).
Proof. intros. bl. Qed.
#[local] Hint Resolve bl_drop_next bl_drop_prev : blind.
Lemma bl_drop_equal : forall dir (drop : nid -> nid -> prog unit) i, (forall a b, blind (drop a b)) -> blind (drop_equal f dir drop i).
Proof. intros. unfold drop_equal. bl. Qed.
#[local] Hint Resolve bl_drop_equal : blind.
Lemma bl_remove_duplicate_points : forall i j, blind (remove_duplicate_points f i j).
Proof. intros. unfold remove_duplicate_points. bl. Qed.
#[local] Hint Resolve bl_remove_duplicate_points : blind.
Lemma bl_collinear_different_rings : forall i j, blind (collinear_different_rings f i j).
Proof. intros. unfold collinear_different_rings. bl. Qed.
#[local] Hint Resolve bl_collinear_different_rings : blind.
Lemma bl_collinear_same_ring : forall i j, blind (collinear_same_ring f i j).
Proof. intros. unfold collinear_same_ring. bl. Qed.
#[local] Hint Resolve bl_collinear_same_ring : blind.
Lemma bl_process_collinear_edges : forall i j, blind (process_collinear_edges f i j).
Proof. intros. unfold process_collinear_edges. bl. Qed.
#[local] Hint Resolve bl_process_collinear_edges : blind.
Lemma bl_correct_collinear_repeats : forall ns a b, blind (correct_collinear_repeats f ns a b).
Proof. intros. unfold correct_collinear_repeats. bl. Qed.
#[local] Hint Resolve bl_correct_collinear_repeats : blind.
Lemma blind_for_repeats ns (g : nat -> nat -> prog unit) : (forall a b, blind (g a b)) -> blind (for_repeats ns g).
Proof. intros H. unfold for_repeats. bl. Qed.
Lemma bl_correct_collinear_edges : blind (correct_collinear_edges f).
Proof. unfold correct_collinear_edges. bl. all: apply blind_for_repeats; intros; bl. Qed.
#[local] Hint Resolve bl_correct_collinear_edges : blind.
Lemma bl_find_parent : forall r l, blind (find_parent f r l).
Proof. intros r l. induction l; cbn [find_parent]; bl. Qed.
#[local] Hint Resolve bl_find_parent : blind.
Lemma bl_correct_tree_ring : forall l r, blind (correct_tree_ring f l r).
Proof. intros. unfold correct_tree_ring. bl. Qed.
#[local] Hint Resolve bl_correct_tree_ring : blind.
Lemma bl_correct_tree_loop : forall l before, blind (correct_tree_loop f before l).
Proof. intros l. induction l; intros before; cbn [correct_tree_loop]; bl. Qed.
#[local] Hint Resolve bl_correct_tree_loop : blind.
Lemma bl_correct_tree : blind (correct_tree f ).
Proof. intros. unfold correct_tree. bl. Qed.
#[local] Hint Resolve bl_correct_tree : blind.
Lemma bl_loop_scan : forall p o q a b l, blind (loop_scan f p o q a b l).
Proof. intros p o q a b l. induction l as [|[x y] l IH]; cbn [loop_scan]; bl. Qed.
#[local] Hint Resolve bl_loop_scan : blind.
Lemma bl_find_intersect_loop_go : forall d p o q v a b, 
  blind (find_intersect_loop f d p o q v a b).
Proof.
  induction d as [|d IH]; intros p o q v a b; [apply blind_nofuel|].
  cbn [find_intersect_loop]. apply blind_bind; [solve [bl]|intros prs]. apply blind_bind; [apply bl_loop_scan|intros [[x|] kept]]; [apply blind_ret|].
  cbn [fst snd]. cbv zeta. apply blind_bind; [solve [bl]|intros _]. generalize (q :: v) as vis. induction kept as [|[x y] l IHl]; intros vis; [apply blind_ret|]. bl.
Qed.
Lemma bl_find_intersect_loop : forall p o q v a b, blind (find_intersect_loop f f p o q v a b).
Proof. intros. apply bl_find_intersect_loop_go. Qed.
#[local] Hint Resolve bl_find_intersect_loop : blind.
Lemma bl_direct_scan : forall o q l, blind (direct_scan o q l).
Proof. intros o q l. induction l as [|[x y] l IH]; cbn [direct_scan]; bl. Qed.
#[local] Hint Resolve bl_direct_scan : blind.
Lemma bl_chain_scan : forall p o q a l v, blind (chain_scan f p o q a l v).
Proof. intros p o q a l. induction l as [|[x y] l IH]; intros v; cbn [chain_scan]; bl. Qed.
#[local] Hint Resolve bl_chain_scan : blind.
Lemma bl_origin_swap : forall o a b l, blind (origin_swap f o a b l).
Proof. intros o a b l. induction l as [|[r [x y]] l IH]; cbn [origin_swap]; bl. Qed.
#[local] Hint Resolve bl_origin_swap : blind.
Lemma bl_give_children : forall a b, blind (give_children f a b).
Proof. intros. unfold give_children. apply bl_iter_children. intros; bl. Qed.
#[local] Hint Resolve bl_give_children : blind.
Lemma bl_moved_pairs : forall l, blind (moved_pairs f l).
Proof. intros l. induction l as [|[x y] l IH]; cbn [moved_pairs]; bl. Qed.
#[local] Hint Resolve bl_moved_pairs : blind.
Lemma bl_origin_pairs : forall o l, blind (origin_pairs f o l).
Proof. intros o l. induction l as [|[x y] l IH]; cbn [origin_pairs]; bl. Qed.
#[local] Hint Resolve bl_origin_pairs : blind.
Lemma bl_reconnect : forall p o a b l, blind (reconnect f p o a b l).
Proof. intros. unfold reconnect. bl. Qed.
#[local] Hint Resolve bl_reconnect : blind.
Lemma bl_process_single_intersection : forall i j, blind (process_single_intersection f i j).
Proof. intros. unfold process_single_intersection. bl. Qed.
#[local] Hint Resolve bl_process_single_intersection : blind.
Lemma bl_correct_chained_repeats : forall ns a b, blind (correct_chained_repeats f ns a b).
Proof. intros. unfold correct_chained_repeats. bl. Qed.
#[local] Hint Resolve bl_correct_chained_repeats : blind.
Lemma bl_correct_chained_rings : blind (correct_chained_rings f).
Proof. unfold correct_chained_rings. bl. all: apply blind_for_repeats; intros; bl. Qed.
#[local] Hint Resolve bl_correct_chained_rings : blind.
Lemma bl_correct_topology : blind (correct_topology f ).
Proof. intros. unfold correct_topology. bl. Qed.
#[local] Hint Resolve bl_correct_topology : blind.
Lemma bl_ring_output : forall b r, blind (ring_output f b r).
Proof. intros. unfold ring_output. bl. Qed.
#[local] Hint Resolve bl_ring_output : blind.
Lemma bl_rings_to_polygons_go : forall d b l, blind (rings_to_polygons f d b l).
Proof.
  induction d as [|d IH]; intros b l; [apply blind_nofuel|].
  cbn [rings_to_polygons]. bl.
Qed.
Lemma bl_rings_to_polygons : forall b l, blind (rings_to_polygons f f b l).
Proof. intros. apply bl_rings_to_polygons_go. Qed.
#[local] Hint Resolve bl_rings_to_polygons : blind.
Lemma bl_build_result : forall b, blind (build_result f b).
Proof. intros. unfold build_result. bl. Qed.
#[local] Hint Resolve bl_build_result : blind.
End Blind.
