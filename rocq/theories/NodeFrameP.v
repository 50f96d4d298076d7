(** * What touches the vertices and what does not: the frame of the vertex heap *)
From Coq Require Import ZArith List Bool Lia FMapPositive Permutation.
From Coq Require Import Floats.SpecFloat.
From RecordUpdate Require Import RecordSet.
From Verif Require Import Py Monad Utils Geometry LinearRingM BoundM LocalMinimumM
     StateM PointNodeM RingM SweepM TopologyM WagyuM HoareP SpecRing SpecHeap SweepFrameP OrderP.
Import ListNotations RecordSetNotations.
Open Scope Z_scope.

(** vertices, first vertices of rings, corrected marks, allocation and connections
    are as before *)
Definition same_ringed (s s' : st) : Prop :=
  (forall i, node_at s' i = node_at s i) /\ s_nnext s' = s_nnext s /\ s_rnext s' = s_rnext s /\
  s_conn s' = s_conn s /\
  forall r, r_node (ring_at s' r) = r_node (ring_at s r) /\ r_corrected (ring_at s' r) = r_corrected (ring_at s r).
#[export] Instance same_ringed_pre : PreOrd same_ringed.
Proof.
  split; [repeat split|]. intros s1 s2 s3 (A1&A2&A3&A4&A5) (B1&B2&B3&B4&B5).
  split; [intros i; rewrite B1; apply A1|]. repeat split; try congruence; destruct (A5 r), (B5 r); congruence.
Qed.
Class NodeRel (R : st -> st -> Prop) : Prop := {
  nr_pre :> PreOrd R;
  nr_sub : forall s s', same_ringed s s' -> R s s'
}.
#[export] Instance same_ringed_rel : NodeRel same_ringed.
Proof. split; [apply same_ringed_pre|auto]. Qed.

Section Frame.
  Context (R : st -> st -> Prop) {HR : NodeRel R}.
  Ltac prim := apply pres_modify; intros ?; apply nr_sub; repeat split.
  Lemma nf_upd_bound i f : pres R (upd_bound i f). Proof. prim. Qed.
  Lemma nf_upd_ring i f :
    (forall x, r_node (f x) = r_node x) -> (forall x, r_corrected (f x) = r_corrected x) ->
    pres R (upd_ring i f).
  Proof.
    intros Hp Hc. apply pres_modify. intros s. apply nr_sub. split; [reflexivity|]. do 3 (split; [reflexivity|]).
    intros r. unfold ring_at. cbn. rewrite !hget_hset.
    destruct (Pos.eqb_spec i r) as [->|_]; [split; [apply Hp|apply Hc]|split; reflexivity].
  Qed.
  Ltac prim1 := first [apply nf_upd_ring; intros; reflexivity|prim].
  Ltac tauto1 := repeat first [progress pres_step|prim1].
  Lemma nf_nd i : pres R (nd i). Proof. apply pres_gets. typeclasses eauto. Qed.
  Lemma nf_rg i : pres R (rg i). Proof. apply pres_gets. typeclasses eauto. Qed.
  Lemma nf_bd i : pres R (bd i). Proof. apply pres_gets. typeclasses eauto. Qed.
  Hint Resolve nf_upd_bound nf_nd nf_rg nf_bd : pres.
  Ltac go f := intros; unfold f; tauto1.
  Lemma nf_node_point i : pres R (node_point i). Proof. go node_point. Qed.
  Lemma nf_next_of i : pres R (next_of i). Proof. go next_of. Qed.
  Lemma nf_prev_of i : pres R (prev_of i). Proof. go prev_of. Qed.
  Lemma nf_node_eq i j : pres R (node_eq i j). Proof. go node_eq. Qed.
  Hint Resolve nf_node_point nf_next_of nf_prev_of nf_node_eq : pres.
  Lemma nf_node_eq_opt i j : pres R (node_eq_opt i j). Proof. go node_eq_opt. Qed.
  Lemma nf_children_of o : pres R (children_of o). Proof. go children_of. Qed.
  Hint Resolve nf_node_eq_opt nf_children_of : pres.
  (** PointNodeM *)
  Lemma nf_iter_nodes fuel i body : (forall n, pres R (body n)) -> pres R (iter_nodes fuel i body).
  Proof. intros H. unfold iter_nodes. tauto1. Qed.
  Lemma nf_collect fuel d i : pres R (collect fuel d i). Proof. go collect. Qed.
  Lemma nf_node_stats fuel i : pres R (node_stats fuel i). Proof. go node_stats. Qed.
  Lemma nf_points_slope i j : pres R (points_slope i j). Proof. go points_slope. Qed.
  Lemma nf_skip_equal fuel d i : pres R (skip_equal fuel d i). Proof. go skip_equal. Qed.
  Hint Resolve nf_collect nf_node_stats nf_points_slope nf_skip_equal : pres.
  Lemma nf_is_bottom_to fuel i j : pres R (is_bottom_to fuel i j). Proof. go is_bottom_to. Qed.
  Lemma nf_bottom_scan fuel i : pres R (bottom_scan fuel i). Proof. go bottom_scan. Qed.
  Lemma nf_skip_to_equal fuel i j : pres R (skip_to_equal fuel i j). Proof. go skip_to_equal. Qed.
  Hint Resolve nf_is_bottom_to nf_bottom_scan nf_skip_to_equal : pres.
  Lemma nf_bottom_node fuel i : pres R (bottom_node fuel i). Proof. go bottom_node. Qed.
  Lemma nf_pip fuel p i : pres R (point_in_polygon fuel p i). Proof. go point_in_polygon. Qed.
  Lemma nf_points_centroid i : pres R (points_centroid i). Proof. go points_centroid. Qed.
  Lemma nf_node_eq_opts i j : pres R (node_eq_opts i j). Proof. go node_eq_opts. Qed.
  Hint Resolve nf_bottom_node nf_pip nf_points_centroid nf_node_eq_opts : pres.
  Lemma nf_has_collinear_edge i j : pres R (has_collinear_edge i j). Proof. go has_collinear_edge. Qed.
  Lemma nf_slide fuel d i j k : pres R (slide fuel d i j k). Proof. go slide. Qed.
  Hint Resolve nf_has_collinear_edge nf_slide : pres.
  Lemma nf_collinear_search fuel i j : pres R (collinear_search fuel i j). Proof. go collinear_search. Qed.
  Lemma nf_skip_repeats fuel d b i j : pres R (skip_repeats fuel d b i j). Proof. go skip_repeats. Qed.
  Hint Resolve nf_collinear_search nf_skip_repeats : pres.
  Lemma nf_collinear_path fuel i j : pres R (collinear_path fuel i j). Proof. go collinear_path. Qed.
  Hint Resolve nf_collinear_path : pres.
  (** RingM *)
  Lemma nf_set_stats r s : pres R (set_stats r s). Proof. go set_stats. Qed.
  Lemma nf_reset_stats r : pres R (reset_stats r). Proof. go reset_stats. Qed.
  Hint Resolve nf_set_stats nf_reset_stats : pres.
  Lemma nf_iter_children fuel o body :
    (forall k r, pres R (body k r)) -> pres R (iter_children fuel o body).
  Proof. intros H. unfold iter_children. tauto1. Qed.
  Lemma nf_recalculate_stats fuel r : pres R (recalculate_stats fuel r). Proof. go recalculate_stats. Qed.
  Hint Resolve nf_recalculate_stats : pres.
  Lemma nf_ensure_stats fuel r : pres R (ensure_stats fuel r). Proof. go ensure_stats. Qed.
  Hint Resolve nf_ensure_stats : pres.
  Lemma nf_ring_area fuel r : pres R (ring_area fuel r). Proof. go ring_area. Qed.
  Lemma nf_ring_is_hole fuel r : pres R (ring_is_hole fuel r). Proof. go ring_is_hole. Qed.
  Lemma nf_ring_size fuel r : pres R (ring_size fuel r). Proof. go ring_size. Qed.
  Lemma nf_ring_depth fuel r : pres R (ring_depth fuel r). Proof. go ring_depth. Qed.
  Lemma nf_is_descendant_of fuel r o : pres R (is_descendant_of fuel r o). Proof. go is_descendant_of. Qed.
  Lemma nf_with_points l : pres R (with_points l). Proof. go with_points. Qed.
  Hint Resolve nf_ring_area nf_ring_is_hole nf_ring_size nf_ring_depth nf_is_descendant_of nf_with_points : pres.
  Lemma nf_sorted_nodes fuel r : pres R (sorted_nodes fuel r).
  Proof. unfold sorted_nodes, nodes_list. tauto1. Qed.
  Lemma nf_ensure_bottom fuel r : pres R (ensure_bottom fuel r). Proof. go ensure_bottom. Qed.
  Hint Resolve nf_sorted_nodes nf_ensure_bottom : pres.
  Lemma nf_lowermost_ring fuel r o : pres R (lowermost_ring fuel r o). Proof. go lowermost_ring. Qed.
  Lemma nf_is_convex fuel i : pres R (is_convex fuel i). Proof. go is_convex. Qed.
  Hint Resolve nf_lowermost_ring nf_is_convex : pres.
  Lemma nf_special fuel i j : pres R (inside_or_outside_special fuel i j).
  Proof. unfold inside_or_outside_special. tauto1. Qed.
  Hint Resolve nf_special : pres.
  Lemma nf_inside_of fuel r o : pres R (inside_of fuel r o). Proof. go inside_of. Qed.
  Lemma nf_orientation_clash fuel r o : pres R (orientation_clash fuel r o). Proof. go orientation_clash. Qed.
  Hint Resolve nf_inside_of nf_orientation_clash : pres.
  (** TopologyM *)
  Lemma nf_for_repeats l f : (forall a b, pres R (f a b)) -> pres R (for_repeats l f).
  Proof. intros H. unfold for_repeats. tauto1. Qed.
  Lemma nf_node_lt fuel i j : pres R (node_lt fuel i j). Proof. go node_lt. Qed.
  Hint Resolve nf_node_lt : pres.
  Lemma nf_sort_all_nodes fuel : pres R (sort_all_nodes fuel).
  Proof. unfold sort_all_nodes. repeat first [progress pres_step|prim1]. Qed.
  Lemma nf_ring_lt fuel i j : pres R (ring_lt fuel i j). Proof. go ring_lt. Qed.
  Hint Resolve nf_ring_lt nf_sort_all_nodes : pres.
  Lemma nf_sorted_rings fuel : pres R (sorted_rings fuel). Proof. go sorted_rings. Qed.
  Lemma nf_reversed_sorted_rings fuel : pres R (reversed_sorted_rings fuel).
  Proof. unfold reversed_sorted_rings, py_sort_rev. tauto1. Qed.
  Hint Resolve nf_sorted_rings nf_reversed_sorted_rings : pres.
  Lemma nf_forM_acc {A B} (l : list A) (f : A -> B -> prog B) b :
    (forall a b, pres R (f a b)) -> pres R (forM_acc l f b).
  Proof.
    intros H. unfold forM_acc. revert b. induction l as [|a l IH]; intros b; [apply pres_ret; typeclasses eauto|].
    apply pres_bind; [typeclasses eauto|apply H|]. intros b'. apply IH.
  Qed.
  Lemma nf_usable_ring fuel r : pres R (usable_ring fuel r). Proof. go usable_ring. Qed.
  Lemma nf_filterM {A} (p : A -> prog bool) l : (forall a, pres R (p a)) -> pres R (filterM p l).
  Proof. intros H. induction l as [|a l IH]; cbn [filterM]; tauto1. Qed.
  Lemma nf_positive_area fuel r : pres R (positive_area fuel r). Proof. go positive_area. Qed.
  Hint Resolve nf_usable_ring nf_positive_area : pres.
  Lemma nf_conn_get r : pres R (conn_get r). Proof. go conn_get. Qed.
  Hint Resolve nf_conn_get : pres.
  Lemma nf_loop_scan fuel a b c d e l : pres R (loop_scan fuel a b c d e l).
  Proof. induction l as [|[x y] l IH]; cbn [loop_scan]; tauto1. Qed.
  Hint Resolve nf_loop_scan : pres.
  Lemma nf_direct_scan a b l : pres R (direct_scan a b l).
  Proof. induction l as [|[x y] l IH]; cbn [direct_scan]; tauto1. Qed.
  Hint Resolve nf_direct_scan : pres.
  Lemma nf_origin_swap fuel a b c l : pres R (origin_swap fuel a b c l).
  Proof. induction l as [|[r [x y]] l IH]; cbn [origin_swap]; tauto1. Qed.
  Lemma nf_moved_pairs fuel l : pres R (moved_pairs fuel l).
  Proof. induction l as [|[x y] l IH]; cbn [moved_pairs]; tauto1. Qed.
  Lemma nf_origin_pairs fuel r l : pres R (origin_pairs fuel r l).
  Proof. induction l as [|[x y] l IH]; cbn [origin_pairs]; tauto1. Qed.
  Hint Resolve nf_origin_swap nf_moved_pairs nf_origin_pairs : pres.
  Lemma nf_set_children o l : pres R (set_children o l). Proof. go set_children. Qed.
  Hint Resolve nf_set_children : pres.
  Lemma nf_remove_from_children r o : pres R (remove_from_children r o). Proof. go remove_from_children. Qed.
  Lemma nf_set_to_children r o : pres R (set_to_children r o). Proof. go set_to_children. Qed.
  Lemma nf_clear_child_at o k : pres R (clear_child_at o k). Proof. go clear_child_at. Qed.
  Hint Resolve nf_remove_from_children nf_set_to_children nf_clear_child_at : pres.
  Lemma nf_assign_as_child fuel r p : pres R (assign_as_child fuel r p). Proof. go assign_as_child. Qed.
  Lemma nf_assign_as_sibling fuel r p : pres R (assign_as_sibling fuel r p). Proof. go assign_as_sibling. Qed.
  Lemma nf_reassign_as_child fuel r p : pres R (reassign_as_child fuel r p). Proof. go reassign_as_child. Qed.
  Hint Resolve nf_assign_as_child nf_assign_as_sibling nf_reassign_as_child : pres.
  Lemma nf_reassign_children fuel r o l : pres R (reassign_children_if_necessary fuel r o l).
  Proof. unfold reassign_children_if_necessary. apply nf_iter_children. tauto1. Qed.
  Lemma nf_find_parent_in_tree fuel d : forall r p, pres R (find_parent_in_tree fuel d r p).
  Proof. induction d as [|d IH]; intros r p; cbn [find_parent_in_tree]; tauto1. Qed.
  Hint Resolve nf_reassign_children nf_find_parent_in_tree : pres.
  Lemma nf_find_parent fuel r l : pres R (find_parent fuel r l).
  Proof. induction l as [|q l IH]; cbn [find_parent]; tauto1. Qed.
  Lemma nf_give_children fuel o r : pres R (give_children fuel o r).
  Proof. unfold give_children. apply nf_iter_children. tauto1. Qed.
  Lemma nf_try_prev_ring fuel a b c l q : pres R (try_prev_ring fuel a b c l q). Proof. go try_prev_ring. Qed.
  Hint Resolve nf_find_parent nf_give_children nf_try_prev_ring : pres.
  Lemma nf_place_new_ring fuel a b l m q : pres R (place_new_ring fuel a b l m q). Proof. go place_new_ring. Qed.
  Hint Resolve nf_place_new_ring : pres.
  Lemma nf_place_new_rings fuel a b l m : forall k, pres R (place_new_rings fuel a b l k m).
  Proof. induction m as [|q m IH]; intros k; cbn [place_new_rings]; tauto1. Qed.
  Hint Resolve nf_place_new_rings : pres.
  Lemma nf_assign_new_ring_parents fuel r l : pres R (assign_new_ring_parents fuel r l).
  Proof.
    unfold assign_new_ring_parents. apply pres_bind; [typeclasses eauto|apply nf_filterM; tauto1|]. intros [|a [|b m]]; [tauto1|tauto1|].
    apply pres_bind; [typeclasses eauto|tauto1|]. intros op. apply pres_bind; [typeclasses eauto| |tauto1].
    apply pres_bind; [typeclasses eauto|tauto1|]. intros a0. apply pres_bind; [typeclasses eauto| |tauto1].
    apply pres_bind; [typeclasses eauto|tauto1|]. intros a1. apply pres_bind; [typeclasses eauto| |tauto1].
    induction m as [|x m IH]; [tauto1|]. apply pres_bind; [typeclasses eauto|tauto1|]. intros a2.
    apply pres_bind; [typeclasses eauto|exact IH|tauto1].
  Qed.
  Hint Resolve nf_assign_new_ring_parents : pres.
  Lemma nf_set_hole_state i : pres R (set_hole_state i). Proof. go set_hole_state. Qed.
  Hint Resolve nf_set_hole_state : pres.
  (** the sweep *)
  Lemma nf_abl_get k : pres R (abl_get k). Proof. go abl_get. Qed.
  Hint Resolve nf_abl_get : pres.
  Lemma nf_abl_bound k : pres R (abl_bound k). Proof. go abl_bound. Qed.
  Lemma nf_abl_set k o : pres R (abl_set k o). Proof. go abl_set. Qed.
  Hint Resolve nf_abl_bound nf_abl_set : pres.
  Lemma nf_abl_swap k o : pres R (abl_swap k o). Proof. go abl_swap. Qed.
  Lemma nf_abl_compact : pres R abl_compact. Proof. go abl_compact. Qed.
  Lemma nf_current_edge i : pres R (current_edge i). Proof. go current_edge. Qed.
  Lemma nf_next_edge i : pres R (next_edge i). Proof. go next_edge. Qed.
  Lemma nf_push_hp p : pres R (push_hp p). Proof. go push_hp. Qed.
  Lemma nf_insort_scan p : pres R (insort_scan p). Proof. go insort_scan. Qed.
  Hint Resolve nf_abl_swap nf_abl_compact nf_current_edge nf_next_edge nf_push_hp nf_insort_scan : pres.
  Lemma nf_set_winding_count a b k : pres R (set_winding_count a b k).
  Proof. unfold set_winding_count. tauto1. Qed.
  Lemma nf_is_intermediate i y : pres R (is_intermediate i y). Proof. go is_intermediate. Qed.
  Lemma nf_is_maxima i y : pres R (is_maxima i y). Proof. go is_maxima. Qed.
  Lemma nf_to_next_edge i : pres R (to_next_edge i). Proof. go to_next_edge. Qed.
  Lemma nf_insert_bound_into_abl i j : pres R (insert_bound_into_abl i j). Proof. go insert_bound_into_abl. Qed.
  Lemma nf_intersection_compare i j : pres R (intersection_compare i j). Proof. go intersection_compare. Qed.
  Hint Resolve nf_set_winding_count nf_is_intermediate nf_is_maxima nf_to_next_edge nf_insert_bound_into_abl nf_intersection_compare : pres.
  Lemma nf_update_current_x y : pres R (update_current_x y).
  Proof. unfold update_current_x. tauto1. Qed.
  Lemma nf_init_bound i s : pres R (init_bound i s). Proof. go init_bound. Qed.
  Hint Resolve nf_update_current_x nf_init_bound : pres.
  Lemma nf_initialize m : pres R (initialize m). Proof. go initialize. Qed.
  Lemma nf_abl_ids : pres R abl_ids. Proof. go abl_ids. Qed.
  Lemma nf_hot_pixels_on_swap i j : pres R (hot_pixels_on_swap i j). Proof. go hot_pixels_on_swap. Qed.
  Hint Resolve nf_initialize nf_abl_ids nf_hot_pixels_on_swap : pres.
  Lemma nf_phpi fuel y : pres R (process_hot_pixel_intersections fuel y).
  Proof. go process_hot_pixel_intersections. Qed.
  Lemma nf_start_bound i : pres R (start_bound i). Proof. go start_bound. Qed.
  Hint Resolve nf_phpi nf_start_bound : pres.
  Lemma nf_insert_minima_hp fuel y ms k : pres R (insert_minima_hot_pixel fuel y ms k).
  Proof. go insert_minima_hot_pixel. Qed.
  Lemma nf_shift_bound y d i idx : forall k, pres R (shift_bound y d i k idx).
  Proof. induction idx as [|j idx IH]; intros k; cbn [shift_bound]; tauto1. Qed.
  Hint Resolve nf_insert_minima_hp nf_shift_bound : pres.
  Lemma nf_horizontals_at_top y k : pres R (horizontals_at_top_scanbeam y k).
  Proof. go horizontals_at_top_scanbeam. Qed.
  Hint Resolve nf_horizontals_at_top : pres.
  Lemma nf_hot_pixel_edges_of fuel y i k : pres R (hot_pixel_edges_of fuel y i k).
  Proof. go hot_pixel_edges_of. Qed.
  Hint Resolve nf_hot_pixel_edges_of : pres.
  Lemma nf_process_hot_pixel_edges fuel y : pres R (process_hot_pixel_edges fuel y).
  Proof. go process_hot_pixel_edges. Qed.
  Lemma nf_sort_hot_pixels fuel : pres R (sort_hot_pixels fuel). Proof. go sort_hot_pixels. Qed.
  Lemma nf_pop_scanbeam y : pres R (pop_scanbeam y). Proof. go pop_scanbeam. Qed.
  Lemma nf_sweep_pending ms k : pres R (sweep_pending ms k). Proof. go sweep_pending. Qed.
  Hint Resolve nf_process_hot_pixel_edges nf_sort_hot_pixels nf_pop_scanbeam nf_sweep_pending : pres.
  Lemma nf_build_hot_pixels fuel ms : pres R (build_hot_pixels fuel ms).
  Proof. go build_hot_pixels. Qed.
  Hint Resolve nf_build_hot_pixels : pres.
  Lemma nf_swap_sides i j : pres R (swap_sides i j). Proof. go swap_sides. Qed.
  Lemma nf_swap_rings i j : pres R (swap_rings i j). Proof. go swap_rings. Qed.
  Hint Resolve nf_swap_sides nf_swap_rings : pres.
  Lemma nf_in_lt a b : pres R (in_lt a b). Proof. go in_lt. Qed.
  Lemma nf_build_intersect_list fuel : pres R (build_intersect_list fuel).
  Proof.
    intros s l s' E. unfold build_intersect_list in E.
    destruct (abl_ids s) as [[ids t]| |]; try discriminate.
    match type of E with match ?x with _ => _ end = _ => destruct x as [[? ?]| |] end; try discriminate.
    injection E as <- <-. apply R_refl.
  Qed.
  Hint Resolve nf_in_lt nf_build_intersect_list : pres.
  Lemma nf_update_hpi fuel y : pres R (update_current_hot_pixel_index fuel y).
  Proof. go update_current_hot_pixel_index. Qed.
  Hint Resolve nf_update_hpi : pres.
End Frame.
#[export] Hint Resolve nf_upd_bound nf_nd nf_rg nf_bd nf_node_point nf_next_of nf_prev_of nf_node_eq nf_node_eq_opt nf_children_of nf_collect nf_node_stats nf_points_slope nf_skip_equal nf_is_bottom_to nf_bottom_scan nf_skip_to_equal nf_bottom_node nf_pip nf_points_centroid nf_node_eq_opts nf_has_collinear_edge nf_slide nf_collinear_search nf_skip_repeats nf_collinear_path nf_set_stats nf_reset_stats nf_recalculate_stats nf_ensure_stats nf_ring_area nf_ring_is_hole nf_ring_size nf_ring_depth nf_is_descendant_of nf_with_points nf_sorted_nodes nf_ensure_bottom nf_lowermost_ring nf_is_convex nf_special nf_inside_of nf_orientation_clash nf_node_lt nf_sort_all_nodes nf_ring_lt nf_sorted_rings nf_reversed_sorted_rings nf_usable_ring nf_positive_area nf_conn_get nf_loop_scan nf_direct_scan nf_origin_swap nf_moved_pairs nf_origin_pairs nf_set_children nf_remove_from_children nf_set_to_children nf_clear_child_at nf_assign_as_child nf_assign_as_sibling nf_reassign_as_child nf_reassign_children nf_find_parent_in_tree nf_find_parent nf_give_children nf_try_prev_ring nf_place_new_ring nf_place_new_rings nf_assign_new_ring_parents nf_set_hole_state nf_abl_get nf_abl_bound nf_abl_set nf_abl_swap nf_abl_compact nf_current_edge nf_next_edge nf_push_hp nf_insort_scan nf_set_winding_count nf_is_intermediate nf_is_maxima nf_to_next_edge nf_insert_bound_into_abl nf_intersection_compare nf_update_current_x nf_init_bound nf_initialize nf_abl_ids nf_hot_pixels_on_swap nf_phpi nf_start_bound nf_insert_minima_hp nf_shift_bound nf_horizontals_at_top nf_hot_pixel_edges_of nf_process_hot_pixel_edges nf_sort_hot_pixels nf_pop_scanbeam nf_sweep_pending nf_build_hot_pixels nf_swap_sides nf_swap_rings nf_in_lt nf_build_intersect_list nf_update_hpi : pres.
