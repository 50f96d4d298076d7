(** * The ring tree through [execute]: parent links and lists of children agree *)
From Coq Require Import ZArith List Bool Lia FMapPositive Permutation.
From Coq Require Import Floats.SpecFloat.
From RecordUpdate Require Import RecordSet.
From Verif Require Import Py Monad Utils Geometry LinearRingM BoundM LocalMinimumM
     StateM PointNodeM RingM SweepM TopologyM WagyuM HoareP SweepFrameP CalmP OrderP PointersP VatP SpecTree.
Import ListNotations RecordSetNotations.
Open Scope Z_scope.

(** nothing of the tree changes *)
Definition same_tree (s s' : st) : Prop :=
  s_children s' = s_children s /\ s_rnext s' = s_rnext s /\
  forall r, parent_of s' r = parent_of s r /\ kids s' (Some r) = kids s (Some r).
#[export] Instance same_tree_pre : PreOrd same_tree.
Proof.
  split; [repeat split|]. intros s1 s2 s3 (A1&A2&A3) (B1&B2&B3).
  repeat split; try congruence; destruct (A3 r), (B3 r); congruence.
Qed.
Class TreeRel (R : st -> st -> Prop) : Prop := {
  tr_pre :> PreOrd R;
  tr_sub : forall s s', same_tree s s' -> R s s'
}.
#[export] Instance same_tree_rel : TreeRel same_tree.
Proof. split; [apply same_tree_pre|auto]. Qed.

Section Frame.
  Context (R : st -> st -> Prop) {HR : TreeRel R}.
  Ltac prim := apply pres_modify; intros ?; apply tr_sub; repeat split.
  Lemma ut_upd_node i f : pres R (upd_node i f). Proof. prim. Qed.
  Lemma ut_upd_bound i f : pres R (upd_bound i f). Proof. prim. Qed.
  Lemma ut_upd_ring i f :
    (forall x, r_parent (f x) = r_parent x) -> (forall x, r_children (f x) = r_children x) ->
    pres R (upd_ring i f).
  Proof.
    intros Hp Hc. apply pres_modify. intros s. apply tr_sub. split; [reflexivity|split; [reflexivity|]].
    intros r. unfold parent_of, kids, the_ring. cbn. rewrite !hget_hset.
    destruct (Pos.eqb_spec i r) as [->|_]; [split; [apply Hp|apply Hc]|split; reflexivity].
  Qed.
  Ltac prim1 := first [apply ut_upd_ring; intros; reflexivity|prim].
  Ltac tauto1 := repeat first [progress pres_step|prim1].
  Lemma ut_nd i : pres R (nd i). Proof. apply pres_gets. typeclasses eauto. Qed.
  Lemma ut_rg i : pres R (rg i). Proof. apply pres_gets. typeclasses eauto. Qed.
  Lemma ut_bd i : pres R (bd i). Proof. apply pres_gets. typeclasses eauto. Qed.
  Hint Resolve ut_upd_node ut_upd_bound ut_nd ut_rg ut_bd : pres.
  Ltac go f := intros; unfold f; tauto1.
  Lemma ut_node_point i : pres R (node_point i). Proof. go node_point. Qed.
  Lemma ut_next_of i : pres R (next_of i). Proof. go next_of. Qed.
  Lemma ut_prev_of i : pres R (prev_of i). Proof. go prev_of. Qed.
  Lemma ut_set_next i o : pres R (set_next i o). Proof. go set_next. Qed.
  Lemma ut_set_prev i o : pres R (set_prev i o). Proof. go set_prev. Qed.
  Lemma ut_set_nring i o : pres R (set_nring i o). Proof. go set_nring. Qed.
  Lemma ut_node_eq i j : pres R (node_eq i j). Proof. go node_eq. Qed.
  Hint Resolve ut_node_point ut_next_of ut_prev_of ut_set_next ut_set_prev ut_set_nring ut_node_eq : pres.
  Lemma ut_node_eq_opt i j : pres R (node_eq_opt i j). Proof. go node_eq_opt. Qed.
  Lemma ut_children_of o : pres R (children_of o). Proof. go children_of. Qed.
  Hint Resolve ut_node_eq_opt ut_children_of : pres.
  (** PointNodeM *)
  Lemma ut_iter_nodes fuel i body : (forall n, pres R (body n)) -> pres R (iter_nodes fuel i body).
  Proof. intros H. unfold iter_nodes. tauto1. Qed.
  Lemma ut_collect fuel d i : pres R (collect fuel d i). Proof. go collect. Qed.
  Lemma ut_reverse_nodes fuel i : pres R (reverse_nodes fuel i).
  Proof. unfold reverse_nodes. apply ut_iter_nodes. intros; auto with pres. Qed.
  Lemma ut_place_before i o : pres R (place_before i o). Proof. go place_before. Qed.
  Lemma ut_node_stats fuel i : pres R (node_stats fuel i). Proof. go node_stats. Qed.
  Lemma ut_points_slope i j : pres R (points_slope i j). Proof. go points_slope. Qed.
  Lemma ut_skip_equal fuel d i : pres R (skip_equal fuel d i). Proof. go skip_equal. Qed.
  Hint Resolve ut_collect ut_reverse_nodes ut_place_before ut_node_stats ut_points_slope ut_skip_equal : pres.
  Lemma ut_is_bottom_to fuel i j : pres R (is_bottom_to fuel i j). Proof. go is_bottom_to. Qed.
  Lemma ut_bottom_scan fuel i : pres R (bottom_scan fuel i). Proof. go bottom_scan. Qed.
  Lemma ut_skip_to_equal fuel i j : pres R (skip_to_equal fuel i j). Proof. go skip_to_equal. Qed.
  Hint Resolve ut_is_bottom_to ut_bottom_scan ut_skip_to_equal : pres.
  Lemma ut_bottom_node fuel i : pres R (bottom_node fuel i). Proof. go bottom_node. Qed.
  Lemma ut_pip fuel p i : pres R (point_in_polygon fuel p i). Proof. go point_in_polygon. Qed.
  Lemma ut_points_centroid i : pres R (points_centroid i). Proof. go points_centroid. Qed.
  Lemma ut_node_eq_opts i j : pres R (node_eq_opts i j). Proof. go node_eq_opts. Qed.
  Hint Resolve ut_bottom_node ut_pip ut_points_centroid ut_node_eq_opts : pres.
  Lemma ut_has_collinear_edge i j : pres R (has_collinear_edge i j). Proof. go has_collinear_edge. Qed.
  Lemma ut_slide fuel d i j k : pres R (slide fuel d i j k). Proof. go slide. Qed.
  Hint Resolve ut_has_collinear_edge ut_slide : pres.
  Lemma ut_collinear_search fuel i j : pres R (collinear_search fuel i j). Proof. go collinear_search. Qed.
  Lemma ut_skip_repeats fuel d b i j : pres R (skip_repeats fuel d b i j). Proof. go skip_repeats. Qed.
  Hint Resolve ut_collinear_search ut_skip_repeats : pres.
  Lemma ut_collinear_path fuel i j : pres R (collinear_path fuel i j). Proof. go collinear_path. Qed.
  Lemma ut_detach i : pres R (detach i). Proof. go detach. Qed.
  Hint Resolve ut_collinear_path ut_detach : pres.
  Lemma ut_detach_until fuel i j : pres R (detach_until fuel i j). Proof. go detach_until. Qed.
  Lemma ut_detach_do fuel i j : pres R (detach_do fuel i j). Proof. go detach_do. Qed.
  Lemma ut_link i j : pres R (link i j). Proof. go link. Qed.
  Hint Resolve ut_detach_until ut_detach_do ut_link : pres.
  Lemma ut_fix_collinear_path fuel p : pres R (fix_collinear_path fuel p).
  Proof. unfold fix_collinear_path. tauto1. Qed.
  Hint Resolve ut_fix_collinear_path : pres.
  (** RingM *)
  Lemma ut_set_stats r s : pres R (set_stats r s). Proof. go set_stats. Qed.
  Lemma ut_reset_stats r : pres R (reset_stats r). Proof. go reset_stats. Qed.
  Hint Resolve ut_set_stats ut_reset_stats : pres.
  Lemma ut_create_point_node r p b : pres R (create_point_node r p b).
  Proof. unfold create_point_node. repeat first [progress pres_step|prim1]. Qed.
  Lemma ut_iter_children fuel o body :
    (forall k r, pres R (body k r)) -> pres R (iter_children fuel o body).
  Proof. intros H. unfold iter_children. tauto1. Qed.
  Hint Resolve ut_create_point_node : pres.
  Lemma ut_recalculate_stats fuel r : pres R (recalculate_stats fuel r). Proof. go recalculate_stats. Qed.
  Hint Resolve ut_recalculate_stats : pres.
  Lemma ut_ensure_stats fuel r : pres R (ensure_stats fuel r). Proof. go ensure_stats. Qed.
  Hint Resolve ut_ensure_stats : pres.
  Lemma ut_ring_area fuel r : pres R (ring_area fuel r). Proof. go ring_area. Qed.
  Lemma ut_ring_is_hole fuel r : pres R (ring_is_hole fuel r). Proof. go ring_is_hole. Qed.
  Lemma ut_ring_size fuel r : pres R (ring_size fuel r). Proof. go ring_size. Qed.
  Lemma ut_ring_depth fuel r : pres R (ring_depth fuel r). Proof. go ring_depth. Qed.
  Lemma ut_is_descendant_of fuel r o : pres R (is_descendant_of fuel r o). Proof. go is_descendant_of. Qed.
  Lemma ut_update_points fuel r : pres R (update_points fuel r).
  Proof. unfold update_points. tauto1. apply ut_iter_nodes. intros; auto with pres. Qed.
  Lemma ut_with_points l : pres R (with_points l). Proof. go with_points. Qed.
  Hint Resolve ut_ring_area ut_ring_is_hole ut_ring_size ut_ring_depth ut_is_descendant_of ut_update_points ut_with_points : pres.
  Lemma ut_sorted_nodes fuel r : pres R (sorted_nodes fuel r).
  Proof. unfold sorted_nodes, nodes_list. tauto1. Qed.
  Lemma ut_ensure_bottom fuel r : pres R (ensure_bottom fuel r). Proof. go ensure_bottom. Qed.
  Hint Resolve ut_sorted_nodes ut_ensure_bottom : pres.
  Lemma ut_lowermost_ring fuel r o : pres R (lowermost_ring fuel r o). Proof. go lowermost_ring. Qed.
  Lemma ut_is_convex fuel i : pres R (is_convex fuel i). Proof. go is_convex. Qed.
  Hint Resolve ut_lowermost_ring ut_is_convex : pres.
  Lemma ut_special fuel i j : pres R (inside_or_outside_special fuel i j).
  Proof. unfold inside_or_outside_special. tauto1. Qed.
  Hint Resolve ut_special : pres.
  Lemma ut_inside_of fuel r o : pres R (inside_of fuel r o). Proof. go inside_of. Qed.
  Lemma ut_orientation_clash fuel r o : pres R (orientation_clash fuel r o). Proof. go orientation_clash. Qed.
  Hint Resolve ut_inside_of ut_orientation_clash : pres.
  Lemma ut_clear_nodes fuel n : pres R (clear_nodes fuel n). Proof. go clear_nodes. Qed.
  Hint Resolve ut_clear_nodes : pres.
  (** TopologyM *)
  Lemma ut_for_repeats l f : (forall a b, pres R (f a b)) -> pres R (for_repeats l f).
  Proof. intros H. unfold for_repeats. tauto1. Qed.
  Lemma ut_node_lt fuel i j : pres R (node_lt fuel i j). Proof. go node_lt. Qed.
  Hint Resolve ut_node_lt : pres.
  Lemma ut_sort_all_nodes fuel : pres R (sort_all_nodes fuel).
  Proof. unfold sort_all_nodes. repeat first [progress pres_step|prim1]. Qed.
  Lemma ut_ring_lt fuel i j : pres R (ring_lt fuel i j). Proof. go ring_lt. Qed.
  Hint Resolve ut_ring_lt ut_sort_all_nodes : pres.
  Lemma ut_sorted_rings fuel : pres R (sorted_rings fuel). Proof. go sorted_rings. Qed.
  Lemma ut_reversed_sorted_rings fuel : pres R (reversed_sorted_rings fuel).
  Proof. unfold reversed_sorted_rings, py_sort_rev. tauto1. Qed.
  Hint Resolve ut_sorted_rings ut_reversed_sorted_rings : pres.
  Lemma ut_forM_acc {A B} (l : list A) (f : A -> B -> prog B) b :
    (forall a b, pres R (f a b)) -> pres R (forM_acc l f b).
  Proof.
    intros H. unfold forM_acc. revert b. induction l as [|a l IH]; intros b; [apply pres_ret; typeclasses eauto|].
    apply pres_bind; [typeclasses eauto|apply H|]. intros b'. apply IH.
  Qed.
  Lemma ut_usable_ring fuel r : pres R (usable_ring fuel r). Proof. go usable_ring. Qed.
  Lemma ut_filterM {A} (p : A -> prog bool) l : (forall a, pres R (p a)) -> pres R (filterM p l).
  Proof. intros H. induction l as [|a l IH]; cbn [filterM]; tauto1. Qed.
  Lemma ut_positive_area fuel r : pres R (positive_area fuel r). Proof. go positive_area. Qed.
  Hint Resolve ut_usable_ring ut_positive_area : pres.
  Lemma ut_unlink i j : pres R (unlink i j). Proof. go unlink. Qed.
  Hint Resolve ut_unlink : pres.
  Lemma ut_drop_next i j : pres R (drop_next i j). Proof. go drop_next. Qed.
  Lemma ut_drop_prev i j : pres R (drop_prev i j). Proof. go drop_prev. Qed.
  Lemma ut_drop_equal fuel d f i : (forall a b, pres R (f a b)) -> pres R (drop_equal fuel d f i).
  Proof. intros H. unfold drop_equal. tauto1. Qed.
  Hint Resolve ut_drop_next ut_drop_prev : pres.
  Lemma ut_conn_get r : pres R (conn_get r). Proof. go conn_get. Qed.
  Lemma ut_conn_set r l : pres R (conn_set r l). Proof. prim. Qed.
  Hint Resolve ut_conn_get ut_conn_set : pres.
  Lemma ut_conn_add r l : pres R (conn_add r l). Proof. go conn_add. Qed.
  Lemma ut_loop_scan fuel a b c d e l : pres R (loop_scan fuel a b c d e l).
  Proof. induction l as [|[x y] l IH]; cbn [loop_scan]; tauto1. Qed.
  Hint Resolve ut_conn_add ut_loop_scan : pres.
  Lemma ut_find_intersect_loop fuel d : forall a b c v e f,
    pres R (find_intersect_loop fuel d a b c v e f).
  Proof.
    induction d as [|d IH]; intros a b c v e f; cbn [find_intersect_loop]; [apply pres_nofuel|].
    apply pres_bind; [typeclasses eauto|auto with pres|]. intros prs.
    apply pres_bind; [typeclasses eauto|auto with pres|]. intros sc.
    destruct (fst sc); [tauto1|].
    apply pres_bind; [typeclasses eauto|auto with pres|]. intros u.
    match goal with |- pres _ (_ _ ?w) => generalize w end. generalize (snd sc).
    intros l. induction l as [|[o1 o2] l IHl]; intros w; tauto1.
  Qed.
  Lemma ut_direct_scan a b l : pres R (direct_scan a b l).
  Proof. induction l as [|[x y] l IH]; cbn [direct_scan]; tauto1. Qed.
  Hint Resolve ut_find_intersect_loop ut_direct_scan : pres.
  Lemma ut_chain_scan fuel a b c d l : forall v, pres R (chain_scan fuel a b c d l v).
  Proof. induction l as [|[x y] l IH]; intros v; cbn [chain_scan]; tauto1. Qed.
  Lemma ut_switch_nexts a b : pres R (switch_nexts a b). Proof. go switch_nexts. Qed.
  Lemma ut_origin_swap fuel a b c l : pres R (origin_swap fuel a b c l).
  Proof. induction l as [|[r [x y]] l IH]; cbn [origin_swap]; tauto1. Qed.
  Lemma ut_moved_pairs fuel l : pres R (moved_pairs fuel l).
  Proof. induction l as [|[x y] l IH]; cbn [moved_pairs]; tauto1. Qed.
  Lemma ut_origin_pairs fuel r l : pres R (origin_pairs fuel r l).
  Proof. induction l as [|[x y] l IH]; cbn [origin_pairs]; tauto1. Qed.
  Hint Resolve ut_chain_scan ut_switch_nexts ut_origin_swap ut_moved_pairs ut_origin_pairs : pres.

  (** the sweep *)
  Lemma us_abl_get k : pres R (abl_get k). Proof. go abl_get. Qed.
  Hint Resolve us_abl_get : pres.
  Lemma us_abl_bound k : pres R (abl_bound k). Proof. go abl_bound. Qed.
  Lemma us_abl_set k o : pres R (abl_set k o). Proof. go abl_set. Qed.
  Hint Resolve us_abl_bound us_abl_set : pres.
  Lemma us_abl_swap k o : pres R (abl_swap k o). Proof. go abl_swap. Qed.
  Lemma us_abl_compact : pres R abl_compact. Proof. go abl_compact. Qed.
  Lemma us_current_edge i : pres R (current_edge i). Proof. go current_edge. Qed.
  Lemma us_next_edge i : pres R (next_edge i). Proof. go next_edge. Qed.
  Lemma us_push_hp p : pres R (push_hp p). Proof. go push_hp. Qed.
  Lemma us_insort_scan p : pres R (insort_scan p). Proof. go insort_scan. Qed.
  Hint Resolve us_abl_swap us_abl_compact us_current_edge us_next_edge us_push_hp us_insort_scan : pres.
  Lemma us_set_winding_count a b k : pres R (set_winding_count a b k).
  Proof. unfold set_winding_count. tauto1. Qed.
  Lemma us_is_intermediate i y : pres R (is_intermediate i y). Proof. go is_intermediate. Qed.
  Lemma us_is_maxima i y : pres R (is_maxima i y). Proof. go is_maxima. Qed.
  Lemma us_to_next_edge i : pres R (to_next_edge i). Proof. go to_next_edge. Qed.
  Lemma us_insert_bound_into_abl i j : pres R (insert_bound_into_abl i j). Proof. go insert_bound_into_abl. Qed.
  Lemma us_intersection_compare i j : pres R (intersection_compare i j). Proof. go intersection_compare. Qed.
  Hint Resolve us_set_winding_count us_is_intermediate us_is_maxima us_to_next_edge us_insert_bound_into_abl us_intersection_compare : pres.
  Lemma us_update_current_x y : pres R (update_current_x y).
  Proof. unfold update_current_x. tauto1. Qed.
  Lemma us_init_bound i s : pres R (init_bound i s). Proof. go init_bound. Qed.
  Hint Resolve us_update_current_x us_init_bound : pres.
  Lemma us_initialize m : pres R (initialize m). Proof. go initialize. Qed.
  Lemma us_abl_ids : pres R abl_ids. Proof. go abl_ids. Qed.
  Lemma us_hot_pixels_on_swap i j : pres R (hot_pixels_on_swap i j). Proof. go hot_pixels_on_swap. Qed.
  Hint Resolve us_initialize us_abl_ids us_hot_pixels_on_swap : pres.
  Lemma us_phpi fuel y : pres R (process_hot_pixel_intersections fuel y).
  Proof. go process_hot_pixel_intersections. Qed.
  Lemma us_start_bound i : pres R (start_bound i). Proof. go start_bound. Qed.
  Hint Resolve us_phpi us_start_bound : pres.
  Lemma us_insert_minima_hp fuel y ms k : pres R (insert_minima_hot_pixel fuel y ms k).
  Proof. go insert_minima_hot_pixel. Qed.
  Lemma us_shift_bound y d i idx : forall k, pres R (shift_bound y d i k idx).
  Proof. induction idx as [|j idx IH]; intros k; cbn [shift_bound]; tauto1. Qed.
  Hint Resolve us_insert_minima_hp us_shift_bound : pres.
  Lemma us_horizontals_at_top y k : pres R (horizontals_at_top_scanbeam y k).
  Proof. go horizontals_at_top_scanbeam. Qed.
  Hint Resolve us_horizontals_at_top : pres.
  Lemma us_hot_pixel_edges_of fuel y i k : pres R (hot_pixel_edges_of fuel y i k).
  Proof. go hot_pixel_edges_of. Qed.
  Hint Resolve us_hot_pixel_edges_of : pres.
  Lemma us_process_hot_pixel_edges fuel y : pres R (process_hot_pixel_edges fuel y).
  Proof. go process_hot_pixel_edges. Qed.
  Lemma us_sort_hot_pixels fuel : pres R (sort_hot_pixels fuel). Proof. go sort_hot_pixels. Qed.
  Lemma us_pop_scanbeam y : pres R (pop_scanbeam y). Proof. go pop_scanbeam. Qed.
  Lemma us_sweep_pending ms k : pres R (sweep_pending ms k). Proof. go sweep_pending. Qed.
  Hint Resolve us_process_hot_pixel_edges us_sort_hot_pixels us_pop_scanbeam us_sweep_pending : pres.
  Lemma us_build_hot_pixels fuel ms : pres R (build_hot_pixels fuel ms).
  Proof. go build_hot_pixels. Qed.
  Hint Resolve us_build_hot_pixels : pres.
  Lemma us_put_point i p : pres R (put_point i p). Proof. go put_point. Qed.
  Hint Resolve us_put_point : pres.
  Lemma us_hot_pixel_walk i x a sk sp l : pres R (hot_pixel_walk i x a sk sp l).
  Proof. induction l as [|h l IH]; cbn [hot_pixel_walk]; tauto1. Qed.
  Hint Resolve us_hot_pixel_walk : pres.
  Lemma us_hp_ltr y a b i g e : pres R (hot_pixel_set_left_to_right y a b i g e).
  Proof. go hot_pixel_set_left_to_right. Qed.
  Lemma us_hp_rtl y a b i g e : pres R (hot_pixel_set_right_to_left y a b i g e).
  Proof. go hot_pixel_set_right_to_left. Qed.
  Hint Resolve us_hp_ltr us_hp_rtl : pres.
  Lemma us_insert_hp i p e : pres R (insert_hot_pixels_in_path i p e).
  Proof. go insert_hot_pixels_in_path. Qed.
  Hint Resolve us_insert_hp : pres.
  Lemma us_add_point_to_ring i p : pres R (add_point_to_ring i p). Proof. go add_point_to_ring. Qed.
  Hint Resolve us_add_point_to_ring : pres.
  Lemma us_join fuel a b c d : pres R (join_chains fuel a b c d). Proof. go join_chains. Qed.
  Hint Resolve us_join : pres.
  Lemma us_swap_sides i j : pres R (swap_sides i j). Proof. go swap_sides. Qed.
  Lemma us_swap_rings i j : pres R (swap_rings i j). Proof. go swap_rings. Qed.
  Hint Resolve us_swap_sides us_swap_rings : pres.
  Lemma us_in_lt a b : pres R (in_lt a b). Proof. go in_lt. Qed.
  Lemma us_build_intersect_list fuel : pres R (build_intersect_list fuel).
  Proof.
    intros s l s' E. unfold build_intersect_list in E.
    destruct (abl_ids s) as [[ids t]| |]; try discriminate.
    match type of E with match ?x with _ => _ end = _ => destruct x as [[? ?]| |] end; try discriminate.
    injection E as <- <-. apply R_refl.
  Qed.
  Hint Resolve us_in_lt us_build_intersect_list : pres.
  Lemma us_update_hpi fuel y : pres R (update_current_hot_pixel_index fuel y).
  Proof. go update_current_hot_pixel_index. Qed.
  Hint Resolve us_update_hpi : pres.
End Frame.
#[export] Hint Resolve ut_upd_node ut_upd_bound ut_nd ut_rg ut_bd
ut_node_point ut_next_of ut_prev_of ut_set_next ut_set_prev ut_set_nring ut_node_eq 
ut_node_eq_opt ut_children_of ut_collect ut_reverse_nodes ut_place_before ut_node_stats 
ut_points_slope ut_skip_equal ut_is_bottom_to ut_bottom_scan ut_skip_to_equal 
ut_bottom_node ut_pip ut_points_centroid ut_node_eq_opts ut_has_collinear_edge ut_slide 
ut_collinear_search ut_skip_repeats ut_collinear_path ut_detach ut_detach_until 
ut_detach_do ut_link ut_fix_collinear_path ut_set_stats ut_reset_stats 
ut_create_point_node ut_recalculate_stats ut_ensure_stats ut_ring_area ut_ring_is_hole 
ut_ring_size ut_ring_depth ut_is_descendant_of ut_update_points ut_with_points 
ut_sorted_nodes ut_ensure_bottom ut_lowermost_ring ut_is_convex ut_special ut_inside_of 
ut_orientation_clash ut_clear_nodes ut_node_lt ut_sort_all_nodes ut_ring_lt 
ut_sorted_rings ut_reversed_sorted_rings ut_usable_ring ut_positive_area ut_unlink 
ut_drop_next ut_drop_prev ut_conn_get ut_conn_set ut_conn_add ut_loop_scan 
ut_find_intersect_loop ut_direct_scan ut_chain_scan ut_switch_nexts ut_origin_swap 
ut_moved_pairs ut_origin_pairs us_abl_get us_abl_bound us_abl_set us_abl_swap us_abl_compact us_current_edge 
us_next_edge us_push_hp us_insort_scan us_set_winding_count us_is_intermediate 
us_is_maxima us_to_next_edge us_insert_bound_into_abl us_intersection_compare 
us_update_current_x us_init_bound us_initialize us_abl_ids us_hot_pixels_on_swap us_phpi 
us_start_bound us_insert_minima_hp us_shift_bound us_horizontals_at_top 
us_hot_pixel_edges_of us_process_hot_pixel_edges us_sort_hot_pixels us_pop_scanbeam 
us_sweep_pending us_build_hot_pixels us_put_point us_hot_pixel_walk us_hp_ltr us_hp_rtl 
us_insert_hp us_add_point_to_ring us_join us_swap_sides us_swap_rings us_in_lt 
us_build_intersect_list us_update_hpi : pres.

(** ** Changing one list of children *)
Definition thin (l l' : list (option rid)) : Prop :=
  forall k r, nth_error l' k = Some (Some r) -> nth_error l k = Some (Some r).
Definition added (r : rid) (l l' : list (option rid)) : Prop :=
  exists j, nth_error l' j = Some (Some r) /\
            (forall k, k <> j -> nth_error l' k = nth_error l k) /\
            (nth_error l j = None \/ nth_error l j = Some None).
Lemma in_nth {A} (a : A) l : In a l <-> exists k, nth_error l k = Some a.
Proof. split; [apply In_nth_error|]. intros (k & E). eapply nth_error_In; exact E. Qed.
Lemma thin_refl l : thin l l. Proof. intros k r E. exact E. Qed.
Lemma thin_in l l' r : thin l l' -> In (Some r) l' -> In (Some r) l.
Proof. intros T H. apply in_nth in H. destruct H as (k & E). apply in_nth. exists k. apply T. exact E. Qed.
Lemma thin_remove r l : thin l (remove_child r l).
Proof.
  induction l as [|c l IH]; intros k q; cbn [remove_child]; [trivial|].
  destruct (opt_is c (Some r)); destruct k; cbn [nth_error]; try discriminate; auto.
Qed.
Lemma thin_clear l k : thin l (upd l k None).
Proof.
  revert k. induction l as [|c l IH]; intros k j q; destruct k; cbn [upd]; try tauto.
  - destruct j; cbn; [discriminate|auto].
  - destruct j; cbn; [auto|]. apply IH.
Qed.
Lemma clear_gone (l : list (option rid)) k q : nth_error (upd l k None) k <> Some (Some q).
Proof.
  revert k. induction l as [|c l IH]; intros [|k]; cbn; try discriminate. apply IH.
Qed.
Lemma added_set r l : added r l (set_child r l).
Proof.
  induction l as [|c l IH]; cbn [set_child].
  - exists 0%nat. repeat split; auto. intros [|k] N; [congruence|]. destruct k; reflexivity.
  - destruct c as [c|].
    + destruct IH as (j & A & B & C). exists (S j). cbn. repeat split; auto.
      intros [|k] N; [reflexivity|]. cbn. apply B. congruence.
    + exists 0%nat. repeat split; auto. intros [|k] N; [congruence|]. reflexivity.
Qed.
Lemma added_app r l : added r l (l ++ [Some r]).
Proof.
  exists (length l). rewrite nth_error_app2 by auto. rewrite Nat.sub_diag. split; [reflexivity|]. split.
  - intros k N. destruct (Nat.lt_ge_cases k (length l)) as [L|L].
    + apply nth_error_app1. exact L.
    + rewrite nth_error_app2 by auto. transitivity (@None (option rid)).
      * destruct (k - length l)%nat as [|m] eqn:D; [lia|]. destruct m; reflexivity.
      * symmetry. apply nth_error_None. exact L.
  - left. apply nth_error_None. auto.
Qed.
Lemma added_in r l l' q : added r l l' -> In (Some q) l' -> q = r \/ In (Some q) l.
Proof.
  intros (j & A & B & C) H. apply in_nth in H. destruct H as (k & E).
  destruct (Nat.eq_dec k j) as [->|N]; [left; congruence|]. right. apply in_nth. exists k.
  rewrite <- B; assumption.
Qed.
Lemma added_once r l l' : added r l l' -> ~ In (Some r) l -> once r l'.
Proof.
  intros (j & A & B & C) N. exists j. split; [exact A|]. intros k E.
  destruct (Nat.eq_dec k j) as [->|D]; [reflexivity|]. exfalso. apply N. apply in_nth. exists k.
  rewrite <- B; assumption.
Qed.
Lemma added_keeps r q l l' : added r l l' -> q <> r -> once q l -> once q l'.
Proof.
  intros (j & A & B & C) N (k & E & U). exists k.
  assert (k <> j) by (intros ->; destruct C as [C|C]; rewrite C in E; discriminate).
  split; [rewrite B; assumption|]. intros k' E'. destruct (Nat.eq_dec k' j) as [->|D]; [congruence|].
  apply U. rewrite <- B; assumption.
Qed.
Lemma thin_once q l l' : thin l l' -> In (Some q) l' -> once q l -> once q l'.
Proof.
  intros T H (k & E & U). apply in_nth in H. destruct H as (k' & E'). exists k'. split; [exact E'|].
  intros k2 E2. apply T in E2, E'. rewrite (U _ E2), (U _ E'). reflexivity.
Qed.
Lemma remove_gone r l : once r l -> ~ In (Some r) (remove_child r l).
Proof.
  intros (k & E & U) H. revert k E U H. induction l as [|c l IH]; intros k E U H; [destruct k; discriminate|].
  cbn [remove_child] in H. destruct (opt_is c (Some r)) eqn:O.
  - destruct c as [c|]; [|discriminate]. cbn in O. apply Pos.eqb_eq in O. subst c.
    destruct H as [H|H]; [discriminate|]. apply in_nth in H. destruct H as (j & Ej).
    pose proof (U 0%nat eq_refl). pose proof (U (S j) Ej). lia.
  - destruct H as [->|H]; [cbn in O; rewrite Pos.eqb_refl in O; discriminate|].
    destruct k as [|k]; cbn in E; [injection E as ->; cbn in O; rewrite Pos.eqb_refl in O; discriminate|].
    apply (IH k E); [|exact H]. intros k' E'. specialize (U (S k') E'). lia.
Qed.

(** ** What may become of a tree; [X] are the rings that may become listed *)
Definition unlisted (s : st) (r : rid) : Prop := forall o, ~ listed s o r.
Definition treeX (X : rid -> Prop) (s s' : st) : Prop :=
  tree_ok s -> (forall r, X r -> (r < s_rnext s)%positive) ->
  tree_ok s' /\ (s_rnext s <= s_rnext s')%positive /\
  (forall q, ~ X q -> (q < s_rnext s)%positive -> unlisted s q -> unlisted s' q).
Definition none (r : rid) : Prop := False.
Notation treeR := (treeX none).
#[export] Instance treeX_pre X : PreOrd (treeX X).
Proof.
  split.
  - intros s T _. split; [exact T|]. split; [lia|]. auto.
  - intros s1 s2 s3 A B T F. destruct (A T F) as (T2 & L2 & U2). destruct B as (T3 & L3 & U3).
    + exact T2.
    + intros r H. specialize (F r H). lia.
    + split; [exact T3|]. split; [lia|]. intros q N L U. apply U3; [exact N|lia|]. apply U2; assumption.
Qed.
Lemma kids_same s s' o : same_tree s s' -> kids s' o = kids s o.
Proof. intros (A & _ & B). destruct o as [r|]; [apply B|exact A]. Qed.
#[export] Instance treeX_rel X : TreeRel (treeX X).
Proof.
  split; [typeclasses eauto|]. intros s s' H T F.
  pose proof (fun o => kids_same s s' o H) as K. destruct H as (A & B & C). split; [|split].
  - intros o r L. unfold listed in L. rewrite K in L. destruct (T o r L) as (E1 & E2 & E3).
    rewrite K, B. destruct (C r) as (-> & _). auto.
  - lia.
  - intros q _ _ U o L. apply (U o). unfold listed in *. rewrite K in L. exact L.
Qed.
#[export] Hint Resolve treeX_pre treeX_rel tr_pre same_tree_pre same_tree_rel : pres.
Lemma treeX_weak {A} (m : prog A) (X : rid -> Prop) : pres treeR m -> pres (treeX X) m.
Proof.
  intros H s a s' E T F. destruct (H s a s' E T) as (T2 & L2 & U2); [intros r []|].
  split; [exact T2|]. split; [exact L2|]. intros q N. apply U2. intros [].
Qed.
(** some lists get thinner *)
Lemma thin_tree s s' :
  (forall o, thin (kids s o) (kids s' o)) -> (forall r, unlisted s' r \/ parent_of s' r = parent_of s r) ->
  (s_rnext s <= s_rnext s')%positive -> treeR s s'.
Proof.
  intros HK HP N T _. split; [|split].
  - intros o r L. pose proof (thin_in _ _ _ (HK o) L) as L0. destruct (T o r L0) as (A & B & C).
    split; [|split].
    + destruct (HP r) as [U|E]; [destruct (U _ L)|]. rewrite E. exact A.
    + eapply thin_once; [apply HK|exact L|exact B].
    + lia.
  - exact N.
  - intros q _ _ U o L. apply (U o). eapply thin_in; [apply HK|exact L].
Qed.
Definition orid_dec (a b : option rid) : {a = b} + {a <> b}.
Proof. decide equality. apply Pos.eq_dec. Defined.
(** an unlisted ring is put under [p] *)
Lemma put_tree s s' r p :
  unlisted s r -> (r < s_rnext s)%positive ->
  parent_of s' r = p -> (forall q, q <> r -> parent_of s' q = parent_of s q) ->
  added r (kids s p) (kids s' p) -> (forall o, o <> p -> kids s' o = kids s o) ->
  s_rnext s' = s_rnext s ->
  tree_ok s ->
  tree_ok s' /\ (forall o q, listed s' o q -> q <> r -> listed s o q) /\ listed s' p r.
Proof.
  intros U L P1 P2 K1 K2 N T.
  assert (Q : forall o q, listed s' o q -> q <> r -> listed s o q).
  { intros o q H D. unfold listed in *. destruct (orid_dec o p) as [->|Do].
    - destruct (added_in _ _ _ _ K1 H); [contradiction|assumption].
    - rewrite K2 in H by exact Do. exact H. }
  split; [|split; [exact Q|]].
  - intros o q H. destruct (Pos.eq_dec q r) as [->|D].
    + destruct (orid_dec o p) as [->|Do].
      * split; [exact P1|]. split; [|lia]. eapply added_once; [exact K1|]. apply U.
      * exfalso. unfold listed in H. rewrite K2 in H by exact Do. exact (U o H).
    + specialize (Q o q H D). destruct (T o q Q) as (A & B & C). rewrite P2, N by exact D.
      split; [exact A|]. split; [|exact C]. destruct (orid_dec o p) as [->|Do].
      * eapply added_keeps; eassumption.
      * rewrite K2 by exact Do. exact B.
  - destruct K1 as (j & A & _). unfold listed. eapply nth_error_In. exact A.
Qed.

(** ** The primitive changes *)
Lemma set_children_Ok o l s u s' : set_children o l s = Ok (u, s') ->
  kids s' o = l /\ (forall o', o' <> o -> kids s' o' = kids s o') /\
  (forall r, parent_of s' r = parent_of s r) /\ s_rnext s' = s_rnext s.
Proof.
  destruct o as [p|]; intros E; injection E as <- <-; unfold kids, parent_of, the_ring; cbn.
  - rewrite hget_hset, Pos.eqb_refl. split; [reflexivity|]. split; [|split; [|reflexivity]].
    + intros [q|] N; [|reflexivity]. rewrite hget_hset.
      destruct (Pos.eqb_spec p q) as [->|_]; [congruence|reflexivity].
    + intros r. rewrite hget_hset. destruct (Pos.eqb_spec p r) as [->|_]; reflexivity.
  - split; [reflexivity|]. split; [|split; reflexivity]. intros [q|] N; [reflexivity|congruence].
Qed.
Lemma children_of_Ok o s l s' : children_of o s = Ok (l, s') -> l = kids s o /\ s' = s.
Proof. destruct o; intros E; injection E as <- <-; split; reflexivity. Qed.
Lemma set_parent_Ok r p s u s' : upd_ring r (fun x => x <| r_parent := p |>) s = Ok (u, s') ->
  (forall o, kids s' o = kids s o) /\ parent_of s' r = p /\
  (forall q, q <> r -> parent_of s' q = parent_of s q) /\ s_rnext s' = s_rnext s.
Proof.
  intros E; injection E as <- <-; unfold kids, parent_of, the_ring; cbn.
  rewrite hget_hset, Pos.eqb_refl. split; [|split; [reflexivity|split; [|reflexivity]]].
  - intros [q|]; [|reflexivity]. rewrite hget_hset. destruct (Pos.eqb_spec r q) as [->|_]; reflexivity.
  - intros q N. rewrite hget_hset. destruct (Pos.eqb_spec r q) as [->|_]; [congruence|reflexivity].
Qed.
Lemma thin_set_children o f s u s' : (forall l, thin l (f l)) ->
  bind (children_of o) (fun l => set_children o (f l)) s = Ok (u, s') ->
  kids s' o = f (kids s o) /\ (forall o', o' <> o -> kids s' o' = kids s o') /\
  (forall r, parent_of s' r = parent_of s r) /\ s_rnext s' = s_rnext s /\
  (forall o', thin (kids s o') (kids s' o')).
Proof.
  intros H E. inv_bind E l s1 E1. apply children_of_Ok in E1. destruct E1 as (-> & ->).
  apply set_children_Ok in E. destruct E as (A & B & C & D). repeat split; auto.
  intros o'. destruct (orid_dec o' o) as [->|N]; [rewrite A; apply H|rewrite B by exact N; apply thin_refl].
Qed.
Lemma remove_Ok r o s u s' : remove_from_children r o s = Ok (u, s') ->
  kids s' o = remove_child r (kids s o) /\ (forall o', o' <> o -> kids s' o' = kids s o') /\
  (forall q, parent_of s' q = parent_of s q) /\ s_rnext s' = s_rnext s /\
  (forall o', thin (kids s o') (kids s' o')).
Proof. apply thin_set_children. apply thin_remove. Qed.
Lemma clear_Ok o k s u s' : clear_child_at o k s = Ok (u, s') ->
  kids s' o = upd (kids s o) k None /\ (forall o', o' <> o -> kids s' o' = kids s o') /\
  (forall q, parent_of s' q = parent_of s q) /\ s_rnext s' = s_rnext s /\
  (forall o', thin (kids s o') (kids s' o')).
Proof. apply (thin_set_children o (fun l => upd l k None)). intros l. apply thin_clear. Qed.
Lemma set_to_Ok r o s u s' : set_to_children r o s = Ok (u, s') ->
  added r (kids s o) (kids s' o) /\ (forall o', o' <> o -> kids s' o' = kids s o') /\
  (forall q, parent_of s' q = parent_of s q) /\ s_rnext s' = s_rnext s.
Proof.
  intros E. unfold set_to_children in E. inv_bind E l s1 E1. apply children_of_Ok in E1.
  destruct E1 as (-> & ->). apply set_children_Ok in E. destruct E as (A & B & C & D).
  rewrite A. split; [apply added_set|]. auto.
Qed.

Section X.
Context (X : rid -> Prop).
Notation TX := (treeX X).
Ltac prim1 :=
  first [apply ut_upd_ring; [exact _|intros; reflexivity|intros; reflexivity]
        |apply pres_modify; intros ?; apply tr_sub; repeat split].
Ltac tauto1 := repeat first [progress pres_step|prim1].
Ltac go f := intros; unfold f; tauto1.
Lemma tx_remove_from_children r o : pres TX (remove_from_children r o).
Proof.
  apply treeX_weak. intros s u s' E. apply remove_Ok in E. destruct E as (_ & _ & P & N & T).
  apply thin_tree; [exact T|auto|rewrite N; apply Pos.le_refl].
Qed.
Lemma tx_clear_child_at o k : pres TX (clear_child_at o k).
Proof.
  apply treeX_weak. intros s u s' E. apply clear_Ok in E. destruct E as (_ & _ & P & N & T).
  apply thin_tree; [exact T|auto|rewrite N; apply Pos.le_refl].
Qed.
Hint Resolve tx_remove_from_children tx_clear_child_at : pres.

(** a new ring is listed nowhere *)
Lemma create_ring_Ok s r s' : create_ring s = Ok (r, s') -> tree_ok s ->
  r = s_rnext s /\ s_rnext s' = Pos.succ r /\ unlisted s' r /\ treeR s s' /\ kids s' (Some r) = [].
Proof.
  intros E T. unfold create_ring in E. inv_bind E s0 s1 E1. apply get_Ok in E1. destruct E1 as (-> & ->).
  inv_bind E u s1 E1. apply modify_Ok in E1. subst s1. apply ret_Ok in E. destruct E as (-> & ->).
  set (r := s_rnext s). set (s' := s <| s_rings := _ |> <| s_rnext := _ |>).
  assert (Th : forall o, thin (kids s o) (kids s' o)).
  { intros [q|]; [|apply thin_refl]. unfold kids, the_ring. cbn. rewrite hget_hset.
    destruct (Pos.eqb_spec r q) as [<-|_]; [|apply thin_refl]. intros [|k] q E; discriminate. }
  assert (U : unlisted s r).
  { intros o H. destruct (T o r H) as (_ & _ & L). unfold r in L. lia. }
  assert (U' : unlisted s' r).
  { intros o H. apply (U o). unfold listed in *. eapply thin_in; [apply Th|exact H]. }
  split; [reflexivity|]. split; [reflexivity|]. split; [exact U'|]. split.
  - apply thin_tree; [exact Th| |cbn; lia]. intros q. destruct (Pos.eq_dec q r) as [->|N]; [left; exact U'|].
    right. unfold parent_of, the_ring. cbn. rewrite hget_hset.
    destruct (Pos.eqb_spec r q) as [<-|_]; [congruence|reflexivity].
  - unfold kids, the_ring. cbn. rewrite hget_hset, Pos.eqb_refl. reflexivity.
Qed.
Lemma tx_create_ring : pres TX create_ring.
Proof.
  apply treeX_weak. intros s r s' E T F. destruct (create_ring_Ok _ _ _ E T) as (_ & _ & _ & H & _).
  exact (H T F).
Qed.
Hint Resolve tx_create_ring : pres.

(** moving a ring to another list *)
Lemma reassign_move fuel r p s u s' : reassign_as_child fuel r p s = Ok (u, s') -> tree_ok s ->
  (r < s_rnext s)%positive ->
  tree_ok s' /\ s_rnext s' = s_rnext s /\ (forall o q, listed s' o q -> q <> r -> listed s o q) /\
  listed s' p r.
Proof.
  intros E T L. unfold reassign_as_child in E. inv_bind E c s1 E1.
  assert (S1 : same_tree s s1) by (eapply (ut_orientation_clash same_tree); exact E1).
  destruct c; [discriminate|]. inv_bind E x s2 E2. apply rg_Ok in E2. destruct E2 as (-> & ->).
  inv_bind E u1 s2 E2. inv_bind E u2 s3 E3.
  pose proof (tr_sub (R := treeR) _ _ S1) as R1. destruct (R1 T) as (T1 & _ & _); [intros ? []|].
  assert (T2 : tree_ok s2).
  { pose proof E2 as E2'. apply remove_Ok in E2'. destruct E2' as (_ & _ & P & N & Th).
    destruct (thin_tree s1 s2) as (T2 & _); auto; [rewrite N; apply Pos.le_refl|intros ? []]. }
  apply remove_Ok in E2. destruct E2 as (K2 & K2' & P2 & N2 & Th2).
  assert (U2 : unlisted s2 r).
  { intros o H. destruct (orid_dec o (parent_of s1 r)) as [->|N].
    - unfold listed in H. change (r_parent _) with (parent_of s1 r) in K2. rewrite K2 in H.
      refine (remove_gone _ _ _ H). apply (T1 (parent_of s1 r) r). unfold listed.
      eapply thin_in; [apply (Th2 (parent_of s1 r))|]. rewrite K2. exact H.
    - change (r_parent _) with (parent_of s1 r) in K2'. unfold listed in H. rewrite K2' in H by exact N.
      destruct (T1 o r H) as (A & _). congruence. }
  apply set_to_Ok in E3. destruct E3 as (K3 & K3' & P3 & N3).
  apply set_parent_Ok in E. destruct E as (K4 & P4 & P4' & N4).
  destruct S1 as (S1 & S1' & S1'').
  destruct (put_tree s2 s' r p) as (A & B & C).
  - exact U2.
  - rewrite N2, S1'. exact L.
  - exact P4.
  - intros q N. rewrite P4', P3; auto.
  - rewrite K4. exact K3.
  - intros o N. rewrite K4. apply K3'. exact N.
  - congruence.
  - exact T2.
  - split; [exact A|]. split; [congruence|]. split; [|exact C].
    intros o q H N. specialize (B o q H N). unfold listed in *.
    rewrite <- (kids_same s s1 o); [|repeat split; auto; apply S1'']. eapply thin_in; [apply Th2|exact B].
Qed.
Lemma tx_reassign_as_child fuel r p : X r -> pres TX (reassign_as_child fuel r p).
Proof.
  intros H s u s' E T F. destruct (reassign_move _ _ _ _ _ _ E T (F r H)) as (A & B & C & D).
  split; [exact A|]. split; [rewrite B; apply Pos.le_refl|]. intros q N _ U o G.
  apply (U o). apply C; [exact G|]. intros ->. contradiction.
Qed.
End X.
#[export] Hint Resolve tx_remove_from_children tx_clear_child_at tx_create_ring : pres.
(** moving a listed ring *)
Lemma reassign_listed fuel r p s u s' : reassign_as_child fuel r p s = Ok (u, s') ->
  (tree_ok s -> exists o, listed s o r) -> treeR s s'.
Proof.
  intros E H T F. destruct (H T) as (o & L). destruct (reassign_move _ _ _ _ _ _ E T) as (A & B & C & D); [apply (T o r L)|].
  split; [exact A|]. split; [rewrite B; apply Pos.le_refl|]. intros q _ _ U o' G.
  destruct (Pos.eq_dec q r) as [->|N]; [exact (U o L)|]. exact (U o' (C o' q G N)).
Qed.

Lemma iter_children_tree (X : rid -> Prop) fuel o body :
  (forall k c s u s', nth_error (kids s o) k = Some (Some c) -> body k c s = Ok (u, s') -> treeX X s s') ->
  pres (treeX X) (iter_children fuel o body).
Proof.
  intros H. unfold iter_children. apply pres_loopM; [exact _|]. intros k s a s' E.
  inv_bind E l s1 E1. apply children_of_Ok in E1. destruct E1 as (-> & ->).
  destruct (nth_error (kids s o) k) as [[c|]|] eqn:N.
  - inv_bind E u s1 E1. apply ret_Ok in E. destruct E as (_ & ->). eapply H; eassumption.
  - apply ret_Ok in E. destruct E as (_ & ->). apply R_refl.
  - apply ret_Ok in E. destruct E as (_ & ->). apply R_refl.
Qed.
Ltac tprim1 :=
  first [apply ut_upd_ring; [exact _|intros; reflexivity|intros; reflexivity]
        |apply pres_modify; intros ?; apply tr_sub; repeat split].
Ltac tauto1 := repeat first [progress pres_step|tprim1].
Ltac tgo f := intros; unfold f; tauto1.

(** children that pass an inside test move to another ring *)
Lemma moving_body fuel c r p k (X : rid -> Prop) s u s' (m : prog bool) :
  nth_error (kids s p) k = Some (Some c) -> pres same_tree m ->
  (b <- m ;; if (b : bool) then reassign_as_child fuel c (Some r) else ret tt)%M s = Ok (u, s') ->
  treeX X s s'.
Proof.
  intros N Hm E. inv_bind E b s1 E1. pose proof (Hm _ _ _ E1) as S1. destruct b.
  - eapply R_trans with s1; [apply tr_sub; exact S1|].
    intros T F. destruct (reassign_listed _ _ _ _ _ _ E) as (A & B & C); [|exact T|intros ? []|].
    + intros _. exists p. unfold listed. rewrite (kids_same _ _ _ S1). eapply nth_error_In; exact N.
    + split; [exact A|]. split; [exact B|]. intros q _. apply C. intros [].
  - apply ret_Ok in E. destruct E as (_ & ->). apply tr_sub. exact S1.
Qed.
Section X2.
Context (X : rid -> Prop).
Notation TX := (treeX X).
Lemma tx_reassign_children fuel r o l : pres TX (reassign_children_if_necessary fuel r o l).
Proof.
  apply iter_children_tree. intros k c s u s' N E. destruct (_ <? _)%nat.
  - apply ret_Ok in E. destruct E as (_ & ->). apply R_refl.
  - eapply moving_body; [exact N| |exact E]. auto with pres.
Qed.
Lemma tx_give_children fuel a b : pres TX (give_children fuel a b).
Proof.
  apply iter_children_tree. intros k c s u s' N E. eapply moving_body; [exact N| |exact E]. auto with pres.
Qed.
Lemma ut_iter_children' fuel o body : (forall k r, pres TX (body k r)) -> pres TX (iter_children fuel o body).
Proof. intros H. unfold iter_children. tauto1. Qed.
Lemma tx_remove_ring fuel d : forall r a b, pres TX (remove_ring fuel d r a b).
Proof.
  induction d as [|d IH]; intros r a b; cbn [remove_ring]; [apply pres_nofuel|].
  tauto1. apply ut_iter_children'. tauto1.
Qed.
Lemma tx_remove_ring_and_points fuel d : forall r a b, pres TX (remove_ring_and_points fuel d r a b).
Proof.
  induction d as [|d IH]; intros r a b; cbn [remove_ring_and_points]; [apply pres_nofuel|].
  tauto1. apply ut_iter_children'. tauto1.
Qed.
(** a child goes from the replaced ring to its replacement *)
Lemma replace_body original repl k c s u s' :
  repl <> Some original -> nth_error (kids s (Some original)) k = Some (Some c) ->
  (upd_ring c (fun x => x <| r_parent := repl |>) ;; set_to_children c repl ;;
   clear_child_at (Some original) k)%M s = Ok (u, s') ->
  tree_ok s ->
  tree_ok s' /\ s_rnext s' = s_rnext s /\
  (forall o q, listed s' o q -> q <> c -> listed s o q) /\ listed s' repl c.
Proof.
  intros D N E T. inv_bind E u1 s1 E1. inv_bind E u2 s2 E2.
  assert (L : listed s (Some original) c) by (eapply nth_error_In; exact N).
  destruct (T _ _ L) as (_ & Once & Lc).
  (* the same change with the slot cleared first *)
  destruct (clear_child_at (Some original) k s) as [[v s0]| |] eqn:E0;
    [|discriminate E0|discriminate E0].
  apply clear_Ok in E0. destruct E0 as (K0 & K0' & P0 & N0 & Th0).
  destruct (thin_tree s s0 Th0) as (T0 & _ & _); [auto|rewrite N0; apply Pos.le_refl|exact T|intros ? []|].
  assert (U0 : unlisted s0 c).
  { intros o H. pose proof (thin_in _ _ _ (Th0 o) H) as H0. destruct (T _ _ H0) as (Po & _).
    destruct (T _ _ L) as (Pc & _). rewrite Pc in Po. symmetry in Po. subst o.
    unfold listed in H. apply in_nth in H. destruct H as (j & Ej).
    pose proof (Th0 _ _ _ Ej) as Ej0. destruct Once as (j0 & _ & U).
    assert (j = k) by (rewrite (U j Ej0), (U k N); reflexivity). subst j.
    rewrite K0 in Ej. exact (clear_gone _ _ _ Ej). }
  apply set_parent_Ok in E1. destruct E1 as (K1 & P1 & P1' & N1).
  apply set_to_Ok in E2. destruct E2 as (K2 & K2' & P2 & N2).
  apply clear_Ok in E. destruct E as (K3 & K3' & P3 & N3 & _).
  destruct (put_tree s0 s' c repl) as (A & B & C).
  - exact U0.
  - rewrite N0. exact Lc.
  - rewrite P3, P2. exact P1.
  - intros q Nq. rewrite P3, P2, P1', P0; auto.
  - rewrite K3' by congruence. rewrite K0' by congruence. rewrite <- (K1 repl). exact K2.
  - intros o No. destruct (orid_dec o (Some original)) as [->|Do].
    + rewrite K3, K0, K2' by congruence. rewrite K1. reflexivity.
    + rewrite K3', K2', K1, K0' by congruence. reflexivity.
  - congruence.
  - exact T0.
  - split; [exact A|]. split; [congruence|]. split; [|exact C].
    intros o q H Nq. specialize (B o q H Nq). eapply thin_in; [apply Th0|exact B].
Qed.
Lemma tx_replace_ring fuel original repl : pres TX (replace_ring fuel original repl).
Proof.
  unfold replace_ring. destruct (opt_is (Some original) repl) eqn:O; [apply pres_raise|].
  apply pres_bind; [exact _| |intros ?; tauto1].
  apply iter_children_tree. intros k c s u s' N E T F.
  assert (D : repl <> Some original) by (intros ->; cbn in O; rewrite Pos.eqb_refl in O; discriminate).
  destruct (replace_body _ _ _ _ _ _ _ D N E T) as (A & B & C & G).
  split; [exact A|]. split; [rewrite B; apply Pos.le_refl|]. intros q _ _ U o H.
  destruct (Pos.eq_dec q c) as [->|Nq].
  - apply (U (Some original)). eapply nth_error_In; exact N.
  - exact (U o (C o q H Nq)).
Qed.
End X2.
#[export] Hint Resolve tx_reassign_children tx_give_children tx_remove_ring tx_remove_ring_and_points
  tx_replace_ring : pres.

(** ** Rings that are listed for the first time *)
Definition step (r : rid) (done : bool) (s s' : st) : Prop :=
  if done then treeX (eq r) s s' else treeR s s'.
Lemma treeX_le (X Y : rid -> Prop) s s' : (forall r, X r -> Y r) -> treeX X s s' -> treeX Y s s'.
Proof.
  intros H A T F. destruct (A T) as (B & C & D); [intros r G; apply F, H; exact G|].
  split; [exact B|]. split; [exact C|]. intros q N. apply D. intros G. apply N, H. exact G.
Qed.
Lemma step_X r b s s' : step r b s s' -> treeX (eq r) s s'.
Proof. destruct b; [auto|]. apply treeX_le. intros q []. Qed.
Lemma step_refl r s : step r false s s. Proof. apply R_refl. Qed.
Lemma step_trans r b s1 s2 s3 : treeR s1 s2 -> step r b s2 s3 -> step r b s1 s3.
Proof.
  intros A B. destruct b; cbn in *.
  - eapply R_trans; [|exact B]. eapply treeX_le; [|exact A]. intros q [].
  - eapply R_trans; eassumption.
Qed.
Lemma step_after r b s1 s2 s3 : step r b s1 s2 -> treeR s2 s3 -> step r b s1 s3.
Proof.
  intros A B. destruct b; cbn in *.
  - eapply R_trans; [exact A|]. eapply treeX_le; [|exact B]. intros q [].
  - eapply R_trans; eassumption.
Qed.
Lemma step_for {A} r (l : list A) (body : A -> prog (option unit)) :
  (forall a s o s', body a s = Ok (o, s') -> step r (is_some o) s s') ->
  forall s o s', for_breakM l body s = Ok (o, s') -> step r (is_some o) s s'.
Proof.
  intros H. induction l as [|a l IH]; intros s o s' E; cbn [for_breakM] in E.
  - apply ret_Ok in E. destruct E as (-> & ->). apply step_refl.
  - inv_bind E v s1 E1. apply H in E1. destruct v as [v|].
    + apply ret_Ok in E. destruct E as (-> & ->). exact E1.
    + eapply step_trans; [exact E1|]. apply IH. exact E.
Qed.
Lemma find_parent_in_tree_step fuel d : forall r p s b s',
  find_parent_in_tree fuel d r p s = Ok (b, s') -> step r b s s'.
Proof.
  induction d as [|d IH]; intros r p s b s' E; cbn [find_parent_in_tree] in E; [discriminate|].
  inv_bind E l s1 E1. apply children_of_Ok in E1. destruct E1 as (-> & ->).
  inv_bind E f s1 E1.
  assert (S1 : step r (is_some f) s s1).
  { revert E1. apply step_for. clear - IH. intros [c|] s o s' E; [|apply ret_Ok in E; destruct E as (-> & ->); apply step_refl].
    inv_bind E l s1 E1. apply children_of_Ok in E1. destruct E1 as (-> & ->).
    revert E. apply step_for. clear - IH. intros [g|] s o s' E; [|apply ret_Ok in E; destruct E as (-> & ->); apply step_refl].
    inv_bind E b s1 E1. apply IH in E1. apply ret_Ok in E. destruct E as (-> & ->). destruct b; exact E1. }
  destruct f as [f|].
  - apply ret_Ok in E. destruct E as (-> & ->). exact S1.
  - inv_bind E b0 s2 E2.
    assert (R2 : treeR s1 s2) by (apply tr_sub; eapply (ut_inside_of same_tree); exact E2).
    eapply step_trans; [exact S1|]. eapply step_trans; [exact R2|]. destruct b0.
    + inv_bind E u s3 E3. apply ret_Ok in E. destruct E as (-> & ->). cbn.
      eapply (tx_reassign_as_child (eq r)); [reflexivity|exact E3].
    + apply ret_Ok in E. destruct E as (-> & ->). apply step_refl.
Qed.
(** listing a ring that was listed nowhere *)
Definition put_ok (r : rid) (s s' : st) : Prop :=
  tree_ok s -> (r < s_rnext s)%positive -> unlisted s r ->
  tree_ok s' /\ (s_rnext s <= s_rnext s')%positive /\
  (forall q, q <> r -> (q < s_rnext s)%positive -> unlisted s q -> unlisted s' q).
Lemma put_after r s1 s2 s3 : put_ok r s1 s2 -> treeR s2 s3 -> put_ok r s1 s3.
Proof.
  intros A B T L U. destruct (A T L U) as (A1 & A2 & A3). destruct (B A1) as (B1 & B2 & B3); [intros ? []|].
  split; [exact B1|]. split; [lia|]. intros q N Lq Uq. apply B3; [intros []|lia|]. apply A3; assumption.
Qed.
Lemma put_before r s1 s2 s3 : treeR s1 s2 -> put_ok r s2 s3 -> put_ok r s1 s3.
Proof.
  intros A B T L U. destruct (A T) as (A1 & A2 & A3); [intros ? []|].
  destruct (B A1) as (B1 & B2 & B3); [lia|apply A3; [intros []|exact L|exact U]|].
  split; [exact B1|]. split; [lia|]. intros q N Lq Uq. apply B3; [exact N|lia|].
  apply A3; [intros []|exact Lq|exact Uq].
Qed.
Lemma put_X r s s' : treeX (eq r) s s' -> put_ok r s s'.
Proof.
  intros A T L U. destruct (A T) as (B & C & D); [intros q <-; exact L|].
  split; [exact B|]. split; [exact C|]. intros q N. apply D. congruence.
Qed.
Lemma put_lists p r s s1 s' u v (b : bool) :
  (if b then set_to_children r p s = Ok (u, s1)
   else (l <- children_of p ;; set_children p (l ++ [Some r]))%M s = Ok (u, s1)) ->
  upd_ring r (fun x => x <| r_parent := p |>) s1 = Ok (v, s') -> put_ok r s s'.
Proof.
  intros E1 E2 T L U. apply set_parent_Ok in E2. destruct E2 as (K2 & P2 & P2' & N2).
  assert (H : added r (kids s p) (kids s1 p) /\ (forall o', o' <> p -> kids s1 o' = kids s o') /\
              (forall q, parent_of s1 q = parent_of s q) /\ s_rnext s1 = s_rnext s).
  { destruct b.
    - apply set_to_Ok in E1. exact E1.
    - inv_bind E1 l s0 E0. apply children_of_Ok in E0. destruct E0 as (-> & ->).
      apply set_children_Ok in E1. destruct E1 as (A & B & C & D). rewrite A. split; [apply added_app|auto]. }
  destruct H as (K1 & K1' & P1 & N1).
  destruct (put_tree s s' r p) as (A & B & C); auto.
  - intros q N. rewrite P2', P1; auto.
  - rewrite K2. exact K1.
  - intros o N. rewrite K2. apply K1'. exact N.
  - congruence.
  - split; [exact A|]. split; [rewrite N2, N1; apply Pos.le_refl|]. intros q N _ Uq o H. exact (Uq o (B o q H N)).
Qed.
Lemma assign_as_child_put fuel r p s u s' : assign_as_child fuel r p s = Ok (u, s') -> put_ok r s s'.
Proof.
  intros E. unfold assign_as_child in E. inv_bind E c s1 E1. destruct c; [discriminate|].
  inv_bind E u1 s2 E2. eapply put_before.
  - apply tr_sub. eapply (ut_orientation_clash same_tree). exact E1.
  - eapply (put_lists p r _ _ _ _ _ true); [exact E2|exact E].
Qed.
Lemma assign_as_sibling_put fuel r q s u s' : assign_as_sibling fuel r q s = Ok (u, s') ->
  put_ok r s s'.
Proof.
  intros E. unfold assign_as_sibling in E. inv_bind E a s1 E1. inv_bind E b s2 E2.
  destruct (negb _); [discriminate|]. inv_bind E x s3 E3. apply rg_Ok in E3. destruct E3 as (-> & ->).
  inv_bind E u1 s3 E3. inv_bind E y s4 E4. apply rg_Ok in E4. destruct E4 as (-> & ->).
  eapply put_before; [apply tr_sub; eapply R_trans; eapply (ut_ring_is_hole same_tree); eassumption|].
  pose proof E3 as E3'. apply set_to_Ok in E3'. destruct E3' as (_ & _ & P & _).
  specialize (P q). unfold parent_of, the_ring in P. cbv beta in E. rewrite P in E.
  eapply (put_lists _ r _ _ _ _ _ true); [exact E3|exact E].
Qed.
Lemma set_hole_state_put i r s u s' :
  b_ring (bget (s_bounds s) i) = Some r -> set_hole_state i s = Ok (u, s') -> put_ok r s s'.
Proof.
  intros Hb E T L U. unfold set_hole_state in E. inv_bind E s0 s1 E1. apply get_Ok in E1. destruct E1 as (-> & ->).
  destruct (last_index i (s_abl s) 0 None) as [k|]; [|discriminate]. cbv zeta in E.
  inv_bind E b s1 E1. apply bd_Ok in E1. destruct E1 as (-> & ->). rewrite Hb in E.
  inv_bind E r0 s1 E1. apply deref_Ok in E1. destruct E1 as (E1 & ->). injection E1 as <-.
  match type of E with context [children_of ?z] => set (p := z) in * end.
  inv_bind E v s1 E1. inv_bind E l s2 E2. apply children_of_Ok in E2. destruct E2 as (-> & ->).
  apply set_parent_Ok in E1. destruct E1 as (K1 & P1 & P1' & N1).
  apply set_children_Ok in E. destruct E as (K2 & K2' & P2 & N2).
  destruct (put_tree s s' r p) as (A & B & C); auto.
  - rewrite P2. exact P1.
  - intros q N. rewrite P2. auto.
  - rewrite K2, K1. apply added_app.
  - intros o N. rewrite K2' by exact N. apply K1.
  - congruence.
  - split; [exact A|]. split; [rewrite N2, N1; apply Pos.le_refl|]. intros q N _ Uq o H. exact (Uq o (B o q H N)).
Qed.
Lemma upd_bound_get i f s u s' : upd_bound i f s = Ok (u, s') -> bget (s_bounds s') i = f (bget (s_bounds s) i).
Proof. intros E. injection E as _ <-. apply bget_hset_eq. Qed.
Lemma fresh_put s s1 s' r : treeR s s1 -> r = s_rnext s -> s_rnext s1 = Pos.succ r ->
  (tree_ok s -> unlisted s1 r) -> put_ok r s1 s' -> treeR s s'.
Proof.
  intros R1 Er N1 U1 Pt T F. destruct (R1 T F) as (T1 & L1 & V1). destruct (Pt T1) as (A & B & C).
  - rewrite N1. apply Pos.lt_succ_diag_r.
  - exact (U1 T).
  - split; [exact A|]. split; [exact (Pos.le_trans _ _ _ L1 B)|]. intros q Nq Lq Uq.
    apply C; [|exact (Pos.lt_le_trans _ _ _ Lq L1)|apply V1; auto].
    intros Eq. rewrite Eq, Er in Lq. exact (Pos.lt_irrefl _ Lq).
Qed.
Lemma run_bind {A B} (P : st -> st -> Prop) (m : prog A) (k : A -> prog B) :
  (forall s a s1 b s', m s = Ok (a, s1) -> k a s1 = Ok (b, s') -> P s s') -> pres P (bind m k).
Proof. intros H s b s' E. inv_bind E a s1 E1. eapply H; eassumption. Qed.
Lemma tx_add_first_point X i p : pres (treeX X) (add_first_point i p).
Proof.
  apply treeX_weak. unfold add_first_point. apply run_bind. intros s r s1 u s' E1 E T F.
  inv_bind E u1 s2 E2. inv_bind E n s3 E3. inv_bind E u3 s4 E4.
  inv_bind E u4 s5 E5.
  destruct (create_ring_Ok _ _ _ E1 T) as (Er & N1 & U1 & R1 & _).
  assert (S14 : same_tree s1 s4).
  { pose proof (ut_upd_bound same_tree _ _ _ _ _ E2) as S2.
    pose proof (ut_create_point_node same_tree _ _ _ _ _ _ E3) as S3.
    assert (S4 : same_tree s3 s4) by (eapply (ut_upd_ring same_tree); [| |exact E4]; intros; reflexivity).
    exact (R_trans _ _ _ S2 (R_trans _ _ _ S3 S4)). }
  pose proof (ut_upd_bound same_tree _ _ _ _ _ E) as S5.
  assert (Hb : b_ring (bget (s_bounds s4) i) = Some r).
  { apply upd_bound_get in E2.
    pose proof (pr_create_point_node same_sweep _ _ _ _ _ _ E3) as (W3 & _).
    pose proof (pr_upd_ring same_sweep _ _ _ _ _ E4) as (W4 & _).
    rewrite W4, W3, E2. reflexivity. }
  pose proof (set_hole_state_put _ _ _ _ _ Hb E5) as Pt.
  pose proof (put_before r s1 s4 s5 (tr_sub _ _ S14) Pt) as Pt1.
  pose proof (put_after r s1 s5 s' Pt1 (tr_sub _ _ S5)) as Pt2.
  exact (fresh_put s s1 s' r R1 Er N1 (fun _ => U1) Pt2 T F).
Qed.
#[export] Hint Resolve tx_add_first_point : pres.

(** ** The sweep *)
Section Sweep.
Notation R := treeR.
Ltac go f := intros; unfold f; tauto1.



Lemma us_add_point i p : pres R (add_point i p). Proof. go add_point. Qed.
Hint Resolve us_add_point : pres.
Lemma us_add_lmin p i j : pres R (add_local_minimum_point p i j). Proof. go add_local_minimum_point. Qed.
Hint Resolve us_add_lmin : pres.
Lemma us_append_ring fuel i j : pres R (append_ring fuel i j). Proof. go append_ring. Qed.
Hint Resolve us_append_ring : pres.
Lemma us_add_lmax fuel p i j : pres R (add_local_maximum_point fuel p i j). Proof. go add_local_maximum_point. Qed.
Hint Resolve us_add_lmax : pres.
Lemma us_intersect_bounds fuel op a b p i j : pres R (intersect_bounds fuel op a b p i j).
Proof. go intersect_bounds. Qed.
Lemma us_insert_lm op a b i j : pres R (insert_lm_left_and_right_bound op a b i j).
Proof. go insert_lm_left_and_right_bound. Qed.
Hint Resolve us_intersect_bounds us_insert_lm : pres.
Lemma us_insert_local_minima fuel op a b h y ms k : pres R (insert_local_minima fuel op a b h y ms k).
Proof. go insert_local_minima. Qed.
Hint Resolve us_insert_local_minima : pres.
Lemma us_process_intersect_list fuel op a b c : forall l,
  pres R (process_intersect_list fuel op a b l c).
Proof.
  induction c as [|c IH]; intros [|n l]; cbn [process_intersect_list]; tauto1.
Qed.
Hint Resolve us_process_intersect_list : pres.
Lemma us_process_intersections fuel op a b y : pres R (process_intersections fuel op a b y).
Proof. go process_intersections. Qed.
Lemma us_add_hp_ltr i stop n : forall k, pres R (add_hot_pixels_ltr n stop i k).
Proof. induction n as [|n IH]; intros k; cbn [add_hot_pixels_ltr]; tauto1. Qed.
Lemma us_add_hp_rtl i stop k : pres R (add_hot_pixels_rtl stop i k).
Proof. induction k as [|n IH]; cbn [add_hot_pixels_rtl]; tauto1. Qed.
Hint Resolve us_process_intersections us_add_hp_ltr us_add_hp_rtl : pres.
Lemma us_ltr_step fuel op a b i y mx mi j x : pres R (ltr_step fuel op a b i y mx mi j x).
Proof. unfold ltr_step. tauto1. Qed.
Lemma us_rtl_step fuel op a b i y mx mi j x : pres R (rtl_step fuel op a b i y mx mi j x).
Proof. unfold rtl_step. tauto1. Qed.
Hint Resolve us_ltr_step us_rtl_step : pres.
Lemma us_ltr_loop fuel op a b i y mx mi js : forall x, pres R (ltr_loop fuel op a b i y mx mi js x).
Proof. induction js as [|j js IH]; intros x; cbn [ltr_loop]; tauto1. Qed.
Lemma us_rtl_loop fuel op a b i y mx mi js : forall x, pres R (rtl_loop fuel op a b i y mx mi js x).
Proof. induction js as [|j js IH]; intros x; cbn [rtl_loop]; tauto1. Qed.
Lemma us_finish i k : pres R (finish_horizontal i k). Proof. go finish_horizontal. Qed.
Hint Resolve us_ltr_loop us_rtl_loop us_finish : pres.
Lemma us_ph_ltr fuel op a b y k : pres R (process_horizontal_left_to_right fuel op a b y k).
Proof. go process_horizontal_left_to_right. Qed.
Lemma us_ph_rtl fuel op a b y k : pres R (process_horizontal_right_to_left fuel op a b y k).
Proof. go process_horizontal_right_to_left. Qed.
Hint Resolve us_ph_ltr us_ph_rtl : pres.
Lemma us_ph fuel op a b y k : pres R (process_horizontal fuel op a b y k).
Proof. go process_horizontal. Qed.
Hint Resolve us_ph : pres.
Lemma us_phs fuel op a b y : pres R (process_horizontals fuel op a b y).
Proof. go process_horizontals. Qed.
Lemma us_maxima_walk fuel op a b k m : pres R (maxima_walk fuel op a b k m).
Proof.
  unfold maxima_walk. apply pres_bind; [typeclasses eauto|auto with pres|]. intros n.
  generalize (range (S k) n) as js. generalize false. intros b0 js. revert k b0.
  induction js as [|j js IH]; intros k' sk; tauto1.
Qed.
Hint Resolve us_phs us_maxima_walk : pres.
Lemma us_do_maxima fuel op a b k m : pres R (do_maxima fuel op a b k m). Proof. go do_maxima. Qed.
Hint Resolve us_do_maxima : pres.
Lemma us_top_step fuel op a b y k i : pres R (top_step fuel op a b y k i). Proof. go top_step. Qed.
Hint Resolve us_top_step : pres.
Lemma us_peats fuel op a b y ms k : pres R (process_edges_at_top_of_scanbeam fuel op a b y ms k).
Proof. go process_edges_at_top_of_scanbeam. Qed.
Hint Resolve us_peats : pres.
Lemma us_execute_vatti fuel op a b ms : pres R (execute_vatti fuel op a b ms).
Proof. go execute_vatti. Qed.
Hint Resolve us_execute_vatti : pres.
End Sweep.

(** ** New rings *)
Lemma NoDup_app_single {A} (l : list A) a : NoDup l -> ~ In a l -> NoDup (l ++ [a]).
Proof.
  intros N H. induction l as [|b l IH]; cbn; [repeat constructor; intros []|].
  inversion N; subst. constructor.
  - rewrite in_app_iff. intros [G|[->|[]]]; [contradiction|apply H; left; reflexivity].
  - apply IH; [assumption|]. intros G. apply H. right. exact G.
Qed.
Definition waiting (l : list rid) (s : st) : Prop :=
  tree_ok s /\ NoDup l /\ forall r, In r l -> (r < s_rnext s)%positive /\ unlisted s r.
Lemma waiting_nil s : waiting [] s <-> tree_ok s.
Proof.
  split; [intros (T & _); exact T|]. intros T. split; [exact T|]. split; [constructor|]. intros r [].
Qed.
Lemma waiting_R l s s' : treeR s s' -> waiting l s -> waiting l s'.
Proof.
  intros R (T & N & W). destruct (R T) as (T' & L & U); [intros ? []|]. split; [exact T'|].
  split; [exact N|]. intros r H. destruct (W r H) as (A & B). split; [eapply Pos.lt_le_trans; eassumption|].
  apply U; [intros []|exact A|exact B].
Qed.
Lemma waiting_pres {A} (m : prog A) l : pres treeR m -> tri (waiting l) m (fun _ => waiting l).
Proof. intros H. eapply tri_pres; [exact H|]. intros s s'. apply waiting_R. Qed.
Lemma waiting_create l : tri (waiting l) create_ring (fun r => waiting (l ++ [r])).
Proof.
  intros s r s' (T & N & W) E. destruct (create_ring_Ok _ _ _ E T) as (Er & N1 & U1 & R1 & _).
  destruct (waiting_R l _ _ R1 (conj T (conj N W))) as (T' & _ & W'). split; [exact T'|]. split.
  - apply NoDup_app_single; [exact N|]. intros H. destruct (W r H) as (L & _). rewrite Er in L.
    exact (Pos.lt_irrefl _ L).
  - intros q H. apply in_app_iff in H. destruct H as [H|[<-|[]]]; [apply W'; exact H|].
    split; [rewrite N1; apply Pos.lt_succ_diag_r|exact U1].
Qed.
Lemma waiting_put l r s s' : put_ok r s s' -> waiting (r :: l) s -> waiting l s'.
Proof.
  intros P (T & N & W). inversion N as [|? ? N1 N2]; subst. destruct (W r (or_introl eq_refl)) as (A & B).
  destruct (P T A B) as (T' & L & U). split; [exact T'|]. split; [exact N2|]. intros q H.
  destruct (W q (or_intror H)) as (C & D). split; [eapply Pos.lt_le_trans; eassumption|].
  apply U; [intros ->; contradiction|exact C|exact D].
Qed.
Lemma waiting_drop l r s : waiting (r :: l) s -> waiting l s.
Proof.
  intros (T & N & W). inversion N; subst. split; [exact T|]. split; [assumption|]. intros q H. apply W. right; exact H.
Qed.

(** ** The topology *)
Ltac wp := apply waiting_pres; solve [tauto1].
Ltac wstep := eapply tri_bind; [wp|intro].
Section Topology.
Context (fuel : nat).
Ltac go f := intros; unfold f; tauto1.
Lemma tt_correct_orientation r : pres treeR (correct_orientation fuel r). Proof. go correct_orientation. Qed.
Hint Resolve tt_correct_orientation : pres.
Lemma tt_correct_orientations : pres treeR (correct_orientations fuel). Proof. go correct_orientations. Qed.
Lemma tt_correct_self_intersection i j : pres treeR (correct_self_intersection fuel i j).
Proof. go correct_self_intersection. Qed.
Hint Resolve tt_correct_orientations tt_correct_self_intersection : pres.
Definition more (acc : list rid) (o : option rid) : list rid :=
  match o with None => acc | Some r => acc ++ [r] end.
Lemma tw_correct_self_intersection i j acc :
  tri (waiting acc) (correct_self_intersection fuel i j) (fun o => waiting (more acc o)).
Proof.
  unfold correct_self_intersection. wstep. wstep. destruct (negb _); [apply tri_ret; auto|].
  do 7 wstep. eapply tri_bind; [apply waiting_create|]. intros new. do 4 wstep.
  apply tri_ret. auto.
Qed.
Lemma tri_forM_acc {A B} (l : list A) (f : A -> B -> prog B) (Inv : B -> st -> Prop) b :
  (forall a b, tri (Inv b) (f a b) Inv) -> tri (Inv b) (forM_acc l f b) Inv.
Proof.
  intros H. unfold forM_acc. revert b. induction l as [|a l IH]; intros b; [apply tri_ret; auto|].
  eapply tri_bind; [apply H|]. intros b'. apply IH.
Qed.
Lemma tw_correct_repeated_points l a b acc :
  tri (waiting acc) (correct_repeated_points fuel l a b acc) waiting.
Proof.
  unfold correct_repeated_points. apply tri_forM_acc. intros k ac. wstep. wstep.
  destruct (is_none _); [apply tri_ret; auto|]. apply tri_forM_acc. intros k' ac'.
  wstep. wstep. destruct (is_none _); [apply tri_ret; auto|].
  eapply tri_bind; [apply tw_correct_self_intersection|]. intros o. apply tri_ret. destruct o; auto.
Qed.
Lemma tw_find_and_correct r : tri tree_ok (find_and_correct_repeated_points fuel r) waiting.
Proof.
  eapply (tri_pre _ tree_ok (waiting [])); [|intros s T; apply (proj2 (waiting_nil s)); exact T]. unfold find_and_correct_repeated_points. wstep.
  eapply tri_pre; [apply tri_loop with (Inv := fun x => waiting (snd x))|intros s W; exact W].
  intros [[[c p] i] acc]. cbn [snd]. destruct (i <? _)%nat; [|apply tri_ret; auto].
  wstep. wstep. wstep. cbv zeta. destruct (_ && _); [apply tri_ret; auto|].
  destruct (_ =? 0)%nat; [apply tri_ret; auto|].
  eapply tri_bind; [apply tw_correct_repeated_points|]. intros acc'. apply tri_ret. auto.
Qed.
(** placing the new rings *)
Lemma try_prev_ring_step original r same nr prev s o s' :
  try_prev_ring fuel original r same nr prev s = Ok (o, s') -> step r (is_some o) s s'.
Proof.
  intros E. unfold try_prev_ring in E. inv_bind E x s1 E1. apply rg_Ok in E1. destruct E1 as (-> & ->).
  inv_bind E y s1 E1. apply rg_Ok in E1. destruct E1 as (-> & ->).
  destruct (negb _); [apply ret_Ok in E; destruct E as (-> & ->); apply step_refl|].
  destruct same.
  - revert E. apply step_for. clear. intros [c|] s o s' E; [|apply ret_Ok in E; destruct E as (-> & ->); apply step_refl].
    inv_bind E b s1 E1. apply find_parent_in_tree_step in E1. destruct b.
    + inv_bind E u s2 E2. apply ret_Ok in E. destruct E as (-> & ->). eapply step_after; [exact E1|].
      eapply tx_reassign_children. exact E2.
    + apply ret_Ok in E. destruct E as (-> & ->). exact E1.
  - inv_bind E b s1 E1. apply find_parent_in_tree_step in E1. destruct b.
    + inv_bind E z s2 E2. apply rg_Ok in E2. destruct E2 as (-> & ->).
      inv_bind E u s2 E2. apply ret_Ok in E. destruct E as (-> & ->). eapply step_after; [exact E1|].
      eapply tx_reassign_children. exact E2.
    + apply ret_Ok in E. destruct E as (-> & ->). exact E1.
Qed.
Lemma place_new_ring_put original op nr before r s u s' :
  place_new_ring fuel original op nr before r s = Ok (u, s') -> put_ok r s s'.
Proof.
  intros E. unfold place_new_ring in E. inv_bind E pos s1 E1. cbv zeta in E.
  assert (R1 : treeR s s1) by (apply tr_sub; eapply (ut_positive_area same_tree); exact E1).
  eapply put_before; [exact R1|]. clear R1 E1 s. inv_bind E f s2 E2.
  assert (S2 : step r (is_some f) s1 s2).
  { revert E2. apply step_for. intros a t o t'. apply try_prev_ring_step. }
  destruct f as [f|]; [apply ret_Ok in E; destruct E as (_ & ->); apply put_X; exact S2|].
  eapply put_before; [exact S2|]. clear S2 E2.
  inv_bind E x s3 E3. apply rg_Ok in E3. destruct E3 as (-> & ->).
  destruct (Bool.eqb pos op).
  - inv_bind E f s3 E3.
    assert (S3 : step r (is_some f) s2 s3).
    { revert E3. apply step_for. clear. intros [c|] s o s' E; [|apply ret_Ok in E; destruct E as (-> & ->); apply step_refl].
      inv_bind E b s1 E1. apply find_parent_in_tree_step in E1. destruct b.
      + inv_bind E u s2 E2. apply ret_Ok in E. destruct E as (-> & ->). eapply step_after; [exact E1|].
        eapply tx_reassign_children. exact E2.
      + apply ret_Ok in E. destruct E as (-> & ->). exact E1. }
    destruct f as [f|]; [apply ret_Ok in E; destruct E as (_ & ->); apply put_X; exact S3|].
    eapply put_before; [exact S3|]. inv_bind E y s4 E4. apply rg_Ok in E4. destruct E4 as (-> & ->).
    inv_bind E u1 s4 E4. apply assign_as_child_put in E4. eapply put_after; [exact E4|].
    eapply tx_reassign_children. exact E.
  - inv_bind E b s3 E3. apply find_parent_in_tree_step in E3. destruct b; [|discriminate].
    inv_bind E y s4 E4. apply rg_Ok in E4. destruct E4 as (-> & ->).
    eapply put_after; [apply put_X; exact E3|]. eapply tx_reassign_children. exact E.
Qed.
Lemma tw_place_new_rings original op nr l : forall before,
  tri (waiting l) (place_new_rings fuel original op nr before l) (fun _ => tree_ok).
Proof.
  induction l as [|r l IH]; intros before; cbn [place_new_rings].
  - apply tri_ret. intros s (T & _). exact T.
  - eapply tri_bind; [|intros ?; apply IH]. intros s u s' W E. apply place_new_ring_put in E.
    eapply waiting_put; eassumption.
Qed.
Lemma waiting_sub l l' s : NoDup l' -> (forall r, In r l' -> In r l) -> waiting l s -> waiting l' s.
Proof. intros N H (T & _ & W). split; [exact T|]. split; [exact N|]. auto. Qed.
Lemma filterM_sub {A} (p : A -> prog bool) l : forall s r s', filterM p l s = Ok (r, s') ->
  (forall a, In a r -> In a l) /\ (NoDup l -> NoDup r).
Proof.
  induction l as [|a l IH]; intros s r s' E; cbn [filterM] in E.
  - apply ret_Ok in E. destruct E as (-> & _). auto.
  - inv_bind E b s1 E1. inv_bind E r1 s2 E2. apply ret_Ok in E. destruct E as (-> & _).
    destruct (IH _ _ _ E2) as (H1 & H2). destruct b; split.
    + intros x [->|H]; [left; reflexivity|right; auto].
    + intros N. inversion N; subst. constructor; [|auto]. intros H. apply H1 in H. contradiction.
    + intros x H. right. auto.
    + intros N. inversion N; subst. auto.
Qed.
Lemma tw_assign_new_ring_parents r l :
  tri (waiting l) (assign_new_ring_parents fuel r l) (fun _ => tree_ok).
Proof.
  unfold assign_new_ring_parents. eapply tri_bind with (Q := fun nr => waiting nr).
  { intros s nr s' W E. assert (R : treeR s s').
    { eapply ut_filterM; [exact _| |exact E]. tauto1. }
    destruct (filterM_sub _ _ _ _ _ E) as (A & B). apply (waiting_R l _ _ R) in W.
    eapply waiting_sub; [|exact A|exact W]. apply B. apply W. }
  intros nr.
  match goal with |- context [?f nr] =>
    match type of f with list rid -> prog (list (rid * float)) =>
      assert (K : forall x, pres treeR (f x)); [|assert (K2 : forall x s y s', f x s = Ok (y, s') -> map fst y = x)]
    end end.
  { intros x. induction x as [|x l' IH]; tauto1. }
  { intros x. induction x as [|x l' IH]; intros s y s' E; [apply ret_Ok in E; destruct E as (-> & _); reflexivity|].
    inv_bind E a s1 E1. inv_bind E k s2 E2. apply ret_Ok in E. destruct E as (-> & _).
    cbn. f_equal. eapply IH. exact E2. }
  destruct nr as [|r0 [|r1 nr]].
  - apply tri_ret. intros s (T & _). exact T.
  - wstep. wstep. wstep.
    eapply tri_weak with (Q' := fun _ => waiting []); [|intros s H; exact H|intros ? s H; apply H].
    destruct (Bool.eqb _ _); (eapply tri_bind; [intros s u s' W E; apply assign_as_child_put in E; eapply waiting_put; eassumption|]);
      intros ?; tauto1; [wp|wstep; wp].
  - wstep. eapply tri_bind with (Q := fun y => fun s => map fst y = r0 :: r1 :: nr /\ waiting (r0 :: r1 :: nr) s).
    { intros s y s' W E. split; [eapply (K2 (r0 :: r1 :: nr)); exact E|].
      eapply waiting_R; [eapply (K (r0 :: r1 :: nr)); exact E|exact W]. }
    intros y. apply tri_fact. intros Ey. cbv zeta.
    match goal with |- tri _ (place_new_rings _ _ _ _ _ (map fst ?l)) _ => set (q := l) end.
    eapply tri_pre; [apply tw_place_new_rings|]. intros s W.
    assert (Pq : Permutation (r0 :: r1 :: nr) (map fst q)).
    { rewrite <- Ey. apply Permutation_map. apply pure_sort_rev_perm. }
    eapply waiting_sub; [eapply Permutation_NoDup; [exact Pq|apply W]| |exact W].
    intros x H. eapply Permutation_in; [symmetry; exact Pq|exact H].
Qed.
Definition kt {A} (m : prog A) : Prop := tri tree_ok m (fun _ => tree_ok).
Lemma kt_pres {A} (m : prog A) : pres treeR m -> kt m.
Proof. intros H. eapply tri_pres; [exact H|]. intros s s' R T. apply R; [exact T|]. intros ? []. Qed.
Lemma kt_bind {A B} (m : prog A) (k : A -> prog B) : kt m -> (forall a, kt (k a)) -> kt (bind m k).
Proof. intros H K. eapply tri_bind; [exact H|exact K]. Qed.
Lemma kt_correct_ring_self r b : kt (correct_ring_self_intersections fuel r b).
Proof.
  unfold correct_ring_self_intersections. apply kt_bind; [apply kt_pres; tauto1|]. intros x.
  destruct (_ || _); [apply kt_pres; tauto1|]. eapply tri_bind; [apply tw_find_and_correct|]. intros nr.
  eapply tri_bind with (Q := fun _ => tree_ok); [|intros ?; apply kt_pres; tauto1].
  destruct b; [apply tw_assign_new_ring_parents|apply tri_ret; intros s W; apply W].
Qed.
Lemma kt_forM_acc {A B} (l : list A) (f : A -> B -> prog B) b :
  (forall a b, kt (f a b)) -> kt (forM_acc l f b).
Proof. intros H. apply (tri_forM_acc l f (fun _ => tree_ok)). exact H. Qed.
Lemma kt_correct_self_intersections b : kt (correct_self_intersections fuel b).
Proof.
  unfold correct_self_intersections. apply kt_bind; [apply kt_pres; tauto1|]. intros l.
  apply kt_forM_acc. intros r acc. apply kt_bind; [apply kt_correct_ring_self|]. intros x. apply kt_pres; tauto1.
Qed.
Lemma tt_drop_equal d f i : (forall a b, pres treeR (f a b)) -> pres treeR (drop_equal fuel d f i).
Proof. intros H. unfold drop_equal. tauto1. Qed.
Lemma tt_remove_duplicate_points i j : pres treeR (remove_duplicate_points fuel i j).
Proof.
  unfold remove_duplicate_points.
  repeat first [progress tauto1|apply tt_drop_equal; auto with pres].
Qed.
Hint Resolve tt_remove_duplicate_points : pres.
Lemma tt_collinear_different i j : pres treeR (collinear_different_rings fuel i j).
Proof. go collinear_different_rings. Qed.
Lemma tt_collinear_same i j : pres treeR (collinear_same_ring fuel i j).
Proof. go collinear_same_ring. Qed.
Hint Resolve tt_collinear_different tt_collinear_same : pres.
Lemma tt_process_collinear_edges i j : pres treeR (process_collinear_edges fuel i j).
Proof. go process_collinear_edges. Qed.
Hint Resolve tt_process_collinear_edges : pres.
Lemma tt_correct_collinear_repeats l a b : pres treeR (correct_collinear_repeats fuel l a b).
Proof. go correct_collinear_repeats. Qed.
Lemma tt_correct_collinear_edges : pres treeR (correct_collinear_edges fuel).
Proof.
  unfold correct_collinear_edges. tauto1. apply ut_for_repeats; [exact _|]. intros.
  apply tt_correct_collinear_repeats.
Qed.
Hint Resolve tt_correct_collinear_edges : pres.

(** the tree built from scratch *)
Lemma tt_find_parent (X : rid -> Prop) r l : X r -> pres (treeX X) (find_parent fuel r l).
Proof.
  intros H. induction l as [|q l IH]; cbn [find_parent]; tauto1. apply tx_reassign_as_child. exact H.
Qed.
Lemma tt_correct_tree_ring (X : rid -> Prop) l r : X r -> pres (treeX X) (correct_tree_ring fuel l r).
Proof.
  intros H. unfold correct_tree_ring.
  repeat first [progress tauto1|apply tt_find_parent; exact H|apply tx_reassign_as_child; exact H].
Qed.
Lemma tt_correct_tree_loop (X : rid -> Prop) l : (forall r, In r l -> X r) ->
  forall b, pres (treeX X) (correct_tree_loop fuel b l).
Proof.
  induction l as [|r l IH]; intros H b; cbn [correct_tree_loop]; [tauto1|].
  apply pres_bind; [exact _|apply tt_correct_tree_ring; apply H; left; reflexivity|]. intros ?.
  apply IH. intros q G. apply H. right. exact G.
Qed.
Lemma all_rings_lt s r : In r (all_rings s) -> (r < s_rnext s)%positive.
Proof.
  unfold all_rings. intros H. apply in_map_iff in H. destruct H as (n & <- & H). apply in_seq in H. lia.
Qed.
Lemma reversed_sorted_in s l s' : reversed_sorted_rings fuel s = Ok (l, s') ->
  forall r, In r l -> (r < s_rnext s)%positive.
Proof.
  intros E r H. unfold reversed_sorted_rings in E. inv_bind E s0 s1 E1. apply get_Ok in E1. destruct E1 as (-> & ->).
  unfold py_sort_rev in E. inv_bind E l' s1 E1. apply ret_Ok in E. destruct E as (-> & ->).
  apply all_rings_lt. apply py_sort_perm in E1. apply in_rev in H.
  apply in_rev. eapply Permutation_in; [symmetry; exact E1|exact H].
Qed.
Lemma kt_correct_tree : kt (correct_tree fuel).
Proof.
  intros s u s' T E. unfold correct_tree in E. inv_bind E l s1 E1.
  pose proof (reversed_sorted_in _ _ _ E1) as B.
  assert (R1 : treeR s s1) by (eapply ut_reversed_sorted_rings; [exact _|exact E1]).
  destruct (R1 T) as (T1 & L1 & _); [intros ? []|].
  destruct (tt_correct_tree_loop (fun r => In r l) l (fun r H => H) [] _ _ _ E T1) as (T2 & _); [|exact T2].
  intros r H. eapply Pos.lt_le_trans; [apply B; exact H|exact L1].
Qed.

(** chained rings *)
Lemma ut_forM_acc' {A B} (l : list A) (f : A -> B -> prog B) b :
  (forall a b, pres treeR (f a b)) -> pres treeR (forM_acc l f b).
Proof. intros H. apply ut_forM_acc; [exact _|exact H]. Qed.
Lemma kt_reconnect a b c d l : kt (reconnect fuel a b c d l).
Proof.
  unfold reconnect. apply kt_bind; [apply kt_pres; tauto1|]. intros h.
  apply kt_bind; [apply kt_pres; tauto1|]. intros [[[[il origin] o1] o2] changed]. cbv zeta.
  do 3 (apply kt_bind; [apply kt_pres; tauto1|]; intros ?).
  eapply tri_bind with (Q := fun new => waiting [new]).
  { eapply (tri_pre _ tree_ok (waiting [])); [apply waiting_create|]. intros s. apply (proj2 (waiting_nil s)). }
  intros new. do 8 wstep.
  eapply tri_bind with (Q := fun _ => waiting []).
  { destruct a0.
    - eapply tri_bind; [intros s u s' W E; apply assign_as_child_put in E; eapply waiting_put; eassumption|].
      intros ?. wstep. wp.
    - eapply tri_bind; [intros s u s' W E; apply assign_as_sibling_put in E; eapply waiting_put; eassumption|].
      intros ?. wp. }
  intros ?. eapply tri_weak with (Q' := fun _ => tree_ok) (I' := tree_ok); [|intros s W; apply W|auto].
  apply kt_pres. repeat first [progress tauto1|apply ut_forM_acc'].
Qed.
Lemma kt_ret {A} (a : A) : kt (ret a). Proof. apply kt_pres. tauto1. Qed.
Lemma kt_process_single i j : kt (process_single_intersection fuel i j).
Proof.
  unfold process_single_intersection.
  repeat first [apply kt_reconnect
               |apply kt_bind; [apply kt_pres; solve [tauto1]|intros ?]
               |apply kt_ret
               |match goal with |- kt (let _ := _ in _) => cbv zeta end
               |match goal with |- kt (match ?x with _ => _ end) => destruct x end
               |apply kt_pres; solve [tauto1]].
Qed.
Lemma kt_for {A} (l : list A) f : (forall a, kt (f a)) -> kt (forM l f).
Proof. intros H. apply tri_for. intros a _. apply H. Qed.
Lemma kt_correct_chained_repeats l a b : kt (correct_chained_repeats fuel l a b).
Proof.
  unfold correct_chained_repeats. apply kt_for. intros k. do 2 (apply kt_bind; [apply kt_pres; tauto1|]; intros ?).
  destruct (is_none _); [apply kt_ret|]. apply kt_for. intros k'.
  do 2 (apply kt_bind; [apply kt_pres; tauto1|]; intros ?). destruct (is_none _); [apply kt_ret|].
  apply kt_process_single.
Qed.
Lemma kt_loop {X T} f (b : X -> prog (X + T)) x : (forall x, kt (b x)) -> kt (loopM f b x).
Proof.
  intros H. apply (tri_loop f b (fun _ => tree_ok) (fun _ => tree_ok)). intros y.
  eapply tri_post; [apply H|]. intros [?|?] s G; exact G.
Qed.
Lemma kt_for_repeats l f : (forall a b, kt (f a b)) -> kt (for_repeats l f).
Proof.
  intros H. unfold for_repeats. apply kt_loop. intros [[c p] i]. destruct (_ <? _)%nat; [|apply kt_ret].
  do 3 (apply kt_bind; [apply kt_pres; tauto1|]; intros ?). cbv zeta. destruct (_ && _); [apply kt_ret|].
  destruct (_ =? 0)%nat; [apply kt_ret|]. apply kt_bind; [apply H|]. intros ?. apply kt_ret.
Qed.
Lemma kt_correct_chained_rings : kt (correct_chained_rings fuel).
Proof.
  unfold correct_chained_rings. apply kt_bind; [apply kt_pres; tauto1|]. intros l.
  destruct (_ <? _)%nat; [apply kt_ret|]. apply kt_bind; [apply kt_pres; tauto1|]. intros ?.
  apply kt_for_repeats. apply kt_correct_chained_repeats.
Qed.
Lemma kt_correct_topology : kt (correct_topology fuel).
Proof.
  unfold correct_topology. do 3 (apply kt_bind; [apply kt_pres; tauto1|]; intros ?).
  apply kt_bind; [apply kt_correct_self_intersections|]. intros ?.
  apply kt_bind; [apply kt_correct_tree|]. intros ?. apply kt_loop. intros ?.
  apply kt_bind; [apply kt_correct_chained_rings|]. intros ?.
  apply kt_bind; [apply kt_correct_self_intersections|]. intros ?. apply kt_ret.
Qed.
End Topology.
