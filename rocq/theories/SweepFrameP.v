(** * The fields of a bound that no part of [execute] changes (C14) *)
From Coq Require Import ZArith List Bool Lia FMapPositive.
From Coq Require Import Floats.SpecFloat.
From RecordUpdate Require Import RecordSet.
From Verif Require Import Py Monad Utils Geometry LinearRingM BoundM LocalMinimumM
     StateM PointNodeM RingM SweepM TopologyM WagyuM HoareP.
Import ListNotations RecordSetNotations.
Open Scope Z_scope.

(** what [add_linear_ring] recorded about a bound *)
Definition static_of (b : bound) := (b_edges b, b_wd b, b_kind b, b_max b).
Definition static_rel (s s' : st) : Prop :=
  forall i, static_of (bget (s_bounds s') i) = static_of (bget (s_bounds s) i).
#[export] Instance static_pre : PreOrd static_rel.
Proof.
  split; [intros s i; reflexivity|]. intros s1 s2 s3 H1 H2 i. rewrite H2. apply H1.
Qed.
#[export] Instance static_sweep : SweepRel static_rel.
Proof. split; [apply static_pre|]. intros s s' (E & _) i. rewrite E. reflexivity. Qed.

#[export] Hint Resolve static_sweep static_pre : pres.
Lemma hget_hset {A} (d : A) h i a j :
  hget d (hset h i a) j = if Pos.eqb i j then a else hget d h j.
Proof.
  unfold hget, hset. destruct (Pos.eqb_spec i j) as [->|N].
  - rewrite PositiveMap.gss. reflexivity.
  - rewrite PositiveMap.gso by congruence. reflexivity.
Qed.
Lemma bget_hset h i a j : bget (hset h i a) j = if Pos.eqb i j then a else bget h j.
Proof. apply hget_hset. Qed.
Lemma bget_hset_eq h i a : bget (hset h i a) i = a.
Proof. rewrite bget_hset, Pos.eqb_refl. reflexivity. Qed.
Lemma bget_hset_neq h i a j : i <> j -> bget (hset h i a) j = bget h j.
Proof. intros N. rewrite bget_hset. apply Pos.eqb_neq in N. rewrite N. reflexivity. Qed.

Notation R := static_rel.
Lemma st_upd_bound i f : (forall b, static_of (f b) = static_of b) -> pres R (upd_bound i f).
Proof.
  intros H. apply pres_modify. intros s j. cbn. rewrite bget_hset.
  destruct (Pos.eqb_spec i j) as [->|_]; [apply H|reflexivity].
Qed.
Lemma st_modify f : (forall s, s_bounds (f s) = s_bounds s) -> pres R (modify f).
Proof. intros H. apply pres_modify. intros s i. rewrite H. reflexivity. Qed.
Ltac stat_prim :=
  first [apply st_upd_bound; intros; reflexivity | apply st_modify; intros; reflexivity].
Ltac stat_auto := repeat first [progress pres_step | stat_prim].
Ltac stat f := intros; unfold f; stat_auto.

Lemma st_bd i : pres R (bd i). Proof. stat bd. Qed.
Lemma st_abl_get k : pres R (abl_get k). Proof. stat abl_get. Qed.
#[export] Hint Resolve st_bd st_abl_get : pres.
Lemma st_abl_bound k : pres R (abl_bound k). Proof. stat abl_bound. Qed.
Lemma st_abl_set k o : pres R (abl_set k o). Proof. stat abl_set. Qed.
#[export] Hint Resolve st_abl_bound st_abl_set : pres.
Lemma st_abl_swap k o : pres R (abl_swap k o). Proof. stat abl_swap. Qed.
Lemma st_abl_compact : pres R abl_compact. Proof. stat abl_compact. Qed.
Lemma st_current_edge i : pres R (current_edge i). Proof. stat current_edge. Qed.
Lemma st_next_edge i : pres R (next_edge i). Proof. stat next_edge. Qed.
Lemma st_push_hp p : pres R (push_hp p). Proof. stat push_hp. Qed.
Lemma st_insort_scan p : pres R (insort_scan p). Proof. stat insort_scan. Qed.
#[export] Hint Resolve st_abl_swap st_abl_compact st_current_edge st_next_edge st_push_hp st_insort_scan : pres.
Lemma st_set_winding_count a b k : pres R (set_winding_count a b k).
Proof. unfold set_winding_count. stat_auto. Qed.
Lemma st_is_intermediate i y : pres R (is_intermediate i y). Proof. stat is_intermediate. Qed.
Lemma st_is_maxima i y : pres R (is_maxima i y). Proof. stat is_maxima. Qed.
Lemma st_to_next_edge i : pres R (to_next_edge i). Proof. stat to_next_edge. Qed.
Lemma st_insert_bound_into_abl i j : pres R (insert_bound_into_abl i j). Proof. stat insert_bound_into_abl. Qed.
Lemma st_intersection_compare i j : pres R (intersection_compare i j). Proof. stat intersection_compare. Qed.
#[export] Hint Resolve st_set_winding_count st_is_intermediate st_is_maxima st_to_next_edge
  st_insert_bound_into_abl st_intersection_compare : pres.
Lemma st_update_current_x y : pres R (update_current_x y).
Proof. unfold update_current_x. stat_auto. Qed.
Lemma st_init_bound i s : pres R (init_bound i s). Proof. stat init_bound. Qed.
#[export] Hint Resolve st_update_current_x st_init_bound : pres.
Lemma st_initialize m : pres R (initialize m). Proof. stat initialize. Qed.
Lemma st_abl_ids : pres R abl_ids. Proof. stat abl_ids. Qed.
Lemma st_hot_pixels_on_swap i j : pres R (hot_pixels_on_swap i j). Proof. stat hot_pixels_on_swap. Qed.
#[export] Hint Resolve st_initialize st_abl_ids st_hot_pixels_on_swap : pres.
Lemma st_phpi fuel y : pres R (process_hot_pixel_intersections fuel y).
Proof. stat process_hot_pixel_intersections. Qed.
Lemma st_start_bound i : pres R (start_bound i). Proof. stat start_bound. Qed.
#[export] Hint Resolve st_phpi st_start_bound : pres.
Lemma st_insert_minima_hp fuel y ms k : pres R (insert_minima_hot_pixel fuel y ms k).
Proof. stat insert_minima_hot_pixel. Qed.
Lemma st_shift_bound y d i idx : forall k, pres R (shift_bound y d i k idx).
Proof. induction idx as [|j idx IH]; intros k; cbn [shift_bound]; stat_auto. Qed.
#[export] Hint Resolve st_insert_minima_hp st_shift_bound : pres.
Lemma st_horizontals_at_top y k : pres R (horizontals_at_top_scanbeam y k).
Proof. stat horizontals_at_top_scanbeam. Qed.
#[export] Hint Resolve st_horizontals_at_top : pres.
Lemma st_hot_pixel_edges_of fuel y i k : pres R (hot_pixel_edges_of fuel y i k).
Proof. stat hot_pixel_edges_of. Qed.
#[export] Hint Resolve st_hot_pixel_edges_of : pres.
Lemma st_process_hot_pixel_edges fuel y : pres R (process_hot_pixel_edges fuel y).
Proof. stat process_hot_pixel_edges. Qed.
Lemma st_sort_hot_pixels fuel : pres R (sort_hot_pixels fuel). Proof. stat sort_hot_pixels. Qed.
Lemma st_pop_scanbeam y : pres R (pop_scanbeam y). Proof. stat pop_scanbeam. Qed.
Lemma st_sweep_pending ms k : pres R (sweep_pending ms k). Proof. stat sweep_pending. Qed.
#[export] Hint Resolve st_process_hot_pixel_edges st_sort_hot_pixels st_pop_scanbeam st_sweep_pending : pres.
Lemma st_build_hot_pixels fuel ms : pres R (build_hot_pixels fuel ms).
Proof. stat build_hot_pixels. Qed.
Lemma st_set_hole_state i : pres R (set_hole_state i). Proof. stat set_hole_state. Qed.
#[export] Hint Resolve st_build_hot_pixels st_set_hole_state : pres.
Lemma st_add_first_point i p : pres R (add_first_point i p). Proof. stat add_first_point. Qed.
Lemma st_put_point i p : pres R (put_point i p). Proof. stat put_point. Qed.
#[export] Hint Resolve st_add_first_point st_put_point : pres.
Lemma st_hot_pixel_walk i x a sk sp l : pres R (hot_pixel_walk i x a sk sp l).
Proof. induction l as [|h l IH]; cbn [hot_pixel_walk]; stat_auto. Qed.
#[export] Hint Resolve st_hot_pixel_walk : pres.
Lemma st_hp_ltr y a b i g e : pres R (hot_pixel_set_left_to_right y a b i g e).
Proof. stat hot_pixel_set_left_to_right. Qed.
Lemma st_hp_rtl y a b i g e : pres R (hot_pixel_set_right_to_left y a b i g e).
Proof. stat hot_pixel_set_right_to_left. Qed.
#[export] Hint Resolve st_hp_ltr st_hp_rtl : pres.
Lemma st_insert_hp i p e : pres R (insert_hot_pixels_in_path i p e).
Proof. stat insert_hot_pixels_in_path. Qed.
#[export] Hint Resolve st_insert_hp : pres.
Lemma st_add_point_to_ring i p : pres R (add_point_to_ring i p). Proof. stat add_point_to_ring. Qed.
#[export] Hint Resolve st_add_point_to_ring : pres.
Lemma st_add_point i p : pres R (add_point i p). Proof. stat add_point. Qed.
#[export] Hint Resolve st_add_point : pres.
Lemma st_add_lmin p i j : pres R (add_local_minimum_point p i j). Proof. stat add_local_minimum_point. Qed.
Lemma st_join fuel a b c d : pres R (join_chains fuel a b c d). Proof. stat join_chains. Qed.
#[export] Hint Resolve st_add_lmin st_join : pres.
Lemma st_append_ring fuel i j : pres R (append_ring fuel i j). Proof. stat append_ring. Qed.
#[export] Hint Resolve st_append_ring : pres.
Lemma st_add_lmax fuel p i j : pres R (add_local_maximum_point fuel p i j). Proof. stat add_local_maximum_point. Qed.
Lemma st_swap_sides i j : pres R (swap_sides i j). Proof. stat swap_sides. Qed.
Lemma st_swap_rings i j : pres R (swap_rings i j). Proof. stat swap_rings. Qed.
#[export] Hint Resolve st_add_lmax st_swap_sides st_swap_rings : pres.
Lemma st_intersect_bounds fuel op a b p i j : pres R (intersect_bounds fuel op a b p i j).
Proof. stat intersect_bounds. Qed.
Lemma st_insert_lm op a b i j : pres R (insert_lm_left_and_right_bound op a b i j).
Proof. stat insert_lm_left_and_right_bound. Qed.
#[export] Hint Resolve st_intersect_bounds st_insert_lm : pres.
Lemma st_insert_local_minima fuel op a b h y ms k : pres R (insert_local_minima fuel op a b h y ms k).
Proof. stat insert_local_minima. Qed.
Lemma st_in_lt a b : pres R (in_lt a b). Proof. stat in_lt. Qed.
Lemma st_build_intersect_list fuel : pres R (build_intersect_list fuel).
Proof.
  intros s l s' E. unfold build_intersect_list in E.
  destruct (abl_ids s) as [[ids t]| |]; try discriminate.
  match type of E with match ?x with _ => _ end = _ => destruct x as [[? ?]| |] end; try discriminate.
  injection E as <- <-. apply R_refl.
Qed.
#[export] Hint Resolve st_insert_local_minima st_in_lt st_build_intersect_list : pres.
Lemma st_process_intersect_list fuel op a b c : forall l,
  pres R (process_intersect_list fuel op a b l c).
Proof.
  induction c as [|c IH]; intros [|n l]; cbn [process_intersect_list]; stat_auto.
Qed.
#[export] Hint Resolve st_process_intersect_list : pres.
Lemma st_process_intersections fuel op a b y : pres R (process_intersections fuel op a b y).
Proof. stat process_intersections. Qed.
Lemma st_update_hpi fuel y : pres R (update_current_hot_pixel_index fuel y).
Proof. stat update_current_hot_pixel_index. Qed.
Lemma st_add_hp_ltr i stop n : forall k, pres R (add_hot_pixels_ltr n stop i k).
Proof. induction n as [|n IH]; intros k; cbn [add_hot_pixels_ltr]; stat_auto. Qed.
Lemma st_add_hp_rtl i stop k : pres R (add_hot_pixels_rtl stop i k).
Proof. induction k as [|n IH]; cbn [add_hot_pixels_rtl]; stat_auto. Qed.
#[export] Hint Resolve st_process_intersections st_update_hpi st_add_hp_ltr st_add_hp_rtl : pres.
Lemma st_ltr_step fuel op a b i y mx mi j x : pres R (ltr_step fuel op a b i y mx mi j x).
Proof. unfold ltr_step. stat_auto. Qed.
Lemma st_rtl_step fuel op a b i y mx mi j x : pres R (rtl_step fuel op a b i y mx mi j x).
Proof. unfold rtl_step. stat_auto. Qed.
#[export] Hint Resolve st_ltr_step st_rtl_step : pres.
Lemma st_ltr_loop fuel op a b i y mx mi js : forall x, pres R (ltr_loop fuel op a b i y mx mi js x).
Proof. induction js as [|j js IH]; intros x; cbn [ltr_loop]; stat_auto. Qed.
Lemma st_rtl_loop fuel op a b i y mx mi js : forall x, pres R (rtl_loop fuel op a b i y mx mi js x).
Proof. induction js as [|j js IH]; intros x; cbn [rtl_loop]; stat_auto. Qed.
Lemma st_finish i k : pres R (finish_horizontal i k). Proof. stat finish_horizontal. Qed.
#[export] Hint Resolve st_ltr_loop st_rtl_loop st_finish : pres.
Lemma st_ph_ltr fuel op a b y k : pres R (process_horizontal_left_to_right fuel op a b y k).
Proof. stat process_horizontal_left_to_right. Qed.
Lemma st_ph_rtl fuel op a b y k : pres R (process_horizontal_right_to_left fuel op a b y k).
Proof. stat process_horizontal_right_to_left. Qed.
#[export] Hint Resolve st_ph_ltr st_ph_rtl : pres.
Lemma st_ph fuel op a b y k : pres R (process_horizontal fuel op a b y k).
Proof. stat process_horizontal. Qed.
#[export] Hint Resolve st_ph : pres.
Lemma st_phs fuel op a b y : pres R (process_horizontals fuel op a b y).
Proof. stat process_horizontals. Qed.
Lemma st_maxima_walk fuel op a b k m : pres R (maxima_walk fuel op a b k m).
Proof.
  unfold maxima_walk. apply pres_bind; [typeclasses eauto|auto with pres|]. intros n.
  generalize (range (S k) n) as js. generalize false. intros b0 js. revert k b0.
  induction js as [|j js IH]; intros k' sk; stat_auto.
Qed.
#[export] Hint Resolve st_phs st_maxima_walk : pres.
Lemma st_do_maxima fuel op a b k m : pres R (do_maxima fuel op a b k m). Proof. stat do_maxima. Qed.
#[export] Hint Resolve st_do_maxima : pres.
Lemma st_top_step fuel op a b y k i : pres R (top_step fuel op a b y k i). Proof. stat top_step. Qed.
#[export] Hint Resolve st_top_step : pres.
Lemma st_peats fuel op a b y ms k : pres R (process_edges_at_top_of_scanbeam fuel op a b y ms k).
Proof. stat process_edges_at_top_of_scanbeam. Qed.
#[export] Hint Resolve st_peats : pres.
Lemma st_execute_vatti fuel op a b ms : pres R (execute_vatti fuel op a b ms).
Proof. stat execute_vatti. Qed.
#[export] Hint Resolve st_execute_vatti : pres.

(** the output code only reads *)
Lemma st_points_of l : pres R (points_of l). Proof. stat points_of. Qed.
Lemma st_nodes_list fuel n : pres R (nodes_list fuel n). Proof. stat nodes_list. Qed.
Lemma st_nodes_list_rev fuel n : pres R (nodes_list_rev fuel n). Proof. stat nodes_list_rev. Qed.
#[export] Hint Resolve st_points_of st_nodes_list st_nodes_list_rev : pres.
Lemma st_ring_output fuel b r : pres R (ring_output fuel b r). Proof. stat ring_output. Qed.
#[export] Hint Resolve st_ring_output : pres.
Lemma st_mapM {A B} (f : A -> prog B) l : (forall a, pres R (f a)) -> pres R (mapM f l).
Proof. intros H. induction l as [|a l IH]; cbn [mapM]; stat_auto. Qed.
Lemma st_rings_to_polygons fuel b d : forall l, pres R (rings_to_polygons fuel d b l).
Proof.
  induction d as [|d IH]; intros l; cbn [rings_to_polygons]; [apply pres_nofuel|].
  repeat first [progress stat_auto|apply st_mapM; intro].
Qed.
#[export] Hint Resolve st_rings_to_polygons : pres.
Lemma st_build_result fuel b : pres R (build_result fuel b). Proof. stat build_result. Qed.
#[export] Hint Resolve st_build_result : pres.
Lemma st_run fuel op a b rv ms : pres R (run fuel op a b rv ms). Proof. stat run. Qed.
