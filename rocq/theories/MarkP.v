(** * Rings are marked as corrected in two places only *)
From Coq Require Import ZArith List Bool Lia FMapPositive Permutation.
From Coq Require Import Floats.SpecFloat.
From RecordUpdate Require Import RecordSet.
From Verif Require Import Py Monad Utils Geometry LinearRingM BoundM LocalMinimumM
     StateM PointNodeM RingM SweepM TopologyM WagyuM HoareP SpecRing SpecHeap SpecRings SpecTree SweepFrameP OrderP VatP
     CircleP SplitP NodeFrameP RingedP.
Import ListNotations RecordSetNotations.
Open Scope Z_scope.

(** no ring was marked *)
Definition fewer (s s' : st) : Prop := forall q, r_corrected (ring_at s' q) = true -> r_corrected (ring_at s q) = true.
#[export] Instance fewer_pre : PreOrd fewer.
Proof. split; [intros s q; auto|]. intros a b c H K q X. auto. Qed.
#[export] Instance fewer_rel : NodeRel fewer.
Proof. split; [typeclasses eauto|]. intros s s' (_ & _ & _ & _ & H) q. rewrite (proj2 (H q)). auto. Qed.
#[export] Hint Resolve fewer_pre fewer_rel : pres.
Lemma mk_upd_node i f : pres fewer (upd_node i f).
Proof. apply pres_modify. intros s q H. exact H. Qed.
Lemma mk_upd_ring r f : (forall x, r_corrected (f x) = true -> r_corrected x = true) -> pres fewer (upd_ring r f).
Proof. intros H s u s' E q. rewrite upd_ring_rput in E. injection E as _ <-. rewrite ring_at_rput. destruct (Pos.eqb_spec r q) as [<-|_]; auto. Qed.
Lemma mk_create_ring : pres fewer create_ring.
Proof. intros s r s' E q. rewrite create_ring_run in E. injection E as <- <-. rewrite ring_at_alloc. destruct (Pos.eqb_spec (s_rnext s) q) as [<-|_]; [discriminate|auto]. Qed.
#[export] Hint Resolve mk_upd_node mk_create_ring : pres.
Ltac mk1 := first [apply mk_upd_ring; intros ?; cbn; solve [auto|discriminate]|apply pres_modify; intros ? ? ?; assumption].
Ltac mk := repeat first [progress pres_step|mk1].
Ltac go f := intros; unfold f; mk.
Lemma mk_set_next i o : pres fewer (set_next i o).
Proof. go set_next. Qed.
#[export] Hint Resolve mk_set_next : pres.
Lemma mk_set_prev i o : pres fewer (set_prev i o).
Proof. go set_prev. Qed.
#[export] Hint Resolve mk_set_prev : pres.
Lemma mk_set_nring i o : pres fewer (set_nring i o).
Proof. go set_nring. Qed.
#[export] Hint Resolve mk_set_nring : pres.
Lemma mk_iter_nodes fuel i body : (forall n, pres fewer (body n)) -> pres fewer (iter_nodes fuel i body).
Proof. intros H. unfold iter_nodes. mk. Qed.
Lemma mk_reverse_nodes fuel i : pres fewer (reverse_nodes fuel i).
Proof. unfold reverse_nodes. apply mk_iter_nodes. intros; auto with pres. Qed.
#[export] Hint Resolve mk_reverse_nodes : pres.
Lemma mk_place_before i o : pres fewer (place_before i o).
Proof. go place_before. Qed.
#[export] Hint Resolve mk_place_before : pres.
Lemma mk_detach i : pres fewer (detach i).
Proof. go detach. Qed.
#[export] Hint Resolve mk_detach : pres.
Lemma mk_detach_until fuel x y : pres fewer (detach_until fuel x y).
Proof. go detach_until. Qed.
#[export] Hint Resolve mk_detach_until : pres.
Lemma mk_detach_do fuel x y : pres fewer (detach_do fuel x y).
Proof. go detach_do. Qed.
#[export] Hint Resolve mk_detach_do : pres.
Lemma mk_link p e : pres fewer (link p e).
Proof. go link. Qed.
#[export] Hint Resolve mk_link : pres.
Lemma mk_fix_collinear_path fuel p : pres fewer (fix_collinear_path fuel p).
Proof. go fix_collinear_path. Qed.
#[export] Hint Resolve mk_fix_collinear_path : pres.
Lemma mk_create_point_node r p b : pres fewer (create_point_node r p b).
Proof. go create_point_node. Qed.
#[export] Hint Resolve mk_create_point_node : pres.
Lemma mk_clear_nodes fuel n : pres fewer (clear_nodes fuel n).
Proof. go clear_nodes. Qed.
#[export] Hint Resolve mk_clear_nodes : pres.
Lemma mk_update_points fuel r : pres fewer (update_points fuel r).
Proof. unfold update_points. mk. all: try (apply mk_iter_nodes; intros; auto with pres). Qed.
#[export] Hint Resolve mk_update_points : pres.
Lemma mk_iter_children fuel o body : (forall k r, pres fewer (body k r)) -> pres fewer (iter_children fuel o body).
Proof. intros H. apply nf_iter_children; [typeclasses eauto|exact H]. Qed.
Lemma mk_remove_ring fuel d : forall r b c, pres fewer (remove_ring fuel d r b c).
Proof. induction d as [|d IH]; intros r b c; cbn [remove_ring]; [apply pres_nofuel|]. apply pres_bind; [typeclasses eauto|apply mk_iter_children; mk|]. mk. Qed.
#[export] Hint Resolve mk_remove_ring : pres.
Lemma mk_remove_points fuel d : forall r b c, pres fewer (remove_ring_and_points fuel d r b c).
Proof. induction d as [|d IH]; intros r b c; cbn [remove_ring_and_points]; [apply pres_nofuel|]. apply pres_bind; [typeclasses eauto|apply mk_iter_children; mk|]. mk. Qed.
Lemma mk_replace_ring fuel r o : pres fewer (replace_ring fuel r o).
Proof. unfold replace_ring. destruct (opt_is _ _); [apply pres_raise|]. apply pres_bind; [typeclasses eauto|apply mk_iter_children; mk|]. mk. Qed.
#[export] Hint Resolve mk_remove_points mk_replace_ring : pres.
(** ** The sweep *)
Lemma mk_add_first_point i p : pres fewer (add_first_point i p).
Proof. go add_first_point. Qed.
#[export] Hint Resolve mk_add_first_point : pres.
Lemma mk_put_point i p : pres fewer (put_point i p).
Proof. go put_point. Qed.
#[export] Hint Resolve mk_put_point : pres.
Lemma mk_hot_pixel_walk i e b g h l : pres fewer (hot_pixel_walk i e b g h l).
Proof. induction l as [|p l IH]; cbn [hot_pixel_walk]; mk. Qed.
#[export] Hint Resolve mk_hot_pixel_walk : pres.
Lemma mk_hot_pixel_set_left_to_right y a b i ad hp : pres fewer (hot_pixel_set_left_to_right y a b i ad hp).
Proof. go hot_pixel_set_left_to_right. Qed.
#[export] Hint Resolve mk_hot_pixel_set_left_to_right : pres.
Lemma mk_hot_pixel_set_right_to_left y a b i ad hp : pres fewer (hot_pixel_set_right_to_left y a b i ad hp).
Proof. go hot_pixel_set_right_to_left. Qed.
#[export] Hint Resolve mk_hot_pixel_set_right_to_left : pres.
Lemma mk_insert_hot_pixels_in_path i p b : pres fewer (insert_hot_pixels_in_path i p b).
Proof. go insert_hot_pixels_in_path. Qed.
#[export] Hint Resolve mk_insert_hot_pixels_in_path : pres.
Lemma mk_add_point_to_ring i p : pres fewer (add_point_to_ring i p).
Proof. go add_point_to_ring. Qed.
#[export] Hint Resolve mk_add_point_to_ring : pres.
Lemma mk_join_chains a b c d e : pres fewer (join_chains a b c d e).
Proof. go join_chains. Qed.
#[export] Hint Resolve mk_join_chains : pres.
Lemma mk_add_point i p : pres fewer (add_point i p). Proof. go add_point. Qed.
#[export] Hint Resolve mk_add_point : pres.
Lemma mk_add_lmin p i j : pres fewer (add_local_minimum_point p i j). Proof. go add_local_minimum_point. Qed.
#[export] Hint Resolve mk_add_lmin : pres.
Lemma mk_append_ring fuel i j : pres fewer (append_ring fuel i j). Proof. go append_ring. Qed.
#[export] Hint Resolve mk_append_ring : pres.
Lemma mk_add_lmax fuel p i j : pres fewer (add_local_maximum_point fuel p i j). Proof. go add_local_maximum_point. Qed.
#[export] Hint Resolve mk_add_lmax : pres.
Lemma mk_intersect_bounds fuel op a b p i j : pres fewer (intersect_bounds fuel op a b p i j).
Proof. go intersect_bounds. Qed.
Lemma mk_insert_lm op a b i j : pres fewer (insert_lm_left_and_right_bound op a b i j).
Proof. go insert_lm_left_and_right_bound. Qed.
#[export] Hint Resolve mk_intersect_bounds mk_insert_lm : pres.
Lemma mk_insert_local_minima fuel op a b h y ms k : pres fewer (insert_local_minima fuel op a b h y ms k).
Proof. go insert_local_minima. Qed.
#[export] Hint Resolve mk_insert_local_minima : pres.
Lemma mk_process_intersect_list fuel op a b c : forall l,
  pres fewer (process_intersect_list fuel op a b l c).
Proof.
  induction c as [|c IH]; intros [|n l]; cbn [process_intersect_list]; mk.
Qed.
#[export] Hint Resolve mk_process_intersect_list : pres.
Lemma mk_process_intersections fuel op a b y : pres fewer (process_intersections fuel op a b y).
Proof. go process_intersections. Qed.
Lemma mk_add_hp_ltr i stop n : forall k, pres fewer (add_hot_pixels_ltr n stop i k).
Proof. induction n as [|n IH]; intros k; cbn [add_hot_pixels_ltr]; mk. Qed.
Lemma mk_add_hp_rtl i stop k : pres fewer (add_hot_pixels_rtl stop i k).
Proof. induction k as [|n IH]; cbn [add_hot_pixels_rtl]; mk. Qed.
#[export] Hint Resolve mk_process_intersections mk_add_hp_ltr mk_add_hp_rtl : pres.
Lemma mk_ltr_step fuel op a b i y mx mi j x : pres fewer (ltr_step fuel op a b i y mx mi j x).
Proof. unfold ltr_step. mk. Qed.
Lemma mk_rtl_step fuel op a b i y mx mi j x : pres fewer (rtl_step fuel op a b i y mx mi j x).
Proof. unfold rtl_step. mk. Qed.
#[export] Hint Resolve mk_ltr_step mk_rtl_step : pres.
Lemma mk_ltr_loop fuel op a b i y mx mi js : forall x, pres fewer (ltr_loop fuel op a b i y mx mi js x).
Proof. induction js as [|j js IH]; intros x; cbn [ltr_loop]; mk. Qed.
Lemma mk_rtl_loop fuel op a b i y mx mi js : forall x, pres fewer (rtl_loop fuel op a b i y mx mi js x).
Proof. induction js as [|j js IH]; intros x; cbn [rtl_loop]; mk. Qed.
Lemma mk_finish i k : pres fewer (finish_horizontal i k). Proof. go finish_horizontal. Qed.
#[export] Hint Resolve mk_ltr_loop mk_rtl_loop mk_finish : pres.
Lemma mk_ph_ltr fuel op a b y k : pres fewer (process_horizontal_left_to_right fuel op a b y k).
Proof. go process_horizontal_left_to_right. Qed.
Lemma mk_ph_rtl fuel op a b y k : pres fewer (process_horizontal_right_to_left fuel op a b y k).
Proof. go process_horizontal_right_to_left. Qed.
#[export] Hint Resolve mk_ph_ltr mk_ph_rtl : pres.
Lemma mk_ph fuel op a b y k : pres fewer (process_horizontal fuel op a b y k).
Proof. go process_horizontal. Qed.
#[export] Hint Resolve mk_ph : pres.
Lemma mk_phs fuel op a b y : pres fewer (process_horizontals fuel op a b y).
Proof. go process_horizontals. Qed.
Lemma mk_maxima_walk fuel op a b k m : pres fewer (maxima_walk fuel op a b k m).
Proof.
  unfold maxima_walk. apply pres_bind; [typeclasses eauto|auto with pres|]. intros n.
  generalize (range (S k) n) as js. generalize false. intros b0 js. revert k b0.
  induction js as [|j js IH]; intros k' sk; mk.
Qed.
#[export] Hint Resolve mk_phs mk_maxima_walk : pres.
Lemma mk_do_maxima fuel op a b k m : pres fewer (do_maxima fuel op a b k m). Proof. go do_maxima. Qed.
#[export] Hint Resolve mk_do_maxima : pres.
Lemma mk_top_step fuel op a b y k i : pres fewer (top_step fuel op a b y k i). Proof. go top_step. Qed.
#[export] Hint Resolve mk_top_step : pres.
Lemma mk_peats fuel op a b y ms k : pres fewer (process_edges_at_top_of_scanbeam fuel op a b y ms k).
Proof. go process_edges_at_top_of_scanbeam. Qed.
#[export] Hint Resolve mk_peats : pres.
Lemma mk_execute_vatti fuel op a b ms : pres fewer (execute_vatti fuel op a b ms).
Proof. go execute_vatti. Qed.
#[export] Hint Resolve mk_execute_vatti : pres.
(** ** The corrections *)
Lemma mk_correct_orientation fuel r : pres fewer (correct_orientation fuel r).
Proof. go correct_orientation. Qed.
#[export] Hint Resolve mk_correct_orientation : pres.
Lemma mk_correct_orientations fuel : pres fewer (correct_orientations fuel).
Proof. go correct_orientations. Qed.
#[export] Hint Resolve mk_correct_orientations : pres.
Lemma mk_correct_self_intersection fuel i j : pres fewer (correct_self_intersection fuel i j).
Proof. go correct_self_intersection. Qed.
#[export] Hint Resolve mk_correct_self_intersection : pres.
Lemma mk_acc {A B} (l : list A) (f : A -> B -> prog B) b : (forall a b, pres fewer (f a b)) -> pres fewer (forM_acc l f b).
Proof. intros H. revert b. induction l as [|a l IH]; intros b; cbn; [apply pres_ret; typeclasses eauto|]. apply pres_bind; [typeclasses eauto|apply H|exact IH]. Qed.
Lemma mk_repeated fuel l a b c : pres fewer (correct_repeated_points fuel l a b c).
Proof. unfold correct_repeated_points. apply mk_acc. intros k acc. mk. apply mk_acc. mk. Qed.
#[export] Hint Resolve mk_repeated : pres.
Lemma mk_find_and_correct_repeated_points fuel r : pres fewer (find_and_correct_repeated_points fuel r).
Proof. go find_and_correct_repeated_points. Qed.
#[export] Hint Resolve mk_find_and_correct_repeated_points : pres.
Lemma mk_unlink i o : pres fewer (unlink i o).
Proof. go unlink. Qed.
#[export] Hint Resolve mk_unlink : pres.
Lemma mk_drop_next i o : pres fewer (drop_next i o).
Proof. go drop_next. Qed.
#[export] Hint Resolve mk_drop_next : pres.
Lemma mk_drop_prev i o : pres fewer (drop_prev i o).
Proof. go drop_prev. Qed.
#[export] Hint Resolve mk_drop_prev : pres.
Lemma mk_drop_equal fuel dir drop i : (forall i o, pres fewer (drop i o)) -> pres fewer (drop_equal fuel dir drop i).
Proof. intros H. unfold drop_equal. mk. Qed.
Lemma mk_remove_duplicate_points fuel i j : pres fewer (remove_duplicate_points fuel i j).
Proof. go remove_duplicate_points. all: apply mk_drop_equal; mk. Qed.
#[export] Hint Resolve mk_remove_duplicate_points : pres.
Lemma mk_collinear_different_rings fuel i j : pres fewer (collinear_different_rings fuel i j).
Proof. go collinear_different_rings. Qed.
#[export] Hint Resolve mk_collinear_different_rings : pres.
Lemma mk_collinear_same_ring fuel i j : pres fewer (collinear_same_ring fuel i j).
Proof. go collinear_same_ring. Qed.
#[export] Hint Resolve mk_collinear_same_ring : pres.
Lemma mk_process_collinear_edges fuel i j : pres fewer (process_collinear_edges fuel i j).
Proof. go process_collinear_edges. Qed.
#[export] Hint Resolve mk_process_collinear_edges : pres.
Lemma mk_correct_collinear_repeats fuel l a b : pres fewer (correct_collinear_repeats fuel l a b).
Proof. go correct_collinear_repeats. Qed.
#[export] Hint Resolve mk_correct_collinear_repeats : pres.
Lemma mk_collinear fuel : pres fewer (correct_collinear_edges fuel).
Proof. unfold correct_collinear_edges, for_repeats. mk. Qed.
