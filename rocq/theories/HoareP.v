(** * Preservation of relations by programs, and the frame of the ring code:
      nothing in point_node.py, ring.py or the topology part touches bounds,
      active bounds, hot pixels or scanbeams. *)
From Coq Require Import ZArith List Bool Lia FMapPositive.
From Coq Require Import Floats.SpecFloat.
From RecordUpdate Require Import RecordSet.
From Verif Require Import Py Monad Utils Geometry LinearRingM BoundM LocalMinimumM
     StateM PointNodeM RingM TopologyM.
Import ListNotations RecordSetNotations.
Open Scope Z_scope.

(** every successful run of [m] relates the initial and the final state *)
Definition pres (R : st -> st -> Prop) {A} (m : prog A) : Prop :=
  forall s a s', m s = Ok (a, s') -> R s s'.

Class PreOrd (R : st -> st -> Prop) : Prop := {
  R_refl : forall s, R s s;
  R_trans : forall s1 s2 s3, R s1 s2 -> R s2 s3 -> R s1 s3
}.

Section Pres.
  Context (R : st -> st -> Prop) {HR : PreOrd R}.
  Lemma pres_ret {A} (a : A) : pres R (ret a).
  Proof. intros s b s' E. injection E as <- <-. apply R_refl. Qed.
  Lemma pres_get : pres R get.
  Proof. intros s b s' E. injection E as <- <-. apply R_refl. Qed.
  Lemma pres_gets {A} (f : st -> A) : pres R (gets f).
  Proof. intros s b s' E. injection E as <- <-. apply R_refl. Qed.
  Lemma pres_raise {A} e : pres R (raise (A := A) e).
  Proof. intros s b s' E. discriminate. Qed.
  Lemma pres_nofuel {A} : pres R (nofuel (A := A)).
  Proof. intros s b s' E. discriminate. Qed.
  Lemma pres_lift {A} (r : res A) : pres R (lift r).
  Proof. intros s b s' E. destruct r; try discriminate. injection E as <- <-. apply R_refl. Qed.
  Lemma pres_deref {A} (o : option A) : pres R (deref o).
  Proof. destruct o; [apply pres_ret|apply pres_raise]. Qed.
  Lemma pres_bind {A B} (m : prog A) (k : A -> prog B) :
    pres R m -> (forall a, pres R (k a)) -> pres R (bind m k).
  Proof.
    intros Hm Hk s b s' E. unfold bind in E.
    destruct (m s) as [[a s1]| |] eqn:Em; try discriminate.
    eapply R_trans; [eapply Hm; exact Em|eapply Hk; exact E].
  Qed.
  Lemma pres_loopM {X T} fuel (body : X -> prog (X + T)) :
    (forall x, pres R (body x)) -> forall x, pres R (loopM fuel body x).
  Proof.
    intros Hb. induction fuel as [|fuel IH]; intros x; cbn [loopM]; [apply pres_nofuel|].
    apply pres_bind; [apply Hb|]. intros [x'|v]; [apply IH|apply pres_ret].
  Qed.
  Lemma pres_forM {A} (l : list A) body : (forall a, pres R (body a)) -> pres R (forM l body).
  Proof.
    intros Hb. induction l as [|a l IH]; cbn [forM]; [apply pres_ret|].
    apply pres_bind; [apply Hb|]. intros _. exact IH.
  Qed.
  Lemma pres_for_breakM {A B} (l : list A) (body : A -> prog (option B)) :
    (forall a, pres R (body a)) -> pres R (for_breakM l body).
  Proof.
    intros Hb. induction l as [|a l IH]; cbn [for_breakM]; [apply pres_ret|].
    apply pres_bind; [apply Hb|]. intros [v|]; [apply pres_ret|exact IH].
  Qed.
  Lemma pres_py_sort {A} (lt : A -> A -> prog bool) l :
    (forall a b, pres R (lt a b)) -> pres R (py_sort lt l).
  Proof.
    intros Hl.
    assert (Hc : forall d l p, pres R (count_run lt d p l)).
    { intros d l0. induction l0 as [|x l0 IH]; intros p; cbn [count_run]; [apply pres_ret|].
      apply pres_bind; [apply Hl|]. intros b. destruct (Bool.eqb b d); [|apply pres_ret].
      apply pres_bind; [apply IH|]. intros [run rest]. apply pres_ret. }
    assert (Hs : forall f pre x lo hi, pres R (bin_search lt f pre x lo hi)).
    { intros f. induction f as [|f IH]; intros pre x lo hi; cbn [bin_search]; [apply pres_ret|].
      destruct (lo <? hi)%nat; [|apply pres_ret].
      destruct (nth_error _ _); [|apply pres_raise].
      apply pres_bind; [apply Hl|]. intros []; apply IH. }
    assert (Hi : forall l pre, pres R (binary_insertion lt pre l)).
    { intros l0. induction l0 as [|x l0 IH]; intros pre; cbn [binary_insertion]; [apply pres_ret|].
      apply pres_bind; [apply Hs|]. intros i. apply IH. }
    unfold py_sort. destruct l as [|x [|y l]]; try apply pres_ret.
    apply pres_bind; [apply Hl|]. intros d. apply pres_bind; [apply Hc|]. intros [run rest].
    apply Hi.
  Qed.
  Lemma pres_bubble_sort {A} (cmp : A -> A -> prog bool) sw fuel l :
    (forall a b, pres R (cmp a b)) -> (forall a b, pres R (sw a b)) ->
    pres R (bubble_sort cmp sw fuel l).
  Proof.
    intros Hc Hs. unfold bubble_sort. apply pres_loopM.
    assert (Hp : forall rest x, pres R (bubble_pass cmp sw x rest)).
    { intros rest. induction rest as [|y rest IH]; intros x; cbn [bubble_pass]; [apply pres_ret|].
      apply pres_bind; [apply Hc|]. intros [].
      - apply pres_bind; [apply IH|]. intros [? ?]. apply pres_ret.
      - apply pres_bind; [apply Hs|]. intros _. apply pres_bind; [apply IH|].
        intros [? ?]. apply pres_ret. }
    intros [|x rest]; cbn [bubble_body]; [apply pres_ret|].
    apply pres_bind; [apply Hp|]. intros [? ?]. apply pres_ret.
  Qed.
  Lemma pres_modify f : (forall s, R s (f s)) -> pres R (modify f).
  Proof. intros H s b s' E. injection E as <- <-. apply H. Qed.
  Lemma pres_mono {A} (R' : st -> st -> Prop) (m : prog A) :
    (forall s s', R' s s' -> R s s') -> pres R' m -> pres R m.
  Proof. intros H Hm s a s' E. apply H. eapply Hm. exact E. Qed.
End Pres.

Create HintDb pres.
#[export] Hint Resolve pres_ret pres_get pres_gets pres_raise pres_nofuel pres_lift pres_deref
  : pres.

(** syntax directed decomposition; named programs are closed by the hint base *)
Ltac pres_step :=
  lazymatch goal with
  | |- forall _, _ => intro
  | |- pres _ (let _ := _ in _) => cbv zeta
  | |- pres _ (match ?x with _ => _ end) => destruct x
  | |- pres _ (bind _ _) => apply pres_bind; [typeclasses eauto| |intro]
  | |- pres _ (loopM _ _ _) => apply pres_loopM; [typeclasses eauto|intro]
  | |- pres _ (forM _ _) => apply pres_forM; [typeclasses eauto|intro]
  | |- pres _ (for_breakM _ _) => apply pres_for_breakM; [typeclasses eauto|intro]
  | |- pres _ (py_sort _ _) => apply pres_py_sort; [typeclasses eauto|intros]
  | |- pres _ (bubble_sort _ _ _ _) => apply pres_bubble_sort; [typeclasses eauto|intros|intros]
  | |- pres _ (ret _) => apply pres_ret; typeclasses eauto
  | |- pres _ (gets _) => apply pres_gets; typeclasses eauto
  | |- pres _ get => apply pres_get; typeclasses eauto
  | |- pres _ (lift _) => apply pres_lift; typeclasses eauto
  | |- pres _ (deref _) => apply pres_deref; typeclasses eauto
  | |- pres _ (raise _) => apply pres_raise
  | |- pres _ nofuel => apply pres_nofuel
  | |- pres _ _ => solve [eauto with pres nocore]
  end.
Ltac pres_auto := repeat pres_step.

(** ** The frame of the ring code *)
Definition same_sweep (s s' : st) : Prop :=
  s_bounds s' = s_bounds s /\ s_abl s' = s_abl s /\ s_scan s' = s_scan s /\
  s_hp s' = s_hp s /\ s_hpi s' = s_hpi s.
#[export] Instance same_sweep_pre : PreOrd same_sweep.
Proof.
  split; [repeat split|]. intros s1 s2 s3 (?&?&?&?&?) (?&?&?&?&?).
  repeat split; congruence.
Qed.

(** a relation that only looks at the sweep structures *)
Class SweepRel (R : st -> st -> Prop) : Prop := {
  sr_pre :> PreOrd R;
  sr_sub : forall s s', same_sweep s s' -> R s s'
}.
#[export] Instance same_sweep_rel : SweepRel same_sweep.
Proof. split; [apply same_sweep_pre|auto]. Qed.

Section Frame.
  Context (R : st -> st -> Prop) {HR : SweepRel R}.
  Ltac prim := apply pres_modify; intros s; apply sr_sub; repeat split.
  Lemma pr_upd_node i f : pres R (upd_node i f). Proof. prim. Qed.
  Lemma pr_upd_ring i f : pres R (upd_ring i f). Proof. prim. Qed.
  Lemma pr_nd i : pres R (nd i). Proof. apply pres_gets. typeclasses eauto. Qed.
  Lemma pr_rg i : pres R (rg i). Proof. apply pres_gets. typeclasses eauto. Qed.
  Lemma pr_bd i : pres R (bd i). Proof. apply pres_gets. typeclasses eauto. Qed.
  Hint Resolve pr_upd_node pr_upd_ring pr_nd pr_rg pr_bd : pres.
  Ltac go f := intros; unfold f; pres_auto.
  Lemma pr_node_point i : pres R (node_point i). Proof. go node_point. Qed.
  Lemma pr_next_of i : pres R (next_of i). Proof. go next_of. Qed.
  Lemma pr_prev_of i : pres R (prev_of i). Proof. go prev_of. Qed.
  Lemma pr_set_next i o : pres R (set_next i o). Proof. go set_next. Qed.
  Lemma pr_set_prev i o : pres R (set_prev i o). Proof. go set_prev. Qed.
  Lemma pr_set_nring i o : pres R (set_nring i o). Proof. go set_nring. Qed.
  Lemma pr_node_eq i j : pres R (node_eq i j). Proof. go node_eq. Qed.
  Hint Resolve pr_node_point pr_next_of pr_prev_of pr_set_next pr_set_prev pr_set_nring pr_node_eq : pres.
  Lemma pr_node_eq_opt i j : pres R (node_eq_opt i j). Proof. go node_eq_opt. Qed.
  Lemma pr_children_of o : pres R (children_of o). Proof. go children_of. Qed.
  Lemma pr_set_children o l : pres R (set_children o l).
  Proof. unfold set_children. destruct o; [auto with pres|prim]. Qed.
  Hint Resolve pr_node_eq_opt pr_children_of pr_set_children : pres.

  (** PointNodeM *)
  Lemma pr_iter_nodes fuel i body : (forall n, pres R (body n)) -> pres R (iter_nodes fuel i body).
  Proof. intros H. unfold iter_nodes. pres_auto. Qed.
  Lemma pr_collect fuel d i : pres R (collect fuel d i). Proof. go collect. Qed.
  Lemma pr_reverse_nodes fuel i : pres R (reverse_nodes fuel i).
  Proof. unfold reverse_nodes. apply pr_iter_nodes. intros; auto with pres. Qed.
  Lemma pr_place_before i o : pres R (place_before i o). Proof. go place_before. Qed.
  Lemma pr_node_stats fuel i : pres R (node_stats fuel i). Proof. go node_stats. Qed.
  Lemma pr_points_slope i j : pres R (points_slope i j). Proof. go points_slope. Qed.
  Lemma pr_skip_equal fuel d i : pres R (skip_equal fuel d i). Proof. go skip_equal. Qed.
  Hint Resolve pr_collect pr_reverse_nodes pr_place_before pr_node_stats pr_points_slope
       pr_skip_equal : pres.
  Lemma pr_is_bottom_to fuel i j : pres R (is_bottom_to fuel i j). Proof. go is_bottom_to. Qed.
  Lemma pr_bottom_scan fuel i : pres R (bottom_scan fuel i). Proof. go bottom_scan. Qed.
  Lemma pr_skip_to_equal fuel i j : pres R (skip_to_equal fuel i j). Proof. go skip_to_equal. Qed.
  Hint Resolve pr_is_bottom_to pr_bottom_scan pr_skip_to_equal : pres.
  Lemma pr_bottom_node fuel i : pres R (bottom_node fuel i). Proof. go bottom_node. Qed.
  Lemma pr_pip fuel p i : pres R (point_in_polygon fuel p i). Proof. go point_in_polygon. Qed.
  Lemma pr_points_centroid i : pres R (points_centroid i). Proof. go points_centroid. Qed.
  Lemma pr_node_eq_opts i j : pres R (node_eq_opts i j). Proof. go node_eq_opts. Qed.
  Hint Resolve pr_bottom_node pr_pip pr_points_centroid pr_node_eq_opts : pres.
  Lemma pr_has_collinear_edge i j : pres R (has_collinear_edge i j). Proof. go has_collinear_edge. Qed.
  Lemma pr_slide fuel d i j k : pres R (slide fuel d i j k). Proof. go slide. Qed.
  Hint Resolve pr_has_collinear_edge pr_slide : pres.
  Lemma pr_collinear_search fuel i j : pres R (collinear_search fuel i j). Proof. go collinear_search. Qed.
  Lemma pr_skip_repeats fuel d b i j : pres R (skip_repeats fuel d b i j). Proof. go skip_repeats. Qed.
  Hint Resolve pr_collinear_search pr_skip_repeats : pres.
  Lemma pr_collinear_path fuel i j : pres R (collinear_path fuel i j). Proof. go collinear_path. Qed.
  Lemma pr_detach i : pres R (detach i). Proof. go detach. Qed.
  Hint Resolve pr_collinear_path pr_detach : pres.
  Lemma pr_detach_until fuel i j : pres R (detach_until fuel i j). Proof. go detach_until. Qed.
  Lemma pr_detach_do fuel i j : pres R (detach_do fuel i j). Proof. go detach_do. Qed.
  Lemma pr_link i j : pres R (link i j). Proof. go link. Qed.
  Hint Resolve pr_detach_until pr_detach_do pr_link : pres.
  Lemma pr_fix_collinear_path fuel p : pres R (fix_collinear_path fuel p).
  Proof. unfold fix_collinear_path. pres_auto. Qed.
  Hint Resolve pr_fix_collinear_path : pres.

  (** RingM *)
  Lemma pr_remove_from_children r o : pres R (remove_from_children r o). Proof. go remove_from_children. Qed.
  Lemma pr_set_to_children r o : pres R (set_to_children r o). Proof. go set_to_children. Qed.
  Lemma pr_set_stats r s : pres R (set_stats r s). Proof. go set_stats. Qed.
  Lemma pr_reset_stats r : pres R (reset_stats r). Proof. go reset_stats. Qed.
  Lemma pr_create_ring : pres R create_ring.
  Proof. unfold create_ring. pres_auto. prim. Qed.
  Hint Resolve pr_remove_from_children pr_set_to_children pr_set_stats pr_reset_stats pr_create_ring : pres.
  Lemma pr_create_point_node r p b : pres R (create_point_node r p b).
  Proof. unfold create_point_node. repeat first [progress pres_step|prim]. Qed.
  Lemma pr_iter_children fuel o body :
    (forall k r, pres R (body k r)) -> pres R (iter_children fuel o body).
  Proof. intros H. unfold iter_children. pres_auto. Qed.
  Lemma pr_clear_child_at o k : pres R (clear_child_at o k). Proof. go clear_child_at. Qed.
  Hint Resolve pr_create_point_node pr_clear_child_at : pres.

  Lemma pr_recalculate_stats fuel r : pres R (recalculate_stats fuel r). Proof. go recalculate_stats. Qed.
  Hint Resolve pr_recalculate_stats : pres.
  Lemma pr_ensure_stats fuel r : pres R (ensure_stats fuel r). Proof. go ensure_stats. Qed.
  Hint Resolve pr_ensure_stats : pres.
  Lemma pr_ring_area fuel r : pres R (ring_area fuel r). Proof. go ring_area. Qed.
  Lemma pr_ring_is_hole fuel r : pres R (ring_is_hole fuel r). Proof. go ring_is_hole. Qed.
  Lemma pr_ring_size fuel r : pres R (ring_size fuel r). Proof. go ring_size. Qed.
  Lemma pr_ring_depth fuel r : pres R (ring_depth fuel r). Proof. go ring_depth. Qed.
  Lemma pr_is_descendant_of fuel r o : pres R (is_descendant_of fuel r o). Proof. go is_descendant_of. Qed.
  Lemma pr_update_points fuel r : pres R (update_points fuel r).
  Proof. unfold update_points. pres_auto. apply pr_iter_nodes. intros; auto with pres. Qed.
  Lemma pr_with_points l : pres R (with_points l). Proof. go with_points. Qed.
  Hint Resolve pr_ring_area pr_ring_is_hole pr_ring_size pr_ring_depth pr_is_descendant_of
    pr_update_points pr_with_points : pres.
  Lemma pr_sorted_nodes fuel r : pres R (sorted_nodes fuel r).
  Proof. unfold sorted_nodes, nodes_list. pres_auto. Qed.
  Lemma pr_ensure_bottom fuel r : pres R (ensure_bottom fuel r). Proof. go ensure_bottom. Qed.
  Hint Resolve pr_sorted_nodes pr_ensure_bottom : pres.
  Lemma pr_lowermost_ring fuel r o : pres R (lowermost_ring fuel r o). Proof. go lowermost_ring. Qed.
  Lemma pr_is_convex fuel i : pres R (is_convex fuel i). Proof. go is_convex. Qed.
  Hint Resolve pr_lowermost_ring pr_is_convex : pres.
  Lemma pr_special fuel i j : pres R (inside_or_outside_special fuel i j).
  Proof. unfold inside_or_outside_special. pres_auto. Qed.
  Hint Resolve pr_special : pres.
  Lemma pr_inside_of fuel r o : pres R (inside_of fuel r o). Proof. go inside_of. Qed.
  Lemma pr_orientation_clash fuel r o : pres R (orientation_clash fuel r o). Proof. go orientation_clash. Qed.
  Hint Resolve pr_inside_of pr_orientation_clash : pres.
  Lemma pr_assign_as_child fuel r o : pres R (assign_as_child fuel r o). Proof. go assign_as_child. Qed.
  Lemma pr_assign_as_sibling fuel r o : pres R (assign_as_sibling fuel r o). Proof. go assign_as_sibling. Qed.
  Lemma pr_reassign_as_child fuel r o : pres R (reassign_as_child fuel r o). Proof. go reassign_as_child. Qed.
  Hint Resolve pr_assign_as_child pr_assign_as_sibling pr_reassign_as_child : pres.
  Lemma pr_reassign_children fuel r o l : pres R (reassign_children_if_necessary fuel r o l).
  Proof. unfold reassign_children_if_necessary. apply pr_iter_children. pres_auto. Qed.
  Hint Resolve pr_reassign_children : pres.
  Lemma pr_remove_ring fuel d : forall r a b, pres R (remove_ring fuel d r a b).
  Proof.
    induction d as [|d IH]; intros r a b; cbn [remove_ring]; [apply pres_nofuel|].
    pres_auto. apply pr_iter_children. pres_auto.
  Qed.
  Lemma pr_clear_nodes fuel n : pres R (clear_nodes fuel n). Proof. go clear_nodes. Qed.
  Hint Resolve pr_remove_ring pr_clear_nodes : pres.
  Lemma pr_remove_ring_and_points fuel d : forall r a b, pres R (remove_ring_and_points fuel d r a b).
  Proof.
    induction d as [|d IH]; intros r a b; cbn [remove_ring_and_points]; [apply pres_nofuel|].
    pres_auto. apply pr_iter_children. pres_auto.
  Qed.
  Lemma pr_replace_ring fuel r o : pres R (replace_ring fuel r o).
  Proof. unfold replace_ring. pres_auto. apply pr_iter_children. pres_auto. Qed.
  Lemma pr_find_parent_in_tree fuel d : forall r p, pres R (find_parent_in_tree fuel d r p).
  Proof.
    induction d as [|d IH]; intros r p; cbn [find_parent_in_tree]; [apply pres_nofuel|]. pres_auto.
  Qed.
  Hint Resolve pr_remove_ring_and_points pr_replace_ring pr_find_parent_in_tree : pres.

  (** TopologyM *)
  Lemma pr_for_repeats l f : (forall a b, pres R (f a b)) -> pres R (for_repeats l f).
  Proof. intros H. unfold for_repeats. pres_auto. Qed.
  Lemma pr_node_lt fuel i j : pres R (node_lt fuel i j). Proof. go node_lt. Qed.
  Hint Resolve pr_node_lt : pres.
  Lemma pr_sort_all_nodes fuel : pres R (sort_all_nodes fuel).
  Proof. unfold sort_all_nodes. repeat first [progress pres_step|prim]. Qed.
  Lemma pr_ring_lt fuel i j : pres R (ring_lt fuel i j). Proof. go ring_lt. Qed.
  Hint Resolve pr_ring_lt pr_sort_all_nodes : pres.
  Lemma pr_sorted_rings fuel : pres R (sorted_rings fuel). Proof. go sorted_rings. Qed.
  Lemma pr_reversed_sorted_rings fuel : pres R (reversed_sorted_rings fuel).
  Proof. unfold reversed_sorted_rings, py_sort_rev. pres_auto. Qed.
  Lemma pr_correct_orientation fuel r : pres R (correct_orientation fuel r). Proof. go correct_orientation. Qed.
  Hint Resolve pr_sorted_rings pr_reversed_sorted_rings pr_correct_orientation : pres.
  Lemma pr_correct_orientations fuel : pres R (correct_orientations fuel). Proof. go correct_orientations. Qed.
  Lemma pr_correct_self_intersection fuel i j : pres R (correct_self_intersection fuel i j).
  Proof. go correct_self_intersection. Qed.
  Hint Resolve pr_correct_orientations pr_correct_self_intersection : pres.
  Lemma pr_forM_acc {A B} (l : list A) (f : A -> B -> prog B) b :
    (forall a b, pres R (f a b)) -> pres R (forM_acc l f b).
  Proof.
    intros H. unfold forM_acc. revert b. induction l as [|a l IH]; intros b; [apply pres_ret; typeclasses eauto|].
    apply pres_bind; [typeclasses eauto|apply H|]. intros b'. apply IH.
  Qed.
  Lemma pr_correct_repeated_points fuel l a b n : pres R (correct_repeated_points fuel l a b n).
  Proof. unfold correct_repeated_points. apply pr_forM_acc. pres_auto. apply pr_forM_acc. pres_auto. Qed.
  Hint Resolve pr_correct_repeated_points : pres.
  Lemma pr_find_and_correct fuel r : pres R (find_and_correct_repeated_points fuel r).
  Proof. unfold find_and_correct_repeated_points. pres_auto. Qed.
  Lemma pr_usable_ring fuel r : pres R (usable_ring fuel r). Proof. go usable_ring. Qed.
  Lemma pr_filterM {A} (p : A -> prog bool) l : (forall a, pres R (p a)) -> pres R (filterM p l).
  Proof. intros H. induction l as [|a l IH]; cbn [filterM]; pres_auto. Qed.
  Lemma pr_positive_area fuel r : pres R (positive_area fuel r). Proof. go positive_area. Qed.
  Hint Resolve pr_find_and_correct pr_usable_ring pr_positive_area : pres.
  Lemma pr_try_prev_ring fuel a b c d e : pres R (try_prev_ring fuel a b c d e).
  Proof. unfold try_prev_ring. pres_auto. Qed.
  Hint Resolve pr_try_prev_ring : pres.
  Lemma pr_place_new_ring fuel a b c d e : pres R (place_new_ring fuel a b c d e).
  Proof. unfold place_new_ring. pres_auto. Qed.
  Hint Resolve pr_place_new_ring : pres.
  Lemma pr_place_new_rings fuel a b c l : forall d, pres R (place_new_rings fuel a b c d l).
  Proof. induction l as [|r l IH]; intros d; cbn [place_new_rings]; pres_auto. Qed.
  Hint Resolve pr_place_new_rings : pres.
  Lemma pr_assign_new_ring_parents fuel r l : pres R (assign_new_ring_parents fuel r l).
  Proof.
    unfold assign_new_ring_parents. apply pres_bind; [typeclasses eauto|apply pr_filterM; auto with pres|].
    intros nr.
    match goal with |- context [?f nr] =>
      match type of f with list rid -> prog (list (rid * float)) =>
        assert (K : forall x, pres R (f x))
      end end.
    { intros x. induction x as [|x l' IH]; pres_auto. }
    destruct nr as [|r0 [|r1 nr]]; [pres_auto|pres_auto|].
    apply pres_bind; [typeclasses eauto|auto with pres|]. intros op.
    apply pres_bind; [typeclasses eauto|apply (K (r0 :: r1 :: nr))|].
    intros; auto with pres.
  Qed.
  Hint Resolve pr_assign_new_ring_parents : pres.
  Lemma pr_correct_ring_self fuel r b : pres R (correct_ring_self_intersections fuel r b).
  Proof. go correct_ring_self_intersections. Qed.
  Hint Resolve pr_correct_ring_self : pres.
  Lemma pr_correct_self_intersections fuel b : pres R (correct_self_intersections fuel b).
  Proof. unfold correct_self_intersections. pres_auto. apply pr_forM_acc. pres_auto. Qed.
  Lemma pr_unlink i j : pres R (unlink i j). Proof. go unlink. Qed.
  Hint Resolve pr_correct_self_intersections pr_unlink : pres.
  Lemma pr_drop_next i j : pres R (drop_next i j). Proof. go drop_next. Qed.
  Lemma pr_drop_prev i j : pres R (drop_prev i j). Proof. go drop_prev. Qed.
  Lemma pr_drop_equal fuel d f i : (forall a b, pres R (f a b)) -> pres R (drop_equal fuel d f i).
  Proof. intros H. unfold drop_equal. pres_auto. Qed.
  Hint Resolve pr_drop_next pr_drop_prev : pres.
  Lemma pr_remove_duplicate_points fuel i j : pres R (remove_duplicate_points fuel i j).
  Proof.
    unfold remove_duplicate_points.
    repeat first [progress pres_step|apply pr_drop_equal; auto with pres].
  Qed.
  Hint Resolve pr_remove_duplicate_points : pres.
  Lemma pr_collinear_different fuel i j : pres R (collinear_different_rings fuel i j).
  Proof. go collinear_different_rings. Qed.
  Lemma pr_collinear_same fuel i j : pres R (collinear_same_ring fuel i j).
  Proof. go collinear_same_ring. Qed.
  Hint Resolve pr_collinear_different pr_collinear_same : pres.
  Lemma pr_process_collinear_edges fuel i j : pres R (process_collinear_edges fuel i j).
  Proof. go process_collinear_edges. Qed.
  Hint Resolve pr_process_collinear_edges : pres.
  Lemma pr_correct_collinear_repeats fuel l a b : pres R (correct_collinear_repeats fuel l a b).
  Proof. go correct_collinear_repeats. Qed.
  Lemma pr_correct_collinear_edges fuel : pres R (correct_collinear_edges fuel).
  Proof.
    unfold correct_collinear_edges. pres_auto. apply pr_for_repeats. intros.
    apply pr_correct_collinear_repeats.
  Qed.
  Lemma pr_find_parent fuel r l : pres R (find_parent fuel r l).
  Proof. induction l as [|q l IH]; cbn [find_parent]; pres_auto. Qed.
  Hint Resolve pr_correct_collinear_edges pr_find_parent : pres.
  Lemma pr_correct_tree_ring fuel l r : pres R (correct_tree_ring fuel l r). Proof. go correct_tree_ring. Qed.
  Hint Resolve pr_correct_tree_ring : pres.
  Lemma pr_correct_tree_loop fuel l : forall b, pres R (correct_tree_loop fuel b l).
  Proof. induction l as [|r l IH]; intros b; cbn [correct_tree_loop]; pres_auto. Qed.
  Hint Resolve pr_correct_tree_loop : pres.
  Lemma pr_correct_tree fuel : pres R (correct_tree fuel). Proof. go correct_tree. Qed.
  Lemma pr_conn_get r : pres R (conn_get r). Proof. go conn_get. Qed.
  Lemma pr_conn_set r l : pres R (conn_set r l). Proof. prim. Qed.
  Hint Resolve pr_correct_tree pr_conn_get pr_conn_set : pres.
  Lemma pr_conn_add r l : pres R (conn_add r l). Proof. go conn_add. Qed.
  Lemma pr_loop_scan fuel a b c d e l : pres R (loop_scan fuel a b c d e l).
  Proof. induction l as [|[x y] l IH]; cbn [loop_scan]; pres_auto. Qed.
  Hint Resolve pr_conn_add pr_loop_scan : pres.
  Lemma pr_find_intersect_loop fuel d : forall a b c v e f,
    pres R (find_intersect_loop fuel d a b c v e f).
  Proof.
    induction d as [|d IH]; intros a b c v e f; cbn [find_intersect_loop]; [apply pres_nofuel|].
    apply pres_bind; [typeclasses eauto|auto with pres|]. intros prs.
    apply pres_bind; [typeclasses eauto|auto with pres|]. intros sc.
    destruct (fst sc); [pres_auto|].
    apply pres_bind; [typeclasses eauto|auto with pres|]. intros u.
    match goal with |- pres _ (_ _ ?w) => generalize w end. generalize (snd sc).
    intros l. induction l as [|[o1 o2] l IHl]; intros w; pres_auto.
  Qed.
  Lemma pr_direct_scan a b l : pres R (direct_scan a b l).
  Proof. induction l as [|[x y] l IH]; cbn [direct_scan]; pres_auto. Qed.
  Hint Resolve pr_find_intersect_loop pr_direct_scan : pres.
  Lemma pr_chain_scan fuel a b c d l : forall v, pres R (chain_scan fuel a b c d l v).
  Proof. induction l as [|[x y] l IH]; intros v; cbn [chain_scan]; pres_auto. Qed.
  Lemma pr_switch_nexts a b : pres R (switch_nexts a b). Proof. go switch_nexts. Qed.
  Lemma pr_origin_swap fuel a b c l : pres R (origin_swap fuel a b c l).
  Proof. induction l as [|[r [x y]] l IH]; cbn [origin_swap]; pres_auto. Qed.
  Lemma pr_give_children fuel a b : pres R (give_children fuel a b).
  Proof. unfold give_children. apply pr_iter_children. pres_auto. Qed.
  Lemma pr_moved_pairs fuel l : pres R (moved_pairs fuel l).
  Proof. induction l as [|[x y] l IH]; cbn [moved_pairs]; pres_auto. Qed.
  Lemma pr_origin_pairs fuel r l : pres R (origin_pairs fuel r l).
  Proof. induction l as [|[x y] l IH]; cbn [origin_pairs]; pres_auto. Qed.
  Hint Resolve pr_chain_scan pr_switch_nexts pr_origin_swap pr_give_children pr_moved_pairs
    pr_origin_pairs : pres.
  Lemma pr_reconnect fuel a b c d l : pres R (reconnect fuel a b c d l).
  Proof.
    unfold reconnect. repeat first [progress pres_step|apply pr_forM_acc].
  Qed.
  Hint Resolve pr_reconnect : pres.
  Lemma pr_process_single fuel i j : pres R (process_single_intersection fuel i j).
  Proof. unfold process_single_intersection. pres_auto. Qed.
  Hint Resolve pr_process_single : pres.
  Lemma pr_correct_chained_repeats fuel l a b : pres R (correct_chained_repeats fuel l a b).
  Proof. go correct_chained_repeats. Qed.
  Lemma pr_correct_chained_rings fuel : pres R (correct_chained_rings fuel).
  Proof.
    unfold correct_chained_rings. repeat first [progress pres_step|prim].
    apply pr_for_repeats. intros. apply pr_correct_chained_repeats.
  Qed.
  Hint Resolve pr_correct_chained_rings : pres.
  Lemma pr_correct_topology fuel : pres R (correct_topology fuel). Proof. go correct_topology. Qed.
End Frame.
#[export] Hint Resolve pr_upd_node pr_upd_ring pr_nd pr_rg
  pr_bd pr_node_point pr_next_of pr_prev_of
  pr_set_next pr_set_prev pr_set_nring pr_node_eq
  pr_node_eq_opt pr_children_of pr_set_children
  pr_collect pr_reverse_nodes pr_place_before pr_node_stats
  pr_points_slope pr_skip_equal pr_is_bottom_to pr_bottom_scan
  pr_skip_to_equal pr_bottom_node pr_pip pr_points_centroid
  pr_node_eq_opts pr_has_collinear_edge pr_slide pr_collinear_search
  pr_skip_repeats pr_collinear_path pr_detach pr_detach_until
  pr_detach_do pr_link pr_fix_collinear_path pr_remove_from_children
  pr_set_to_children pr_set_stats pr_reset_stats pr_create_ring
  pr_create_point_node pr_clear_child_at pr_recalculate_stats
  pr_ensure_stats pr_ring_area pr_ring_is_hole pr_ring_size
  pr_ring_depth pr_is_descendant_of pr_update_points pr_with_points
  pr_sorted_nodes pr_ensure_bottom pr_lowermost_ring pr_is_convex
  pr_special pr_inside_of pr_orientation_clash pr_assign_as_child
  pr_assign_as_sibling pr_reassign_as_child pr_reassign_children pr_remove_ring
  pr_clear_nodes pr_remove_ring_and_points pr_replace_ring pr_find_parent_in_tree
  pr_node_lt pr_sort_all_nodes pr_ring_lt
  pr_sorted_rings pr_reversed_sorted_rings pr_correct_orientation pr_correct_orientations
  pr_correct_self_intersection pr_correct_repeated_points pr_find_and_correct
  pr_usable_ring pr_positive_area pr_try_prev_ring
  pr_place_new_ring pr_place_new_rings pr_assign_new_ring_parents pr_correct_ring_self
  pr_correct_self_intersections pr_unlink pr_drop_next pr_drop_prev
  pr_remove_duplicate_points pr_collinear_different pr_collinear_same
  pr_process_collinear_edges pr_correct_collinear_repeats pr_correct_collinear_edges pr_find_parent
  pr_correct_tree_ring pr_correct_tree_loop pr_correct_tree pr_conn_get
  pr_conn_set pr_conn_add pr_loop_scan pr_find_intersect_loop
  pr_direct_scan pr_chain_scan pr_switch_nexts pr_origin_swap
  pr_give_children pr_moved_pairs pr_origin_pairs pr_reconnect
  pr_process_single pr_correct_chained_repeats pr_correct_chained_rings pr_correct_topology : pres.
