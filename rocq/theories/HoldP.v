(** * The first pass creates nothing *)
From Coq Require Import ZArith List Bool Lia FMapPositive.
From RecordUpdate Require Import RecordSet.
From Verif Require Import Py Monad Utils Geometry LinearRingM BoundM LocalMinimumM
     StateM PointNodeM RingM SweepM TopologyM HoareP WagyuM.
Import ListNotations RecordSetNotations.
Open Scope Z_scope.
Local Open Scope m_scope.

(** nothing of what the second pass builds has changed *)
Definition hold (s s' : st) : Prop :=
  s_rings s' = s_rings s /\ s_nodes s' = s_nodes s /\ s_nnext s' = s_nnext s /\ s_rnext s' = s_rnext s /\
  s_children s' = s_children s /\ s_conn s' = s_conn s /\ s_all s' = s_all s.
#[export] Instance hold_pre : PreOrd hold.
Proof. split; unfold hold; intros; repeat match goal with H : _ /\ _ |- _ => destruct H end; repeat split; congruence. Qed.
Ltac hd := repeat first [progress pres_step | apply pres_modify; intros; repeat split].
Section Hold.
#[local] Hint Resolve hold_pre : pres.
Lemma hd_bd i : pres hold (bd i). Proof. unfold bd. hd. Qed.
#[local] Hint Resolve hd_bd : pres.
Lemma hd_upd i f : pres hold (upd_bound i f). Proof. unfold upd_bound. hd. Qed.
#[local] Hint Resolve hd_upd : pres.
Lemma hd_current_edge i : pres hold (current_edge i). Proof. unfold current_edge. hd. Qed.
Lemma hd_next_edge i : pres hold (next_edge i). Proof. unfold next_edge. hd. Qed.
Lemma hd_abl_get k : pres hold (abl_get k). Proof. unfold abl_get. hd. Qed.
#[local] Hint Resolve hd_current_edge hd_next_edge hd_abl_get : pres.
Lemma hd_abl_bound k : pres hold (abl_bound k). Proof. unfold abl_bound. hd. Qed.
#[local] Hint Resolve hd_abl_bound : pres.
Lemma hd_abl_set k o : pres hold (abl_set k o). Proof. unfold abl_set. hd. Qed.
Lemma hd_abl_compact : pres hold abl_compact. Proof. unfold abl_compact. hd. Qed.
Lemma hd_abl_ids : pres hold abl_ids. Proof. unfold abl_ids. hd. Qed.
Lemma hd_is_intermediate i y : pres hold (is_intermediate i y). Proof. unfold is_intermediate. hd. Qed.
Lemma hd_is_maxima i y : pres hold (is_maxima i y). Proof. unfold is_maxima. hd. Qed.
Lemma hd_push_hp p : pres hold (push_hp p). Proof. unfold push_hp. hd. Qed.
Lemma hd_insort y : pres hold (insort_scan y). Proof. unfold insort_scan. hd. Qed.
#[local] Hint Resolve hd_abl_set hd_abl_compact hd_abl_ids hd_is_intermediate hd_is_maxima hd_push_hp hd_insort : pres.
Lemma hd_abl_swap k o : pres hold (abl_swap k o). Proof. unfold abl_swap. hd. Qed.
#[local] Hint Resolve hd_abl_swap : pres.
Lemma hd_to_next_edge i : pres hold (to_next_edge i). Proof. unfold to_next_edge. hd. Qed.
Lemma hd_insert_bound i j : pres hold (insert_bound_into_abl i j). Proof. unfold insert_bound_into_abl. hd. Qed.
Lemma hd_compare i j : pres hold (intersection_compare i j). Proof. unfold intersection_compare. hd. Qed.
Lemma hd_update_current_x y : pres hold (update_current_x y). Proof. unfold update_current_x. hd. Qed.
#[local] Hint Resolve hd_to_next_edge hd_insert_bound hd_compare hd_update_current_x : pres.
Lemma hd_init_bound i sd : pres hold (init_bound i sd). Proof. unfold init_bound. hd. Qed.
#[local] Hint Resolve hd_init_bound : pres.
Lemma hd_initialize m : pres hold (initialize m). Proof. unfold initialize. hd. Qed.
Lemma hd_hp_swap i j : pres hold (hot_pixels_on_swap i j). Proof. unfold hot_pixels_on_swap. hd. Qed.
#[local] Hint Resolve hd_initialize hd_hp_swap : pres.
Lemma hd_hp_intersections f y : pres hold (process_hot_pixel_intersections f y). Proof. unfold process_hot_pixel_intersections. hd. Qed.
Lemma hd_start_bound i : pres hold (start_bound i). Proof. unfold start_bound. hd. Qed.
#[local] Hint Resolve hd_hp_intersections hd_start_bound : pres.
Lemma hd_minima_hp f y ms k : pres hold (insert_minima_hot_pixel f y ms k). Proof. unfold insert_minima_hot_pixel. hd. Qed.
Lemma hd_shift y d i : forall l k, pres hold (shift_bound y d i k l).
Proof. induction l as [|j l IH]; intros k; cbn [shift_bound]; hd; auto. Qed.
#[local] Hint Resolve hd_minima_hp hd_shift : pres.
Lemma hd_horizontals y k : pres hold (horizontals_at_top_scanbeam y k). Proof. unfold horizontals_at_top_scanbeam. hd. Qed.
#[local] Hint Resolve hd_horizontals : pres.
Lemma hd_hp_edges_of f y i k : pres hold (hot_pixel_edges_of f y i k). Proof. unfold hot_pixel_edges_of. hd. Qed.
#[local] Hint Resolve hd_hp_edges_of : pres.
Lemma hd_hp_edges f y : pres hold (process_hot_pixel_edges f y). Proof. unfold process_hot_pixel_edges. hd. Qed.
Lemma hd_sort_hp f : pres hold (sort_hot_pixels f). Proof. unfold sort_hot_pixels. hd. Qed.
Lemma hd_pop y : pres hold (pop_scanbeam y). Proof. unfold pop_scanbeam. hd. Qed.
Lemma hd_pending ms k : pres hold (sweep_pending ms k). Proof. unfold sweep_pending. hd. Qed.
#[local] Hint Resolve hd_hp_edges hd_sort_hp hd_pop hd_pending : pres.
Lemma hd_build_hot_pixels f ms : pres hold (build_hot_pixels f ms). Proof. unfold build_hot_pixels. hd. Qed.
End Hold.
