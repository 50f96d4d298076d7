(** * Correcting self intersections when the new rings are hung into the tree,
    and the repeated corrections at the end of the topology correction *)
From Coq Require Import ZArith List Bool Lia FMapPositive Permutation.
From RecordUpdate Require Import RecordSet.
From Verif Require Import Py Monad Utils Geometry LinearRingM BoundM LocalMinimumM
     StateM PointNodeM RingM SweepM TopologyM WagyuM HoareP SpecRing SpecHeap SpecRings SpecTree SpecTour SweepFrameP CalmP OrderP VatP FuelP PipP SortP PointersP
     CircleP HeapOpsP StatsP SplitP NodeFrameP RingedP RingedTopP RingedCutP RingedTreeP TreeP
     NestP NestTreeP RegionP FitP KeepOrderP TourP ReconnectP TouchingP SpecNest.
Import ListNotations RecordSetNotations.
Open Scope Z_scope.

(** ** Hanging new rings into the tree *)
Lemma later_reassign_children fuel r o l : pres later (reassign_children_if_necessary fuel r o l).
Proof. unfold reassign_children_if_necessary. apply later_iter. intros k c. pres_auto. Qed.
Lemma later_find_in_tree fuel d : forall r p, pres later (find_parent_in_tree fuel d r p).
Proof. induction d as [|d IH]; intros r p; cbn [find_parent_in_tree]; pres_auto. Qed.
#[export] Hint Resolve later_reassign_children later_find_in_tree : pres.
Lemma later_usable fuel r : pres later (usable_ring fuel r). Proof. unfold usable_ring. pres_auto. Qed.
Lemma later_positive fuel r : pres later (positive_area fuel r). Proof. unfold positive_area. pres_auto. Qed.
#[export] Hint Resolve later_usable later_positive : pres.
Lemma later_filter {A} (p : A -> prog bool) l : (forall a, pres later (p a)) -> pres later (filterM p l).
Proof. intros H. induction l as [|a l IH]; cbn [filterM]; pres_auto. Qed.
Lemma later_try_prev fuel a b c l q : pres later (try_prev_ring fuel a b c l q). Proof. unfold try_prev_ring. pres_auto. Qed.
#[export] Hint Resolve later_try_prev : pres.
Lemma later_place fuel a b l m q : pres later (place_new_ring fuel a b l m q). Proof. unfold place_new_ring. pres_auto. Qed.
#[export] Hint Resolve later_place : pres.
Lemma later_places fuel a b l m : forall k, pres later (place_new_rings fuel a b l k m).
Proof. induction m as [|q m IH]; intros k; cbn [place_new_rings]; pres_auto. Qed.
#[export] Hint Resolve later_places : pres.
Lemma later_assign_parents fuel r l : pres later (assign_new_ring_parents fuel r l).
Proof.
  unfold assign_new_ring_parents. apply pres_bind; [typeclasses eauto|apply later_filter; pres_auto|]. intros [|a [|b m]]; [pres_auto|pres_auto|].
  apply pres_bind; [typeclasses eauto|pres_auto|]. intros op. apply pres_bind; [typeclasses eauto| |pres_auto].
  apply pres_bind; [typeclasses eauto|pres_auto|]. intros a0. apply pres_bind; [typeclasses eauto| |pres_auto].
  apply pres_bind; [typeclasses eauto|pres_auto|]. intros a1. apply pres_bind; [typeclasses eauto| |pres_auto].
  induction m as [|x m IH]; [pres_auto|]. apply pres_bind; [typeclasses eauto|pres_auto|]. intros a2.
  apply pres_bind; [typeclasses eauto|exact IH|pres_auto].
Qed.
(** ** Vertices without a ring stay without one *)
Definition shrinks (s s' : st) : Prop := unmoved s s' /\ forall i, ring_of s' i <> None -> ring_of s i <> None.
#[export] Instance shrinks_pre : PreOrd shrinks.
Proof. split; [intros s; split; [apply R_refl|auto]|]. intros a b c (A1 & A2) (B1 & B2). split; [eapply R_trans; eassumption|]. auto. Qed.
Lemma shrinks_same s s' : (forall i, node_at s' i = node_at s i) -> shrinks s s'.
Proof. intros N. split; [intros i; rewrite N; reflexivity|]. intros i. unfold ring_of. rewrite N. auto. Qed.
Lemma shrinks_two s s' : shrinks s s' -> two_at_most s -> two_at_most s'.
Proof. intros (A & B). apply fewer_two; assumption. Qed.
Lemma unmoved_cut fuel i j : pres unmoved (correct_self_intersection fuel i j).
Proof. apply unmoved_keeps. intros W. apply kp_correct_self_intersection; exact Logic.I. Qed.
Lemma cut_shrinks fuel i j s o s' : i <> j -> in_order s -> correct_self_intersection fuel i j s = Ok (o, s') -> shrinks s s'.
Proof.
  intros N I E. split; [exact (unmoved_cut _ _ _ _ _ _ E)|]. pose proof I as (W & U).
  destruct (cut_cases fuel i j s o s' N W E) as [(-> & _)|(r & l1 & l2 & s1 & Ri & Rj & _)]; [auto|].
  assert (RG : region s (FitP.inside s (eq r)) (among s (eq r)) s').
  { refine (proj1 (rt_cut s (FitP.inside s (eq r)) (among s (eq r)) fuel i j _ _ s o s' (region_start s _ W) E)); (exists r; split; [left; reflexivity|assumption]). }
  intros k H X. apply H. unfold ring_of. rewrite (rn_out _ _ _ _ RG k); [exact X|]. intros (q & _ & Hq). congruence.
Qed.
Section Self.
Variable s0 : st.
Definition settling (s : st) : Prop := in_order s /\ shrinks s0 s.
Lemma repeated_settling fuel nodes a b acc : NoDup nodes -> tri settling (correct_repeated_points fuel nodes a b acc) (fun _ => settling).
Proof.
  intros N. unfold correct_repeated_points. apply tri_acc_in. intros k c _.
  eapply tri_bind with (Q := fun i s => nth_res nodes k = Ok i /\ settling s); [apply tri_lift; auto|]. intros i. apply tri_fact. intros Hi.
  eapply tri_bind; [apply tri_nd|]. intros n. cbv beta. destruct (is_none (n_ring n)); [apply tri_ret; tauto|].
  eapply tri_pre with (I' := settling); [|tauto]. apply tri_acc_in. intros k' c' Ik.
  eapply tri_bind with (Q := fun i s => nth_res nodes k' = Ok i /\ settling s); [apply tri_lift; auto|]. intros j. apply tri_fact. intros Hj.
  eapply tri_bind; [apply tri_nd|]. intros m. cbv beta. destruct (is_none (n_ring m)); [apply tri_ret; tauto|].
  eapply tri_bind with (Q := fun _ => settling); [|intros o; apply tri_ret; auto]. intros s o s' (_ & K & SH) E.
  assert (NE : i <> j) by (apply (nth_res_neq nodes k k'); auto; unfold range in Ik; apply in_seq in Ik; lia).
  split; [exact (cut_order fuel i j s o s' NE K E)|]. eapply R_trans; [exact SH|]. exact (cut_shrinks fuel i j s o s' NE K E).
Qed.
Lemma find_settling fuel r : tri settling (find_and_correct_repeated_points fuel r) (fun _ => settling).
Proof.
  unfold find_and_correct_repeated_points. eapply tri_bind with (Q := fun nodes s => NoDup nodes /\ settling s).
  { intros s l s' K E. pose proof (un_sorted_nodes fuel r s l s' E) as X. unfold IntersectP.unchanged in X. subst s'. destruct (tri_sorted_nodes fuel r s l s (proj1 (proj1 K)) E) as (_ & N & _). auto. }
  intros nodes. apply tri_fact. intros N.
  apply (tri_loop _ _ (fun _ => settling)). intros (((count & p) & k) & acc). destruct (_ <? _)%nat; [|apply tri_ret; auto].
  eapply tri_bind with (Q := fun _ => settling); [apply tri_lift; auto|]. intros x.
  eapply tri_bind with (Q := fun _ => settling); [apply tri_lift; auto|]. intros y.
  eapply tri_bind with (Q := fun _ => settling); [intros s e s' K E; rewrite node_eq_run in E; injection E as <- <-; exact K|]. intros e. cbv zeta.
  destruct (e && _); [apply tri_ret; auto|]. destruct (_ =? _)%nat; [apply tri_ret; auto|].
  eapply tri_bind; [apply repeated_settling; exact N|]. intros acc'. apply tri_ret. auto.
Qed.
Lemma settling_later {A} (m : prog A) : pres later m -> tri settling m (fun _ => settling).
Proof.
  intros H s a s' (K & SH) E. destruct (H s a s' E) as (N & _ & _ & O). split; [auto|]. eapply R_trans; [exact SH|]. apply shrinks_same. exact N.
Qed.
Lemma self_settling fuel b : tri settling (correct_self_intersections fuel b) (fun _ => settling).
Proof.
  unfold correct_self_intersections. eapply tri_bind with (Q := fun _ => settling); [apply settling_later, later_calc, calc_sorted|].
  intros l. apply tri_acc_in. intros r acc _. eapply tri_bind with (Q := fun _ => settling); [|intros x; apply tri_ret; auto].
  unfold correct_ring_self_intersections. eapply tri_bind; [apply tri_rg|]. intros x. cbv beta. destruct (_ || _); [apply tri_ret; tauto|].
  eapply tri_pre with (I' := settling); [|tauto]. eapply tri_bind; [apply find_settling|]. intros new. cbv iota.
  eapply tri_bind with (Q := fun _ => settling); [destruct b; [apply settling_later, later_assign_parents|apply tri_ret; auto]|]. intros _.
  eapply tri_bind with (Q := fun _ => settling); [|intros _; apply tri_ret; auto].
  intros s u s' (K & SH) E. split; [exact (corrected_order _ _ _ _ _ K E)|]. eapply R_trans; [exact SH|]. apply shrinks_same. rewrite upd_ring_rput in E. injection E as _ <-. reflexivity.
Qed.
End Self.
Lemma self_ends fuel b s x s' : in_order s -> correct_self_intersections fuel b s = Ok (x, s') -> in_order s' /\ shrinks s s'.
Proof. intros I E. exact (self_settling s fuel b s x s' (conj I (R_refl s)) E). Qed.
(** ** The repeated corrections *)
Definition chain_round (fuel : nat) : prog (unit + unit) :=
  (correct_chained_rings fuel ;; again <- correct_self_intersections fuel true ;; ret (if (again : bool) then inl tt else inr tt))%M.
Lemma rounds_order fuel s u s' : in_order s -> two_at_most s -> loopM fuel (fun _ => chain_round fuel) tt s = Ok (u, s') ->
  in_order s' /\ two_at_most s' /\ shrinks s s'.
Proof.
  intros I T E. set (J := fun t => in_order t /\ two_at_most t /\ shrinks s t).
  assert (G : tri J (loopM fuel (fun _ => chain_round fuel) tt) (fun _ => J)).
  { apply (tri_loop fuel _ (fun _ => J)). intros []. unfold chain_round.
    eapply tri_bind with (Q := fun _ => J).
    - intros t a t' (A & B & C) Et. destruct (chained_order fuel t a t' A B Et) as (A' & B' & (C1 & C2)). split; [exact A'|]. split; [exact B'|].
      eapply R_trans; [exact C|]. split; [exact C1|]. intros i. apply C2.
    - intros _. eapply tri_bind with (Q := fun _ => J); [|intros again; apply tri_ret; intros t K; destruct again; exact K].
      intros t a t' (A & B & C) Et. destruct (self_ends fuel true t a t' A Et) as (A' & B'). split; [exact A'|]. split; [exact (shrinks_two _ _ B' B)|]. eapply R_trans; eassumption. }
  exact (G s u s' (conj I (conj T (R_refl s))) E).
Qed.
