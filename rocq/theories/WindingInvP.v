(** * The winding counts of the active list during the sweep (C24-C26) *)
From Coq Require Import ZArith List Bool Lia FMapPositive Permutation.
From Coq Require Import Floats.SpecFloat.
From RecordUpdate Require Import RecordSet.
From Verif Require Import Py Monad Utils Geometry LinearRingM BoundM LocalMinimumM
     StateM PointNodeM RingM SweepM HoareP SweepFrameP SpecSweep SpecActive WindingP CalmP.
Import ListNotations RecordSetNotations.
Open Scope Z_scope.

Section Inv.
Context (op : operation_kind) (sfk cfk : fill_kind).

Notation bound_right := (bound_right op sfk cfk).
Notation list_right := (list_right op sfk cfk).
Notation active_right := (active_right op sfk cfk).
Fixpoint okL (s : st) (acc l : list bid) : Prop :=
  match l with
  | [] => True
  | i :: l' => bound_right s acc i /\ okL s (acc ++ [i]) l'
  end.
Lemma okL_spec s l : forall acc,
  okL s acc l <-> (forall l1 i l2, l = l1 ++ i :: l2 -> bound_right s (acc ++ l1) i).
Proof.
  induction l as [|i l IH]; intros acc; cbn [okL].
  - split; [|trivial]. intros _ l1 i l2 E. destruct l1; discriminate.
  - rewrite IH. split.
    + intros (H1 & H2) l1 x l2 E. destruct l1 as [|y l1]; injection E as -> ->.
      * rewrite app_nil_r. exact H1.
      * specialize (H2 l1 x l2 eq_refl). rewrite <- app_assoc in H2. exact H2.
    + intros H. split.
      * specialize (H [] i l eq_refl). rewrite app_nil_r in H. exact H.
      * intros l1 x l2 ->. rewrite <- app_assoc. apply (H (i :: l1) x l2). reflexivity.
Qed.
Lemma list_right_okL s l : list_right s l <-> okL s [] l.
Proof. rewrite okL_spec. reflexivity. Qed.
Lemma okL_app s l1 l2 : forall acc, okL s acc (l1 ++ l2) <-> okL s acc l1 /\ okL s (acc ++ l1) l2.
Proof.
  induction l1 as [|i l1 IH]; intros acc; cbn [app okL].
  - rewrite app_nil_r. tauto.
  - rewrite IH, <- app_assoc. cbn. tauto.
Qed.

(** what the predicate depends on *)
Definition same_counts (s s' : st) (i : bid) : Prop :=
  let b := bget (s_bounds s) i in let b' := bget (s_bounds s') i in
  sig b' = sig b /\ b_wc b' = b_wc b /\ b_owc b' = b_owc b /\ has_ring s' i = has_ring s i.
Definition same_winding (l l' : list (polygon_kind * Z)) : Prop :=
  forall k, winding k l' = winding k l.
Lemma counts_right_winding l l' b wc owc : same_winding l l' ->
  counts_right sfk cfk l b wc owc -> counts_right sfk cfk l' b wc owc.
Proof. intros H. unfold counts_right. rewrite !H. auto. Qed.
Lemma changes_winding l l' b : same_winding l l' -> changes op sfk cfk l' b = changes op sfk cfk l b.
Proof. intros H. unfold changes, member. rewrite !winding_app, !H. reflexivity. Qed.
Lemma bound_right_frame s s' acc acc' i :
  same_winding (sigs s acc) (sigs s' acc') -> same_counts s s' i ->
  bound_right s acc i -> bound_right s' acc' i.
Proof.
  intros W (E1 & E2 & E3 & E4) (U & C & H). unfold bound_right. cbv zeta.
  rewrite E1, E2, E3, E4, H. repeat split.
  - apply (f_equal snd) in E1. cbn in E1. rewrite E1. exact U.
  - eapply counts_right_winding; [exact W|exact C].
  - eapply counts_right_winding; [exact W|exact C].
  - symmetry. apply changes_winding. exact W.
Qed.
Lemma okL_frame s s' l : forall acc acc',
  same_winding (sigs s acc) (sigs s' acc') -> (forall i, In i l -> same_counts s s' i) ->
  okL s acc l -> okL s' acc' l.
Proof.
  induction l as [|i l IH]; intros acc acc' W H; cbn [okL]; [trivial|].
  intros (B & O). split; [eapply bound_right_frame; [exact W|apply H; left; reflexivity|exact B]|].
  eapply IH; [|intros j Hj; apply H; right; exact Hj|exact O].
  intros k. unfold sigs. rewrite !map_app, !winding_app. unfold sigs in W. rewrite W. f_equal.
  cbn [map]. destruct (H i (or_introl eq_refl)) as (-> & _). reflexivity.
Qed.
Lemma sigs_frame s s' l : (forall i, sig (bget (s_bounds s') i) = sig (bget (s_bounds s) i)) ->
  sigs s' l = sigs s l.
Proof. intros H. unfold sigs. apply map_ext. exact H. Qed.
Lemma list_right_frame s s' l : (forall i, same_counts s s' i) -> list_right s l -> list_right s' l.
Proof.
  intros H. rewrite !list_right_okL. apply okL_frame; [intros k; reflexivity|intros; apply H].
Qed.
Lemma active_right_frame s s' : (forall i, same_counts s s' i) -> live s' = live s ->
  active_right s -> active_right s'.
Proof.
  intros H E (N & L). unfold active_right. rewrite E. split; [exact N|].
  eapply list_right_frame; eassumption.
Qed.

(** everything but the winding counts, the last point, the side and the ring *)
Definition qcore (b : bound) :=
  (b_edges b, b_cur b, b_next b, b_cx b, b_pos b, (b_wd b, b_kind b, b_max b)).
Definition quiet (s s' : st) : Prop :=
  s_abl s' = s_abl s /\ s_scan s' = s_scan s /\ s_hp s' = s_hp s /\ s_hpi s' = s_hpi s /\
  forall i, qcore (bget (s_bounds s') i) = qcore (bget (s_bounds s) i).
Lemma calm_quiet s s' : calm s s' -> quiet s s'.
Proof.
  intros (A & B & C & D & H). repeat (split; [assumption|]). intros i. specialize (H i).
  unfold core, qcore in *. congruence.
Qed.
Lemma quiet_trans s1 s2 s3 : quiet s1 s2 -> quiet s2 s3 -> quiet s1 s3.
Proof.
  intros (A1&B1&C1&D1&H1) (A2&B2&C2&D2&H2). repeat (split; [congruence|]). intros i. rewrite H2. apply H1.
Qed.
Lemma quiet_refl s : quiet s s. Proof. repeat split. Qed.
Lemma quiet_sig s s' i : quiet s s' -> sig (bget (s_bounds s') i) = sig (bget (s_bounds s) i).
Proof. intros (_&_&_&_&H). specialize (H i). unfold qcore in H. unfold sig. congruence. Qed.
Lemma quiet_live s s' : quiet s s' -> live s' = live s.
Proof. intros (A & _). unfold live. rewrite A. reflexivity. Qed.
Lemma calm_ring_same s s' i : calm_ring s s' -> same_counts s s' i.
Proof.
  intros ((_&_&_&_&H) & D). specialize (H i). unfold core in H. unfold same_counts, sig. cbv zeta.
  rewrite D. injection H as H1 H2 H3 H4 H5 H6 H7 H8 H9 H10. repeat split; congruence.
Qed.
Lemma calm_ring_active s s' : calm_ring s s' -> active_right s -> active_right s'.
Proof.
  intros C. apply active_right_frame; [intros i; apply calm_ring_same; exact C|].
  apply quiet_live, calm_quiet, C.
Qed.

(** ** Crossing two neighbours *)
Lemma action_effect fuel p i j s s' u c1' c2' a :
  i <> j ->
  required_change (has_ring s i) (has_ring s j) c1' c2' = Some (act_change a) ->
  match a with
   | ActMaximum => add_local_maximum_point fuel p i j
   | ActSwap => (add_point i p ;; add_point j p ;; swap_sides i j ;; swap_rings i j)%M
   | ActSwapFirst =>
       (add_point i p ;; upd_bound j (fun b => b <| b_last := p |>) ;;
        swap_sides i j ;; swap_rings i j)%M
   | ActSwapSecond =>
       (upd_bound i (fun b => b <| b_last := p |>) ;; add_point j p ;;
        swap_sides i j ;; swap_rings i j)%M
   | ActMinimum => add_local_minimum_point p i j
   | ActSwapSides => swap_sides i j
   | ActNothing => ret tt
   end s = Ok (u, s') ->
  calm s s' /\ has_ring s' i = c1' /\ has_ring s' j = c2' /\
  forall x, x <> i -> x <> j -> has_ring s' x = has_ring s x.
Proof.
  intros N R H. unfold required_change in R.
  assert (Fin : forall v, status_to v [i; j] s s' -> c1' = v -> c2' = v ->
     calm s s' /\ has_ring s' i = c1' /\ has_ring s' j = c2' /\
     forall x, x <> i -> x <> j -> has_ring s' x = has_ring s x).
  { intros v (A & B & C) -> ->. split; [exact A|]. split; [apply C; left; reflexivity|].
    split; [apply C; right; left; reflexivity|]. intros x H1 H2. apply B. intros [E|[E|[]]]; congruence. }
  assert (Swap : forall s1 v, calm_ring s s1 -> (swap_sides i j ;; swap_rings i j)%M s1 = Ok (v, s') ->
     c1' = has_ring s j -> c2' = has_ring s i ->
     calm s s' /\ has_ring s' i = c1' /\ has_ring s' j = c2' /\
     forall x, x <> i -> x <> j -> has_ring s' x = has_ring s x).
  { intros s1 v C E -> ->. inv_bind E t s2 E2. apply cr_swap_sides in E2.
    apply swap_rings_status in E; [|exact N]. destruct E as (A & B & D & F).
    pose proof (R_trans _ _ _ C E2) as (C' & K).
    split; [eapply R_trans; eassumption|]. rewrite B, D, !K. repeat split; auto.
    intros x H1 H2. rewrite F by assumption. apply K. }
  assert (Same : calm_ring s s' -> c1' = has_ring s i -> c2' = has_ring s j ->
     calm s s' /\ has_ring s' i = c1' /\ has_ring s' j = c2' /\
     forall x, x <> i -> x <> j -> has_ring s' x = has_ring s x).
  { intros (A & B) -> ->. rewrite !B. repeat split; auto; apply A. }
  destruct (has_ring s i) eqn:Ri, (has_ring s j) eqn:Rj, c1', c2', a; cbn [act_change] in R;
    try discriminate R; clear R.
  - inv_bind H t1 s1 E1. apply add_point_keeps in E1; [|exact Ri].
    inv_bind H t2 s2 E2. apply add_point_keeps in E2; [|destruct E1 as (_ & K); rewrite K; exact Rj].
    eapply Swap; try reflexivity; [eapply R_trans; eassumption|exact H].
  - apply (Fin false); auto. eapply add_local_maximum_status; eassumption.
  - apply cr_swap_sides in H. apply Same; auto.
  - apply ret_Ok in H. destruct H as (_ & ->). apply Same; auto. apply R_refl.
  - inv_bind H t1 s1 E1. apply add_point_keeps in E1; [|exact Ri].
    inv_bind H t2 s2 E2. apply upd_last_calm in E2.
    eapply Swap; try reflexivity; [eapply R_trans; eassumption|exact H].
  - inv_bind H t2 s1 E2. apply upd_last_calm in E2.
    inv_bind H t1 s2 E1. apply add_point_keeps in E1; [|destruct E2 as (_ & K); rewrite K; exact Rj].
    eapply Swap; try reflexivity; [eapply R_trans; eassumption|exact H].
  - apply cr_swap_sides in H. apply Same; auto.
  - apply ret_Ok in H. destruct H as (_ & ->). apply Same; auto. apply R_refl.
  - apply (Fin true); auto. eapply add_local_minimum_status; eassumption.
  - apply cr_swap_sides in H. apply Same; auto.
  - apply ret_Ok in H. destruct H as (_ & ->). apply Same; auto. apply R_refl.
Qed.

Lemma intersect_bounds_right fuel p i j l1 l2 s s' u :
  list_right s (l1 ++ i :: j :: l2) -> NoDup (l1 ++ i :: j :: l2) ->
  intersect_bounds fuel op sfk cfk p i j s = Ok (u, s') ->
  quiet s s' /\ list_right s' (l1 ++ j :: i :: l2).
Proof.
  intros L N H. rewrite list_right_okL in *. apply okL_app in L. destruct L as (L1 & Bi & Bj & L2).
  cbn [app] in *. 
  assert (Nij : i <> j).
  { intros <-. apply NoDup_remove_2 in N. apply N. apply in_or_app. right. left. reflexivity. }
  assert (Nl1 : forall x, In x l1 -> x <> i /\ x <> j).
  { intros x Hx. split; intros ->.
    - apply NoDup_remove_2 in N. apply N. apply in_or_app. left. exact Hx.
    - change (i :: j :: l2) with ([i] ++ j :: l2) in N. rewrite app_assoc in N.
      apply NoDup_remove_2 in N. apply N. rewrite <- app_assoc. apply in_or_app. left. exact Hx. }
  assert (Nl2 : forall x, In x l2 -> x <> i /\ x <> j).
  { intros x Hx. split; intros ->.
    - apply NoDup_remove_2 in N. apply N. apply in_or_app. right. right. exact Hx.
    - change (i :: j :: l2) with ([i] ++ j :: l2) in N. rewrite app_assoc in N.
      apply NoDup_remove_2 in N. apply N. apply in_or_app. right. exact Hx. }
  unfold intersect_bounds in H.
  inv_bind H b1 sa E1. inv_bind H b2 sb E2. apply bd_Ok in E1, E2.
  destruct E1 as (-> & ->), E2 as (-> & ->).
  set (b1 := bget (s_bounds s) i) in *. set (b2 := bget (s_bounds s) j) in *.
  destruct (crossed_windings sfk cfk b1 b2) as [[wc1 owc1] [wc2 owc2]] eqn:EC.
  destruct Bi as (U1 & C1 & H1), Bj as (U2 & C2 & H2). fold b1 b2 in U1, C1, H1, U2, C2, H2.
  assert (SJ : sigs s (l1 ++ [i]) = sigs s l1 ++ [sig b1]) by (unfold sigs; rewrite map_app; reflexivity).
  rewrite SJ in C2, H2.
  destruct (crossed_windings_right sfk cfk _ _ _ _ _ _ _ U1 U2 C1 C2 EC) as (D2 & D1).
  pose proof (crossing_right op sfk cfk _ _ _ _ _ _ _ U1 U2 D1 D2) as RC. cbv zeta in RC.
  rewrite <- H1, <- H2 in RC.
  inv_bind H u1 s1 E1. inv_bind H u2 s2 E2. apply upd_bound_Ok in E1, E2.
  assert (R12 : forall x, has_ring s2 x = has_ring s x).
  { intros x. subst s2 s1. unfold has_ring. cbn. rewrite !bget_hset.
    destruct (Pos.eqb_spec j x) as [->|]; [|destruct (Pos.eqb_spec i x) as [->|]; reflexivity].
    destruct (Pos.eqb_spec i x) as [->|]; reflexivity. }
  change (is_some (b_ring b1)) with (has_ring s i) in H.
  change (is_some (b_ring b2)) with (has_ring s j) in H.
  rewrite <- (R12 i) in RC at 1. rewrite <- (R12 j) in RC at 1.
  apply (action_effect fuel p i j s2 s' u _ _ _ Nij RC) in H.
  destruct H as (Cm & Ri & Rj & Ro).
  assert (Q : quiet s s2).
  { subst s2 s1. repeat split. intros x. cbn. rewrite !bget_hset.
    destruct (Pos.eqb_spec j x) as [->|], (Pos.eqb_spec i x) as [->|]; reflexivity. }
  pose proof (quiet_trans _ _ _ Q (calm_quiet _ _ Cm)) as Qs. split; [exact Qs|].
  assert (Sg : forall l, sigs s' l = sigs s l) by (intros l; apply sigs_frame; intros; apply quiet_sig; exact Qs).
  assert (Wi : b_wc (bget (s_bounds s') i) = wc1 /\ b_owc (bget (s_bounds s') i) = owc1).
  { destruct Cm as (_&_&_&_&Cm). specialize (Cm i). unfold core in Cm. injection Cm as _ _ _ _ _ -> -> _ _ _.
    subst s2 s1. cbn. rewrite !bget_hset, Pos.eqb_refl. destruct (Pos.eqb_spec j i); [congruence|]. auto. }
  assert (Wj : b_wc (bget (s_bounds s') j) = wc2 /\ b_owc (bget (s_bounds s') j) = owc2).
  { destruct Cm as (_&_&_&_&Cm). specialize (Cm j). unfold core in Cm. injection Cm as _ _ _ _ _ -> -> _ _ _.
    subst s2 s1. cbn. rewrite !bget_hset, Pos.eqb_refl. auto. }
  assert (So : forall x, x <> i -> x <> j -> same_counts s s' x).
  { intros x Hi Hj. unfold same_counts. cbv zeta. rewrite (quiet_sig _ _ x Qs), Ro, R12 by assumption.
    destruct Cm as (_&_&_&_&Cm). specialize (Cm x). unfold core in Cm. injection Cm as _ _ _ _ _ -> -> _ _ _.
    subst s2 s1. cbn. rewrite !bget_hset. destruct (Pos.eqb_spec j x); [congruence|].
    destruct (Pos.eqb_spec i x); [congruence|]. auto. }
  apply okL_app. cbn [okL app]. split; [|split; [|split]].
  - apply (okL_frame s s' l1 [] []); [intros k; reflexivity| |exact L1]. intros x Hx. apply So; apply Nl1; exact Hx.
  - unfold bound_right. cbv zeta. rewrite Sg, (quiet_sig _ _ j Qs). fold b2.
    destruct Wj as (-> & ->). split; [|split; [exact D2|exact Rj]].
    pose proof (quiet_sig _ _ j Qs) as Sj. apply (f_equal snd) in Sj. cbn in Sj. rewrite Sj. exact U2.
  - unfold bound_right. cbv zeta. rewrite Sg, (quiet_sig _ _ i Qs). fold b1.
    destruct Wi as (-> & ->). replace (sigs s (l1 ++ [j])) with (sigs s l1 ++ [sig b2])
      by (unfold sigs; rewrite map_app; reflexivity).
    split; [|split; [exact D1|exact Ri]].
    pose proof (quiet_sig _ _ i Qs) as Sj. apply (f_equal snd) in Sj. cbn in Sj. rewrite Sj. exact U1.
  - eapply okL_frame; [| |exact L2].
    + intros k. rewrite Sg. unfold sigs. rewrite !map_app, !winding_app. cbn. lia.
    + intros x Hx. apply So; apply Nl2; exact Hx.
Qed.
End Inv.
