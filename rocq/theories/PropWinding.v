(** * Property theorems: winding counts, contributing bounds, crossings
      (C24, C25, C26, C40)

    Only statements; every proof is [exact] of a lemma or a computation.  The
    vocabulary is in [SpecSweep.v] and [SpecActive.v]. *)
From Coq Require Import ZArith List Bool Lia Permutation FMapPositive.
From Coq Require Import Floats.SpecFloat.
From Verif Require Import Py Monad Utils Spec SortP Geometry LinearRingM BoundM LocalMinimumM StateM
     PointNodeM RingM SweepM TopologyM WagyuM Examples SweepFrameP SpecSweep SpecActive
     WindingP CalmP WindingInvP OrderP IntersectP InsertP MaximaP.
Import ListNotations.
Local Open Scope Z_scope.

(** ** A sweep, step by step, for the non-vacuity examples

    The README polygons: bounds 1, 2 belong to the subject triangle, 3, 4 to the
    clip triangle. *)
Definition after {A} (m : prog A) (s : st) : st :=
  match m s with Ok (_, s') => s' | _ => s end.
Definition ex_bounds : heap bound :=
  match ex_wagyu with Ok (_, _, w) => lml_bounds (w_minimums w) | _ => PositiveMap.empty _ end.
Definition ex_op := INTERSECTION.
Definition ex_s0 := init_st ex_bounds.
(** both minima initialised first, so that one state follows from the other by the
    steps the theorems are about *)
Definition ex_s1 := after (initialize (LM 4%positive 3%positive 4 true) ;;
                           initialize (LM 2%positive 1%positive 3 false))%M ex_s0.
(** the horizontal minimum of the clip triangle *)
Definition ex_s2 := after (insert_lm_left_and_right_bound ex_op NON_ZERO EVEN_ODD 4%positive 3%positive) ex_s1.
Definition ex_s3 := after (process_horizontal 10 ex_op NON_ZERO EVEN_ODD 4 1) ex_s2.
(** the minimum of the subject triangle, between the two clip bounds *)
Definition ex_s5 := after (insert_lm_left_and_right_bound ex_op NON_ZERO EVEN_ODD 2%positive 1%positive) ex_s3.
(** both pairs of sides cross between y = 3 and y = 1 *)
Definition ex_s6 := after (process_intersections 10 ex_op NON_ZERO EVEN_ODD 1) ex_s5.
(** the clip triangle ends at y = 1 *)
Definition ex_s7 := after (do_maxima 10 ex_op NON_ZERO EVEN_ODD 1 2) ex_s6.

Example ex_run :
  map live [ex_s0; ex_s2; ex_s3; ex_s5; ex_s6; ex_s7] =
  [ []; [4; 3]; [4; 3]; [4; 2; 1; 3]; [2; 4; 3; 1]; [2; 1] ]%positive.
Proof. vm_compute. reflexivity. Qed.

(** ** C24: the counts stored in the active bounds are winding numbers *)
(** Inserting a local minimum (two bounds of one kind with opposite unit deltas,
    neither active nor carrying an output ring) into an active list that is right
    gives an active list that is right: the two bounds stand next to each other
    somewhere in the old list, their counts are the winding numbers there, and
    they carry an output ring iff membership changes across them. *)
Theorem C24_counts_are_winding_numbers_after_inserting_a_minimum :
  forall op sfk cfk left right s s' u,
  active_right op sfk cfk s ->
  left <> right -> ~ In left (live s) -> ~ In right (live s) ->
  unit_delta (b_wd (bget (s_bounds s) left)) ->
  b_kind (bget (s_bounds s) right) = b_kind (bget (s_bounds s) left) ->
  b_wd (bget (s_bounds s) right) = - b_wd (bget (s_bounds s) left) ->
  has_ring s left = false -> has_ring s right = false ->
  insert_lm_left_and_right_bound op sfk cfk left right s = Ok (u, s') ->
  active_right op sfk cfk s' /\
  exists l1 l2, live s = l1 ++ l2 /\ live s' = l1 ++ left :: right :: l2.
Proof. exact insert_minimum_right. Qed.
Print Assumptions C24_counts_are_winding_numbers_after_inserting_a_minimum.

(** Removing the two partners of a local maximum, wherever they are in the list
    and whatever lies between them, keeps the list right. *)
Theorem C24_counts_are_winding_numbers_after_a_maximum :
  forall fuel op sfk cfk s k m i j k' s', active_right op sfk cfk s ->
  nth_error (s_abl s) k = Some (Some i) -> nth_error (s_abl s) m = Some (Some j) -> (k < m)%nat ->
  partners s i j ->
  do_maxima fuel op sfk cfk k m s = Ok (k', s') ->
  active_right op sfk cfk s' /\
  exists l1 l2 l3, live s = l1 ++ i :: l2 ++ j :: l3 /\ live s' = l1 ++ l2 ++ l3.
Proof.
  intros fuel op sfk cfk s k m i j k' s' A Hi Hj L P H.
  destruct (do_maxima_right fuel op sfk cfk s k m i j k' s' A Hi Hj L P H) as (X & Y & _).
  exact (conj X Y).
Qed.
Print Assumptions C24_counts_are_winding_numbers_after_a_maximum.

(** Sweeping along a horizontal edge keeps the list right, unless the bound was at
    its last edge and left the list without having met its partner (this happens: see
    [PropSweep.v]). *)
Theorem C24_counts_are_winding_numbers_after_a_horizontal_or_the_bound_left_alone :
  forall fuel op sfk cfk y k s i k' s', active_right op sfk cfk s ->
  nth_error (s_abl s) k = Some (Some i) ->
  (forall m, b_max (bget (s_bounds s) i) = Some m -> partners s i m) ->
  process_horizontal fuel op sfk cfk y k s = Ok (k', s') ->
  active_right op sfk cfk s' \/
  ((b_next (bget (s_bounds s) i) >= length (b_edges (bget (s_bounds s) i)))%nat /\
   exists l1 l2, Permutation (live s) (l1 ++ i :: l2) /\ live s' = l1 ++ l2).
Proof. exact process_horizontal_right. Qed.
Print Assumptions C24_counts_are_winding_numbers_after_a_horizontal_or_the_bound_left_alone.

(** ** C25 *)
(** When the counts of a bound are the winding numbers there, the test for a
    contributing bound holds exactly when membership in the result changes across
    the bound. *)
Theorem C25_contributing_iff_membership_changes :
  forall op sfk cfk l k d wc owc,
  unit_delta d -> counts_right sfk cfk l (k, d) wc owc ->
  is_contributing op sfk cfk k wc owc = changes op sfk cfk l (k, d).
Proof. exact is_contributing_changes. Qed.
Print Assumptions C25_contributing_iff_membership_changes.
(** the bound 2 inside the clip triangle contributes to the intersection, the bound 4
    that was inserted first does not *)
Example C25_example :
  counts_right NON_ZERO EVEN_ODD [(CLIP, 1)] (SUBJECT, 1) 1 1 /\
  is_contributing INTERSECTION NON_ZERO EVEN_ODD SUBJECT 1 1 = true /\
  member INTERSECTION NON_ZERO EVEN_ODD [(CLIP, 1)] = false /\
  member INTERSECTION NON_ZERO EVEN_ODD [(CLIP, 1); (SUBJECT, 1)] = true /\
  counts_right NON_ZERO EVEN_ODD [] (CLIP, 1) (-1) 0 /\
  is_contributing INTERSECTION NON_ZERO EVEN_ODD CLIP (-1) 0 = false.
Proof. repeat split; right; reflexivity. Qed.

(** ** C26 *)
(** Crossing two bounds that are neighbours in a right list makes the list with the
    two exchanged right; no other bound changes. *)
Theorem C26_counts_after_a_crossing :
  forall op sfk cfk fuel p i j l1 l2 s s' u,
  list_right op sfk cfk s (l1 ++ i :: j :: l2) -> NoDup (l1 ++ i :: j :: l2) ->
  intersect_bounds fuel op sfk cfk p i j s = Ok (u, s') ->
  list_right op sfk cfk s' (l1 ++ j :: i :: l2).
Proof.
  intros op sfk cfk fuel p i j l1 l2 s s' u L N H.
  exact (proj2 (intersect_bounds_right op sfk cfk fuel p i j l1 l2 s s' u L N H)).
Qed.
Print Assumptions C26_counts_after_a_crossing.
(** The action taken on the output chains is the one required by the membership of
    the four sectors around the crossing, for counts that are right after it. *)
Theorem C26_action_at_a_crossing :
  forall op sfk cfk l b1 b2 wc1 owc1 wc2 owc2,
  unit_delta (b_wd b1) -> unit_delta (b_wd b2) ->
  counts_right sfk cfk (l ++ [sig b2]) (sig b1) wc1 owc1 ->
  counts_right sfk cfk l (sig b2) wc2 owc2 ->
  let c1 := changes op sfk cfk l (sig b1) in
  let c2 := changes op sfk cfk (l ++ [sig b1]) (sig b2) in
  let c1' := changes op sfk cfk (l ++ [sig b2]) (sig b1) in
  let c2' := changes op sfk cfk l (sig b2) in
  required_change c1 c2 c1' c2'
  = Some (act_change (crossing op sfk cfk c1 c2 (b_kind b1) (b_kind b2) wc1 owc1 wc2 owc2)).
Proof. exact crossing_right. Qed.
Print Assumptions C26_action_at_a_crossing.
(** Processing all the intersections of a scanbeam keeps the active list right. *)
Theorem C26_counts_after_the_intersections_of_a_scanbeam :
  forall fuel op sfk cfk y s s' u,
  active_right op sfk cfk s -> positions_comparable y s ->
  process_intersections fuel op sfk cfk y s = Ok (u, s') ->
  active_right op sfk cfk s'.
Proof.
  intros fuel op sfk cfk y s s' u A P H.
  exact (proj1 (process_intersections_right fuel op sfk cfk y s s' u A P H)).
Qed.
Print Assumptions C26_counts_after_the_intersections_of_a_scanbeam.

(** ** C40 *)
(** After the intersections of a scanbeam are processed, the active list is a
    permutation of what it was, and neighbours are in the order of their positions
    on the scan line. *)
Theorem C40_active_list_is_ordered_after_the_intersections :
  forall fuel op sfk cfk y s s' u,
  active_right op sfk cfk s -> positions_comparable y s ->
  process_intersections fuel op sfk cfk y s = Ok (u, s') ->
  exists ids, s_abl s' = map Some ids /\ Permutation (live s) ids /\ adjacent_ok (in_place s') ids.
Proof.
  intros fuel op sfk cfk y s s' u A P H.
  exact (proj2 (process_intersections_right fuel op sfk cfk y s s' u A P H)).
Qed.
Print Assumptions C40_active_list_is_ordered_after_the_intersections.

(** *** The hypotheses are met along the example sweep *)
Lemma ex_positions : positions_comparable 1 ex_s5.
Proof.
  intros s1 u H.
  assert (E : s1 = after (update_current_x 1) ex_s5) by (unfold after; rewrite H; reflexivity). subst s1.
  intros i j Hi Hj.
  assert (L : live (after (update_current_x 1) ex_s5) = [4; 2; 1; 3]%positive) by (vm_compute; reflexivity).
  rewrite L in Hi, Hj. cbn [In] in Hi, Hj.
  repeat match goal with H : _ \/ _ |- _ => destruct H as [<-|H] | H : False |- _ => destruct H end;
    vm_compute; auto.
Qed.
Example C24_C26_example :
  active_right ex_op NON_ZERO EVEN_ODD ex_s1 /\
  active_right ex_op NON_ZERO EVEN_ODD ex_s2 /\
  active_right ex_op NON_ZERO EVEN_ODD ex_s3 /\
  active_right ex_op NON_ZERO EVEN_ODD ex_s5 /\
  active_right ex_op NON_ZERO EVEN_ODD ex_s6 /\
  active_right ex_op NON_ZERO EVEN_ODD ex_s7 /\
  (* the crossing really happens, and the output chains really change *)
  live ex_s5 = [4; 2; 1; 3]%positive /\ map (has_ring ex_s5) (live ex_s5) = [false; true; true; false] /\
  live ex_s6 = [2; 4; 3; 1]%positive /\ map (has_ring ex_s6) (live ex_s6) = [false; true; true; false].
Proof.
  assert (S1 : active_right ex_op NON_ZERO EVEN_ODD ex_s1).
  { assert (E : live ex_s1 = []) by (vm_compute; reflexivity). split; rewrite E; [constructor|].
    intros l1 i l2 H. destruct l1; discriminate. }
  assert (E2 : exists u, insert_lm_left_and_right_bound ex_op NON_ZERO EVEN_ODD 4%positive 3%positive ex_s1 = Ok (u, ex_s2))
    by (eexists; vm_compute; reflexivity).
  destruct E2 as (u2 & E2).
  assert (S2 : active_right ex_op NON_ZERO EVEN_ODD ex_s2).
  { eapply C24_counts_are_winding_numbers_after_inserting_a_minimum; [exact S1|..|exact E2];
      try (vm_compute; reflexivity); try (vm_compute; tauto). discriminate. }
  assert (E3 : exists u, process_horizontal 10 ex_op NON_ZERO EVEN_ODD 4 1 ex_s2 = Ok (u, ex_s3))
    by (eexists; vm_compute; reflexivity).
  destruct E3 as (u3 & E3).
  assert (S3 : active_right ex_op NON_ZERO EVEN_ODD ex_s3).
  { edestruct C24_counts_are_winding_numbers_after_a_horizontal_or_the_bound_left_alone as [X|(X & _)]; [exact S2| | |exact E3|exact X|].
    - vm_compute. reflexivity.
    - intros m Hm. assert (Some m = Some 4%positive) by (rewrite <- Hm; vm_compute; reflexivity).
      injection H as ->. split; vm_compute; reflexivity.
    - exfalso. revert X. vm_compute. lia. }
  assert (E5 : exists u, insert_lm_left_and_right_bound ex_op NON_ZERO EVEN_ODD 2%positive 1%positive ex_s3 = Ok (u, ex_s5))
    by (eexists; vm_compute; reflexivity).
  destruct E5 as (u5 & E5).
  assert (S5 : active_right ex_op NON_ZERO EVEN_ODD ex_s5).
  { assert (L3 : live ex_s3 = [4; 3]%positive) by (vm_compute; reflexivity).
    refine (proj1 (C24_counts_are_winding_numbers_after_inserting_a_minimum _ _ _ _ _ _ _ _ S3 _ _ _ _ _ _ _ _ E5)).
    - discriminate.
    - rewrite L3. intros [H|[H|[]]]; discriminate.
    - rewrite L3. intros [H|[H|[]]]; discriminate.
    - left. vm_compute. reflexivity.
    - vm_compute. reflexivity.
    - vm_compute. reflexivity.
    - vm_compute. reflexivity.
    - vm_compute. reflexivity. }
  assert (E6 : exists u, process_intersections 10 ex_op NON_ZERO EVEN_ODD 1 ex_s5 = Ok (u, ex_s6))
    by (eexists; vm_compute; reflexivity).
  destruct E6 as (u6 & E6).
  assert (S6 : active_right ex_op NON_ZERO EVEN_ODD ex_s6).
  { eapply C26_counts_after_the_intersections_of_a_scanbeam; [exact S5|apply ex_positions|exact E6]. }
  assert (E7 : exists u, do_maxima 10 ex_op NON_ZERO EVEN_ODD 1 2 ex_s6 = Ok (u, ex_s7))
    by (eexists; vm_compute; reflexivity).
  destruct E7 as (u7 & E7).
  assert (S7 : active_right ex_op NON_ZERO EVEN_ODD ex_s7).
  { refine (proj1 (C24_counts_are_winding_numbers_after_a_maximum _ _ _ _ _ _ _ 4%positive 3%positive _ _ S6 _ _ _ _ E7)).
    - vm_compute. reflexivity.
    - vm_compute. reflexivity.
    - lia.
    - split; vm_compute; reflexivity. }
  do 6 (split; [assumption|]). repeat split; vm_compute; reflexivity.
Qed.
