(** * Property theorems: rounding and edges (C20, C21, C22) *)
From Coq Require Import ZArith List Bool Lia Reals Lra.
From Coq Require Import Floats.SpecFloat.
From Flocq Require Import Core.Core.
From Verif Require Import Py Monad Utils Geometry SpecRing SpecBounds SpecEdge FloatP SlopeP RoundP EdgeP LinearRingP LinearRing2P RingEdgesP HistoryP.
Import ListNotations.
Local Open Scope Z_scope.

(** ** C20: rounding to the grid.  [good f]: a finite binary64 number; [val f]: the
    real number it stands for. *)
(** [round_half_up] is rounding to the nearest integer, ties away from zero *)
Theorem C20_round_half_up_nearest : forall f, good f -> (Rabs (val f) < IZR (10 ^ 28 - 1))%R ->
  exists n, round_half_up (NF f) = Ok n /\ (Rabs (IZR n - val f) <= / 2)%R /\
    ((Rabs (IZR n - val f) = / 2)%R -> (Rabs (val f) < Rabs (IZR n))%R).
Proof.
  intros f G B. exists (half_up_int (val f)). destruct (half_up_int_spec (val f)) as (H1 & H2).
  split; [|auto]. rewrite half_up_float by exact G. unfold check_digits.
  destruct (Z.ltb_spec (Z.abs (half_up_int (val f))) (10 ^ 28)) as [L|L]; [reflexivity|exfalso].
  apply IZR_le in L. rewrite abs_IZR in L. rewrite minus_IZR in B. apply Rabs_le_inv in H1. apply Rabs_lt_inv in B.
  revert L. unfold Rabs. destruct (Rcase_abs _); lra.
Qed.
Print Assumptions C20_round_half_up_nearest.
(** beyond 28 decimal digits it raises instead of rounding *)
Theorem C20_round_half_up_range : forall f, good f -> (IZR (10 ^ 28) <= Rabs (val f))%R ->
  round_half_up (NF f) = Raise InvalidOperation.
Proof.
  intros f G B. rewrite half_up_float by exact G. unfold check_digits.
  destruct (Z.ltb_spec (Z.abs (half_up_int (val f))) (10 ^ 28)) as [L|L]; [exfalso|reflexivity].
  assert (M : Z.abs (half_up_int (val f)) <= 10 ^ 28 - 1) by lia. apply IZR_le in M. rewrite abs_IZR, minus_IZR in M.
  destruct (half_up_int_spec (val f)) as (H1 & _). apply Rabs_le_inv in H1. apply Rabs_le_inv in M.
  revert B. unfold Rabs. destruct (Rcase_abs _); lra.
Qed.
Print Assumptions C20_round_half_up_range.
(** [round_towards_min] / [round_towards_max] on a float below 2^k (k <= 50): both
    return a neighbouring integer at most 1/2 + 2^(k-51) away; they agree (and
    are then within 1/2) unless the number is a tie up to 2^(k-51), and then they
    are the integers just below and just above *)
Theorem C20_round_towards_nearest : forall f k, good f -> 1 <= k <= 50 -> (Rabs (val f) < bpow radix2 k)%R ->
  exists mn mx, round_towards_min (NF f) = Ok mn /\ round_towards_max (NF f) = Ok mx /\
    (Rabs (IZR mn - val f) <= / 2 + bpow radix2 (k - 51))%R /\
    (Rabs (IZR mx - val f) <= / 2 + bpow radix2 (k - 51))%R /\
    (mn = mx /\ (Rabs (IZR mn - val f) <= / 2)%R \/
     mx = mn + 1 /\ (IZR mn <= val f <= IZR mx)%R /\ (Rabs (val f - (IZR mn + / 2)) <= bpow radix2 (k - 51))%R).
Proof.
  intros f k G Hk B. destruct (round_towards_error f k G Hk B) as (mn & mx & E1 & E2 & A1 & A2 & A3 & A4 & A5).
  exists mn, mx. repeat (split; [assumption|]). destruct A3 as [E|(E & I)]; [left; auto|right].
  split; [exact E|]. split; [exact I|]. apply A5. lia.
Qed.
Print Assumptions C20_round_towards_nearest.
(** an exact tie goes down / up; an integer stays *)
Theorem C20_ties_and_integers : forall f k n, good f -> 1 <= k <= 50 -> (Rabs (val f) < bpow radix2 k)%R ->
  (val f = (IZR n + / 2)%R -> round_towards_min (NF f) = Ok n /\ round_towards_max (NF f) = Ok (n + 1)) /\
  (val f = IZR n -> round_towards_min (NF f) = Ok n /\ round_towards_max (NF f) = Ok n /\ round_half_up (NF f) = Ok n).
Proof.
  intros f k n G Hk B. destruct (round_towards_float f k G ltac:(lia) B) as (h & Gh & Vh & E1 & E2). split; intros E.
  - assert (F : Zfloor (val f) = n) by (rewrite E; apply Zfloor_imp; rewrite plus_IZR; lra).
    assert (C : Zceil (val f) = n + 1) by (rewrite Zceil_floor_neq by (rewrite F, E; lra); lia).
    rewrite F in Vh. rewrite (almost_equal_same h f Gh G) in E1, E2 by lra. rewrite F in E1. rewrite C in E2. auto.
  - assert (F : Zfloor (val f) = n) by (rewrite E; apply Zfloor_IZR).
    assert (C : Zceil (val f) = n) by (rewrite E; apply Zceil_IZR).
    assert (H : half_up_int (val f) = n).
    { destruct (half_up_int_spec (val f)) as (H & _). rewrite E in H at 2. rewrite <- minus_IZR in H.
      apply Rabs_le_inv in H. assert (- (1) < half_up_int (val f) - n < 1); [|lia].
      split; apply lt_IZR; rewrite ?opp_IZR; lra. }
    rewrite F, H in E1. rewrite C, H in E2. destruct (f_almost_equal h f);
    (split; [exact E1|]; split; [exact E2|]; rewrite half_up_float, H by exact G;
     rewrite <- H; apply (half_up_small _ k ltac:(lia) B)).
Qed.
Print Assumptions C20_ties_and_integers.
Theorem C20_integers_unchanged : forall z, Z.abs z < 10 ^ 28 ->
  round_half_up (NI z) = Ok z /\ round_towards_min (NI z) = Ok z /\ round_towards_max (NI z) = Ok z.
Proof.
  intros z H. split; [|apply round_towards_int; exact H].
  cbn. unfold check_digits. destruct (Z.ltb_spec (Z.abs z) (10 ^ 28)); [reflexivity|lia].
Qed.
Print Assumptions C20_integers_unchanged.
(** from 2^50 on "towards" rounding is no longer rounding to nearest: 2^50 + 1/4
    goes to 2^50 + 1 *)
Theorem C20_nearest_beyond_2_50_refuted : exists f, good f /\ val f = (IZR (2 ^ 50) + / 4)%R /\
  round_towards_max (NF f) = Ok (2 ^ 50 + 1).
Proof.
  exists (S754_finite false (2 ^ 52 + 1) (-2)). split; [split; reflexivity|]. split; [|vm_compute; reflexivity].
  rewrite val_finite. cbn [cond_Zopp]. unfold F2R. cbn [Fnum Fexp].
  change (Z.pos (2 ^ 52 + 1)) with (2 ^ 50 * 4 + 1). rewrite plus_IZR, mult_IZR. change (bpow radix2 (-2)) with (/ 4)%R. lra.
Qed.
Print Assumptions C20_nearest_beyond_2_50_refuted.
(* -5/2 *)
Definition m5_2 : float := S754_finite true (5 * 2 ^ 50) (-51).
Example C20_example : good m5_2 /\ round_towards_min (NF m5_2) = Ok (-3) /\
  round_towards_max (NF m5_2) = Ok (-2) /\ round_half_up (NF m5_2) = Ok (-3).
Proof. vm_compute. auto. Qed.

(** ** C21 *)
Theorem C21_edge_normalised : forall a b e, mk_edge a b = Ok e ->
  joins e a b /\ (is_horizontal e = true <-> py a = py b) /\
  (py a <> py b ->
     good (eslope e) /\
     val (eslope e) = rnd ((IZR (px (etop e)) - IZR (px (ebot e))) / (IZR (py (etop e)) - IZR (py (ebot e)))) /\
     (* correctly rounded: no finite binary64 number is nearer to dx/dy *)
     (forall g, good g ->
        Rabs (val (eslope e) - (IZR (px (etop e)) - IZR (px (ebot e))) / (IZR (py (etop e)) - IZR (py (ebot e))))
        <= Rabs (val g - (IZR (px (etop e)) - IZR (px (ebot e))) / (IZR (py (etop e)) - IZR (py (ebot e)))))%R /\
     mk_edge b a = Ok e).
Proof.
  intros a b e H. split; [apply mk_edge_joins; exact H|].
  assert (D : py (etop e) - py (ebot e) = 0 <-> py a = py b).
  { destruct (mk_edge_orient _ _ _ H) as (O1 & O2). destruct (Z.lt_ge_cases (py a) (py b)) as [L|L].
    - destruct (O1 L) as (-> & ->). lia.
    - destruct (O2 L) as (-> & ->). lia. }
  assert (S : mk_edge a b = Ok e -> py a <> py b ->
    int_truediv (px (etop e) - px (ebot e)) (py (etop e) - py (ebot e)) = Ok (eslope e)).
  { intros H' N. assert (N' : a <> b) by congruence. pose proof (mk_edge_well_made _ _ _ H' N') as (_ & _ & W).
    destruct (Z.eqb_spec (py (etop e)) (py (ebot e))); [|exact W]. exfalso. apply N, D. lia. }
  split.
  - destruct (Z.eq_dec (py a) (py b)) as [E|N].
    + split; [auto|]. intros _. unfold mk_edge in H. rewrite E, Z.ltb_irrefl in H. cbv beta iota zeta in H.
      destruct (Z.eqb_spec (py b - py a) 0); [|lia]. injection H as <-. reflexivity.
    + split; [|contradiction]. intros Hh. specialize (S H N).
      destruct (truediv_spec (px (etop e) - px (ebot e)) (py (etop e) - py (ebot e)) ltac:(lia)) as [(_ & f & E & (_ & G) & _)|(_ & E)];
        rewrite E in S; [|discriminate]. injection S as S. subst f. unfold is_horizontal in Hh. destruct (eslope e); discriminate.
  - intros N. specialize (S H N).
    destruct (truediv_spec (px (etop e) - px (ebot e)) (py (etop e) - py (ebot e)) ltac:(lia)) as [(_ & f & E & G & V & _)|(_ & E)];
      rewrite E in S; [|discriminate]. injection S as S. subst f. rewrite !minus_IZR in V. split; [exact G|]. split; [exact V|]. split.
    + intros g Gg. rewrite V. apply (proj2 (round_N_pt radix2 fexp64 (fun x => negb (Z.even x)) _)). apply good_format. exact Gg.
    + revert H. unfold mk_edge. destruct (Z.ltb_spec (py a) (py b)), (Z.ltb_spec (py b) (py a)); try lia; auto.
Qed.
Print Assumptions C21_edge_normalised.
Theorem C21_edge_total : forall a b,
  (Z.abs (px a - px b) <= 2 ^ 1023 -> exists e, mk_edge a b = Ok e) /\
  ((exists e, mk_edge a b = Ok e) \/ mk_edge a b = Raise OverflowError).
Proof. intros a b. split; [apply mk_edge_ok|apply mk_edge_cases]. Qed.
Print Assumptions C21_edge_total.
Theorem C21_reverse_horizontal : forall e,
  reverse_horizontal (reverse_horizontal e) = e /\
  (py (etop e) = py (ebot e) -> etop (reverse_horizontal e) = ebot e /\ ebot (reverse_horizontal e) = etop e).
Proof.
  intros [[tx ty] [bx by_] s]. unfold reverse_horizontal. cbn. split; [reflexivity|]. intros ->. auto.
Qed.
Print Assumptions C21_reverse_horizontal.
Example C21_example : exists e, mk_edge (Pt 0 1) (Pt 1 4) = Ok e /\ etop e = Pt 0 1 /\ ebot e = Pt 1 4 /\
  eslope e = S754_finite false 6004799503160661 (-54).
Proof. eexists. split; [vm_compute; reflexivity|]. auto. Qed.

(** ** C22 *)
(** coordinates of at most 2^24: a point is found iff the closed segments meet *)
Theorem C22_intersection_iff_segments_meet : forall e o,
  small_edge e (2 ^ 24) -> small_edge o (2 ^ 24) -> determinant e o <> 0 ->
  (exists p, edge_and e o = Ok (Some p)) /\ meet e o \/
  edge_and e o = Ok None /\ ~ meet e o.
Proof.
  intros e o Se So N. destruct (edge_and_small e o Se So N) as ([p|] & E & H); [left|right; auto].
  split; [eauto|]. destruct H as (t & s & x & y & _ & _ & _ & T & S & X & Y & _). exists t, s. auto.
Qed.
Print Assumptions C22_intersection_iff_segments_meet.
(** one direction holds for all coordinates in the float range: segments that
    meet are found *)
Theorem C22_meeting_segments_found : forall e o,
  determinant e o <> 0 -> meet e o ->
  Z.abs (px (ebot e)) <= 2 ^ 1023 -> Z.abs (py (ebot e)) <= 2 ^ 1023 ->
  Z.abs (px (etop e) - px (ebot e)) <= 2 ^ 1023 -> Z.abs (py (etop e) - py (ebot e)) <= 2 ^ 1023 ->
  exists p, edge_and e o = Ok (Some p).
Proof. exact edge_and_complete. Qed.
Print Assumptions C22_meeting_segments_found.
(** the point found is the common point up to 2^-25, and rounded to the grid it
    is within 1/2 + 2^-23 of it in each coordinate *)
Theorem C22_intersection_accuracy : forall e o p,
  small_edge e (2 ^ 24) -> small_edge o (2 ^ 24) -> edge_and e o = Ok (Some p) ->
  exists t s, (0 <= t <= 1)%R /\ (0 <= s <= 1)%R /\ at_x e t = at_x o s /\ at_y e t = at_y o s /\
    (Rabs (numval (nx p) - at_x e t) <= bpow radix2 (-25))%R /\
    (Rabs (numval (ny p) - at_y e t) <= bpow radix2 (-25))%R /\
    exists q, round_point p = Ok q /\
      (Rabs (IZR (px q) - at_x e t) <= / 2 + bpow radix2 (-23))%R /\
      (Rabs (IZR (py q) - at_y e t) <= / 2 + bpow radix2 (-23))%R.
Proof.
  intros e o p Se So E. assert (N : determinant e o <> 0).
  { intros Z0. unfold edge_and in E. fold (determinant e o) in E. rewrite Z0 in E. discriminate. }
  destruct (edge_and_small e o Se So N) as (r & E' & H). rewrite E in E'. injection E' as <-.
  destruct H as (t & s & x & y & -> & Gx & Gy & T & S & X & Y & Ex & Ey). exists t, s.
  repeat (split; [assumption|]). cbn [nx ny numval]. repeat (split; [assumption|]).
  exact (round_point_small e t x y Se T Gx Gy Ex Ey).
Qed.
Print Assumptions C22_intersection_accuracy.
Theorem C22_parallel_none : forall e o, determinant e o = 0 -> edge_and e o = Ok None.
Proof. intros e o Z0. unfold edge_and. fold (determinant e o). rewrite Z0. reflexivity. Qed.
Print Assumptions C22_parallel_none.
(** for all integer coordinates: "not found" does not depend on the operand order *)
Theorem C22_not_found_symmetric : forall e o, edge_and e o = Ok None <-> edge_and o e = Ok None.
Proof. intros e o. split; apply edge_and_none_sym. Qed.
Print Assumptions C22_not_found_symmetric.
(** without the bound on the coordinates the equivalence fails: segments that
    miss each other by 2^-27 are reported as intersecting *)
Theorem C22_unbounded_coordinates_refuted : exists e o p,
  mk_edge (Pt 0 (2 ^ 27)) (Pt 0 0) = Ok e /\ mk_edge (Pt (-1) 0) (Pt (2 ^ 27 - 1) (-1)) = Ok o /\
  determinant e o <> 0 /\ edge_and e o = Ok (Some p) /\ ~ meet e o.
Proof.
  do 3 eexists. split; [vm_compute; reflexivity|]. split; [vm_compute; reflexivity|]. split; [vm_compute; discriminate|].
  split; [vm_compute; reflexivity|].
  intros (t & s & T & S & X & Y). unfold at_x, at_y in *. cbn -[IZR] in X, Y.
  change (-1 - 0) with (-1) in Y. lra.
Qed.
Print Assumptions C22_unbounded_coordinates_refuted.
Example C22_example : exists e o p, mk_edge (Pt 0 4) (Pt 4 0) = Ok e /\ mk_edge (Pt 0 0) (Pt 4 3) = Ok o /\
  small_edge e (2 ^ 24) /\ small_edge o (2 ^ 24) /\ determinant e o <> 0 /\ edge_and e o = Ok (Some p) /\ round_point p = Ok (Pt 2 2).
Proof.
  do 3 eexists. split; [vm_compute; reflexivity|]. split; [vm_compute; reflexivity|].
  split; [repeat split; vm_compute; discriminate|]. split; [repeat split; vm_compute; discriminate|].
  split; [vm_compute; discriminate|]. split; [vm_compute; reflexivity|]. vm_compute. reflexivity.
Qed.
