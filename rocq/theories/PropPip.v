(** * C31: point in polygon *)
From Coq Require Import ZArith List Bool Lia FMapPositive.
From Coq Require Import Floats.SpecFloat.
From Verif Require Import Py Monad Utils Geometry LinearRingM BoundM LocalMinimumM StateM
     PointNodeM RingM HoareP SpecRing LinearRingP RingEdgesP SpecHeap CircleP PipP PropHeap.
Import ListNotations.
Open Scope Z_scope.

(** For an integer point [p] and a vertex ring, [point_in_polygon] returns ON iff
    [p] lies on an edge, and otherwise INSIDE iff the winding number of the ring
    around [p] is odd (i.e. iff a ray from [p] crosses it an odd number of times).
    It changes nothing.  The only exception is an OverflowError when a cross
    product is too large for a float. *)
Theorem C31_point_in_polygon s a l p fuel : circle s (a :: l) -> (length (a :: l) <= fuel)%nat ->
  let vs := vertices s (a :: l) in let q := QPt (px p) (py p) 1 in
  point_in_polygon fuel (npoint_of p) a s = Raise OverflowError /\
    (exists u v, In (u, v) (cyclic_pairs vs) /\ 2 ^ 1023 < Z.abs (side q u v)) \/
  (exists r, point_in_polygon fuel (npoint_of p) a s = Ok (r, s) /\
    (r = ON <-> exists u v, In (u, v) (cyclic_pairs vs) /\ on_edge q u v) /\
    (r <> ON -> r = if Z.odd (winding_number q vs) then INSIDE else OUTSIDE)).
Proof. apply pip_circle. Qed.
(** no exception for coordinates below 2^510 *)
Theorem C31_total s a l p fuel : circle s (a :: l) -> (length (a :: l) <= fuel)%nat ->
  Z.abs (px p) <= 2 ^ 510 -> Z.abs (py p) <= 2 ^ 510 ->
  Forall (fun v => Z.abs (px v) <= 2 ^ 510 /\ Z.abs (py v) <= 2 ^ 510) (vertices s (a :: l)) ->
  exists r, point_in_polygon fuel (npoint_of p) a s = Ok (r, s).
Proof.
  intros C L B1 B2 BV. destruct (C31_point_in_polygon s a l p fuel C L) as [(_ & u & v & I & B)|(r & E & _)]; [|eauto].
  exfalso. apply RingEdgesP.cyclic_pairs_in in I as (Iu & Iv). rewrite Forall_forall in BV. apply BV in Iu as (U1 & U2). apply BV in Iv as (V1 & V2).
  unfold side in B. cbn [qx qy qd] in B. rewrite !Z.mul_1_r in B. revert B. apply Z.le_ngt.
  assert (E : 2 ^ 1023 = 2 * (2 ^ 511 * 2 ^ 511)) by (rewrite <- Z.pow_add_r by lia; rewrite <- Z.pow_succ_r by lia; reflexivity).
  assert (E2 : 2 ^ 511 = 2 * 2 ^ 510) by (rewrite <- Z.pow_succ_r by lia; reflexivity).
  rewrite E. set (k := 2 ^ 510) in *. set (m := 2 ^ 511) in *. clearbody k m. clear E.
  assert (P : forall x y, Z.abs x <= m -> Z.abs y <= m -> Z.abs (x * y) <= m * m).
  { intros x y X Y. rewrite Z.abs_mul. apply Z.mul_le_mono_nonneg; lia. }
  pose proof (P (px v - px u) (py p - py u) ltac:(lia) ltac:(lia)). pose proof (P (py v - py u) (px p - px u) ltac:(lia) ltac:(lia)). lia.
Qed.
(** the three answers occur *)
Example C31_example :
  point_in_polygon 10 (npoint_of (Pt 1 1)) 1%positive ex_tri_st = Ok (INSIDE, ex_tri_st) /\
  point_in_polygon 10 (npoint_of (Pt 2 0)) 1%positive ex_tri_st = Ok (ON, ex_tri_st) /\
  point_in_polygon 10 (npoint_of (Pt 0 0)) 1%positive ex_tri_st = Ok (ON, ex_tri_st) /\
  point_in_polygon 10 (npoint_of (Pt 3 3)) 1%positive ex_tri_st = Ok (OUTSIDE, ex_tri_st) /\
  circle ex_tri_st [1; 2; 3]%positive.
Proof. repeat (split; [vm_compute; reflexivity|]). apply C28_example. Qed.
