(** * Slopes of edges with moderate coordinates are ordered exactly *)
From Coq Require Import ZArith Reals List Bool Lia Lra.
From Coq Require Import Floats.SpecFloat.
From Flocq Require Import Core Relative BinarySingleNaN.
From Verif Require Import Py Geometry FloatP SpecBounds.
Open Scope R_scope.

Lemma rnd_error x : (bpow radix2 (-1022) <= Rabs x)%R -> (Rabs (rnd x - x) <= bpow radix2 (-53) * Rabs x)%R.
Proof.
  intros H. pose proof (relative_error_N_FLT radix2 (-1074) 53 ltac:(reflexivity) (fun x => negb (Z.even x)) x H) as E.
  refine (Rle_trans _ _ _ E _). apply Req_le. f_equal.
  change (- (53) + 1)%Z with (1 + -53)%Z. rewrite bpow_plus. change (bpow radix2 1) with 2%R. field.
Qed.
Lemma quot_bounds a b : (b <> 0)%Z -> (Rabs (IZR a / IZR b) = IZR (Z.abs a) / IZR (Z.abs b))%R.
Proof.
  intros N. unfold Rdiv. rewrite Rabs_mult, Rabs_inv, !abs_IZR. reflexivity.
Qed.
Lemma quot_error a b : (b <> 0)%Z -> (Z.abs b <= 2 ^ 1000)%Z ->
  (Rabs (rnd (IZR a / IZR b) - IZR a / IZR b) <= bpow radix2 (-53) * (IZR (Z.abs a) / IZR (Z.abs b)))%R.
Proof.
  intros N B. rewrite <- quot_bounds by exact N. destruct (Z.eq_dec a 0) as [->|Na].
  { unfold Rdiv. rewrite Rmult_0_l, rnd_0, Rminus_0_r, Rabs_R0, Rmult_0_r. lra. }
  apply rnd_error. rewrite quot_bounds by exact N.
  assert (P : (0 < IZR (Z.abs b))%R) by (apply IZR_lt; lia).
  apply (Rmult_le_reg_r (IZR (Z.abs b))); [exact P|].
  unfold Rdiv. rewrite Rmult_assoc, Rinv_l, Rmult_1_r by lra.
  apply Rle_trans with (bpow radix2 (-1022) * bpow radix2 1000)%R.
  - apply Rmult_le_compat_l; [apply bpow_ge_0|]. rewrite <- IZR_Zpower by lia. apply IZR_le. exact B.
  - rewrite <- bpow_plus. apply Rle_trans with (bpow radix2 0); [apply bpow_le; lia|]. change (bpow radix2 0) with 1%R.
    apply IZR_le. lia.
Qed.
Lemma rnd_quot_lt a b c d : (b <> 0)%Z -> (d <> 0)%Z ->
  (Z.abs a <= 2 ^ 25)%Z -> (Z.abs b <= 2 ^ 25)%Z -> (Z.abs c <= 2 ^ 25)%Z -> (Z.abs d <= 2 ^ 25)%Z ->
  (IZR a / IZR b < IZR c / IZR d)%R -> (rnd (IZR a / IZR b) < rnd (IZR c / IZR d))%R.
Proof.
  intros Nb Nd Ba Bb Bc Bd L. pose proof (quot_error a b Nb ltac:(lia)) as E1. pose proof (quot_error c d Nd ltac:(lia)) as E2.
  destruct (Rlt_or_le (rnd (IZR a / IZR b)) (rnd (IZR c / IZR d))) as [H|H]; [exact H|exfalso].
  assert (Hb : (1 <= IZR (Z.abs b))%R) by (apply IZR_le; lia). assert (Hd : (1 <= IZR (Z.abs d))%R) by (apply IZR_le; lia).
  set (B := IZR (Z.abs b)) in *. set (D := IZR (Z.abs d)) in *.
  set (x := (IZR a / IZR b)%R) in *. set (y := (IZR c / IZR d)%R) in *.
  assert (G : (1 <= (y - x) * (B * D))%R).
  { assert (Z0 : ((y - x) * (B * D) = IZR ((c * b - a * d) * (Z.sgn b * Z.sgn d)))%R).
    { unfold x, y, B, D. replace (Z.abs b) with (b * Z.sgn b)%Z by lia. replace (Z.abs d) with (d * Z.sgn d)%Z by lia.
      rewrite !mult_IZR, minus_IZR, !mult_IZR. apply IZR_neq in Nb, Nd. field. auto. }
    rewrite Z0. apply IZR_le.
    assert (0 < (y - x) * (B * D))%R by (apply Rmult_lt_0_compat; [lra|nra]).
    rewrite Z0 in H0. apply lt_IZR in H0. lia. }
  assert (A : (y - x <= bpow radix2 (-53) * (IZR (Z.abs a) / B + IZR (Z.abs c) / D))%R).
  { apply Rabs_le_inv in E1, E2. rewrite Rmult_plus_distr_l. lra. }
  assert (A1 : ((IZR (Z.abs a) / B + IZR (Z.abs c) / D) * (B * D) = IZR (Z.abs a) * D + IZR (Z.abs c) * B)%R) by (field; lra).
  assert (A2 : ((y - x) * (B * D) <= bpow radix2 (-53) * (IZR (Z.abs a) * D + IZR (Z.abs c) * B))%R).
  { rewrite <- A1. apply Rle_trans with (bpow radix2 (-53) * (IZR (Z.abs a) / B + IZR (Z.abs c) / D) * (B * D))%R; [|apply Req_le; ring].
    apply Rmult_le_compat_r; [nra|exact A]. }
  assert (A3 : (IZR (Z.abs a) * D + IZR (Z.abs c) * B <= bpow radix2 51)%R).
  { unfold D, B. rewrite <- !mult_IZR, <- plus_IZR, <- IZR_Zpower by lia. apply IZR_le.
    change (radix2 ^ 51)%Z with (2 ^ 25 * 2 ^ 25 + 2 ^ 25 * 2 ^ 25)%Z.
    apply Z.add_le_mono; apply Z.mul_le_mono_nonneg; lia. }
  assert (A4 : (bpow radix2 (-53) * (IZR (Z.abs a) * D + IZR (Z.abs c) * B) <= bpow radix2 (-2))%R).
  { apply Rle_trans with (bpow radix2 (-53) * bpow radix2 51)%R.
    - apply Rmult_le_compat_l; [apply bpow_ge_0|exact A3].
    - rewrite <- bpow_plus. apply bpow_le. lia. }
  assert (bpow radix2 (-2) < 1)%R by (change 1%R with (bpow radix2 0); apply bpow_lt; lia). lra.
Qed.

Open Scope Z_scope.
Lemma well_made_slope e : well_made e -> py (etop e) <> py (ebot e) ->
  good (eslope e) /\ val (eslope e) = rnd (IZR (px (etop e) - px (ebot e)) / IZR (py (etop e) - py (ebot e))).
Proof.
  intros (_ & _ & H) N. destruct (Z.eqb_spec (py (etop e)) (py (ebot e))) as [E|_]; [contradiction|].
  destruct (truediv_spec (px (etop e) - px (ebot e)) (py (etop e) - py (ebot e)) ltac:(lia)) as [(_ & f & E & G & V & _)|(_ & E)];
    rewrite E in H; [|discriminate]. injection H as <-. auto.
Qed.
(** the comparison of two slopes is the comparison of the directions *)
Lemma slope_order e o : well_made e -> well_made o -> py (etop e) < py (ebot e) -> py (etop o) < py (ebot o) ->
  (forall p, p = etop e \/ p = ebot e \/ p = etop o \/ p = ebot o -> Z.abs (px p) <= 2 ^ 24 /\ Z.abs (py p) <= 2 ^ 24) ->
  num_leb (NF (eslope e)) (NF (eslope o)) = true <->
  (px (etop e) - px (ebot e)) * (py (etop o) - py (ebot o)) <= (px (etop o) - px (ebot o)) * (py (etop e) - py (ebot e)).
Proof.
  intros We Wo Ne No B.
  destruct (well_made_slope e We ltac:(lia)) as (G1 & V1). destruct (well_made_slope o Wo ltac:(lia)) as (G2 & V2).
  rewrite num_leb_spec by assumption. cbn [numval]. rewrite V1, V2.
  pose proof (B (etop e) ltac:(auto)) as (B1 & B2). pose proof (B (ebot e) ltac:(auto)) as (B3 & B4).
  pose proof (B (etop o) ltac:(auto)) as (B5 & B6). pose proof (B (ebot o) ltac:(auto)) as (B7 & B8).
  set (a := px (etop e) - px (ebot e)) in *. set (b := py (etop e) - py (ebot e)) in *.
  set (c := px (etop o) - px (ebot o)) in *. set (d := py (etop o) - py (ebot o)) in *.
  assert (Hb : b < 0) by lia. assert (Hd : d < 0) by lia.
  assert (La : Z.abs a <= 2 ^ 25) by lia. assert (Lb : Z.abs b <= 2 ^ 25) by lia.
  assert (Lc : Z.abs c <= 2 ^ 25) by lia. assert (Ld : Z.abs d <= 2 ^ 25) by lia. clearbody a b c d.
  assert (Hb' : (IZR b < 0)%R) by (apply IZR_lt; exact Hb). assert (Hd' : (IZR d < 0)%R) by (apply IZR_lt; exact Hd).
  assert (Q : (IZR a / IZR b <= IZR c / IZR d)%R <-> a * d <= c * b).
  { assert (E : (IZR a / IZR b * (IZR b * IZR d) = IZR (a * d))%R) by (rewrite mult_IZR; field; lra).
    assert (F : (IZR c / IZR d * (IZR b * IZR d) = IZR (c * b))%R) by (rewrite mult_IZR; field; lra).
    assert (P : (0 < IZR b * IZR d)%R) by nra. split; intros H.
    - apply le_IZR. rewrite <- E, <- F. apply Rmult_le_compat_r; lra.
    - apply IZR_le in H. rewrite <- E, <- F in H. apply Rmult_le_reg_r in H; [exact H|exact P]. }
  destruct (Rle_bool_spec (rnd (IZR a / IZR b)) (rnd (IZR c / IZR d))) as [H|H]; split; intros X; try discriminate; try reflexivity.
  - apply Q. destruct (Rle_or_lt (IZR a / IZR b) (IZR c / IZR d)) as [Y|Y]; [exact Y|exfalso].
    pose proof (rnd_quot_lt c d a b ltac:(lia) ltac:(lia) Lc Ld La Lb Y). lra.
  - apply Q in X. apply rnd_le in X. lra.
Qed.
