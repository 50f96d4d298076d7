(** * Rounding of coordinates (utils.py:82-98) against real arithmetic *)
From Coq Require Import ZArith List Bool Lia Reals Lra Psatz.
From Coq Require Import Floats.SpecFloat.
From Flocq Require Import Core.Core IEEE754.BinarySingleNaN.
From Verif Require Import Py Utils Spec Geometry UlpP FloatP.
Open Scope Z_scope.

(** ** [round_half_up] *)
Definition half_up_int (x : R) : Z := if Rlt_bool x 0 then - Zfloor (- x + / 2) else Zfloor (x + / 2).
Lemma round_half_away_spec s m e : round_half_away s m e = half_up_int (val (S754_finite s m e)).
Proof.
  set (mg := if 0 <=? e then Zpos m * 2 ^ e else (2 * Zpos m + 2 ^ (- e)) / (2 * 2 ^ (- e))).
  assert (M : mg = Zfloor (F2R (Float radix2 (Zpos m) e) + / 2)).
  { unfold mg. destruct (Z.leb_spec 0 e) as [L|L].
    - rewrite F2R_pos_exp by exact L. symmetry. apply Zfloor_imp. rewrite plus_IZR. split; lra.
    - rewrite <- Zfloor_div by (pose proof (Z.pow_pos_nonneg 2 (- e)); lia). f_equal.
      pose proof (F2R_scale (Zpos m) e L) as S. pose proof (pow2_IZR_pos (- e) ltac:(lia)) as P.
      rewrite plus_IZR, !mult_IZR. rewrite <- S. field. lra. }
  unfold round_half_away, half_up_int. fold mg. rewrite M, val_finite. clear M mg.
  rewrite F2R_cond_neg. destruct s; cbn [cond_Zopp]; [|reflexivity].
  change (Z.neg m) with (- Z.pos m). rewrite F2R_Zopp, Ropp_involutive. reflexivity.
Qed.
Lemma half_up_int_spec x : (Rabs (IZR (half_up_int x) - x) <= / 2)%R /\
  (Rabs (IZR (half_up_int x) - x) = / 2 -> Rabs x < Rabs (IZR (half_up_int x)))%R.
Proof.
  unfold half_up_int. destruct (Rlt_bool_spec x 0) as [L|L].
  - pose proof (Zfloor_lb (- x + / 2)) as A. pose proof (Zfloor_ub (- x + / 2)) as B.
    rewrite opp_IZR. set (k := IZR (Zfloor (- x + / 2))) in *.
    assert (K : (0 <= k)%R). { apply IZR_le. apply Zfloor_lub. lra. }
    split; [apply Rabs_le; lra|]. rewrite (Rabs_left x) by lra. rewrite Rabs_Ropp, (Rabs_pos_eq k) by exact K.
    unfold Rabs. destruct (Rcase_abs _); lra.
  - pose proof (Zfloor_lb (x + / 2)) as A. pose proof (Zfloor_ub (x + / 2)) as B.
    set (k := IZR (Zfloor (x + / 2))) in *.
    assert (K : (0 <= k)%R). { apply IZR_le. apply Zfloor_lub. lra. }
    split; [apply Rabs_le; lra|]. rewrite (Rabs_pos_eq x) by lra. rewrite (Rabs_pos_eq k) by exact K.
    unfold Rabs. destruct (Rcase_abs _); lra.
Qed.
Lemma half_up_float f : good f -> round_half_up (NF f) = check_digits (half_up_int (val f)).
Proof.
  intros G. destruct f as [s|s| |s m e]; try (destruct G; discriminate).
  - rewrite val_zero. unfold half_up_int. rewrite Rlt_bool_false by lra.
    assert (Zfloor (0 + / 2) = 0) as -> by (apply Zfloor_imp; cbn; lra). reflexivity.
  - cbn [round_half_up]. rewrite round_half_away_spec. reflexivity.
Qed.

(** ** Nearby floats *)
Lemma good_number f : good f -> is_number f.
Proof. intros (V & F). split; [exact V|]. destruct f; try reflexivity; discriminate. Qed.
Definition fneg (f : float) : float := SFopp f.
Lemma fneg_good f : good f -> good (fneg f) /\ val (fneg f) = (- val f)%R /\ rank (fneg f) = - rank f.
Proof.
  intros (V & F). destruct f as [s|s| |s m e]; try discriminate.
  - repeat split. cbn. lra.
  - repeat split; [exact V| |].
    + rewrite !val_finite. destruct s; cbn [SFopp fneg negb cond_Zopp]; rewrite val_finite; cbn [negb cond_Zopp];
        change (Z.neg m) with (- Z.pos m); rewrite F2R_Zopp; lra.
    + cbn. destruct s; cbn; lia.
Qed.
Lemma rank_le_val f g : good f -> good g -> rank f <= rank g <-> (val f <= val g)%R.
Proof.
  intros Gf Gg. pose proof (rank_compare f g (good_number f Gf) (good_number g Gg)) as R.
  rewrite (SFcompare_spec f g Gf Gg) in R. injection R as R.
  destruct (Rcompare_spec (val f) (val g)) as [L|L|L]; destruct (Z.compare_spec (rank f) (rank g)); try discriminate; split; intros; try lia; lra.
Qed.
Lemma mag_next m e m' e' : bounded fprec femax m e = true -> bounded fprec femax m' e' = true ->
  mag m' e' = mag m e + 1 ->
  F2R (Float radix2 (Zpos m') e') = F2R (Float radix2 (Zpos m + 1) e) /\ (2 ^ 52 <= Zpos m + 1 \/ e = -1074).
Proof.
  intros H1 H2 E. apply bounded_inv in H1 as (He & Hm & Hc). apply bounded_inv in H2 as (He' & Hm' & Hc').
  unfold mag in E. split; [|destruct Hc; [left; lia|right; assumption]].
  assert (Step : e' = e /\ Zpos m' = Zpos m + 1 \/ e' = e + 1 /\ Zpos m = 2 ^ 53 - 1 /\ Zpos m' = 2 ^ 52).
  { destruct (Z.ltb_spec (Zpos m) (2 ^ 52)), (Z.ltb_spec (Zpos m') (2 ^ 52)); pows.
    - left. lia.
    - assert (e = -1074) by lia. assert (e' = -1074) by nia. left. lia.
    - nia.
    - destruct (Z.lt_trichotomy e e') as [L|[->|L]]; [right|left; lia|nia].
      assert (e' = e + 1) by nia. nia. }
  destruct Step as [(-> & ->)|(-> & -> & ->)]; [reflexivity|].
  unfold F2R. cbn [Fnum Fexp]. rewrite bpow_plus. change (bpow radix2 1) with 2%R.
  change (2 ^ 53 - 1 + 1) with (2 ^ 52 * 2). rewrite mult_IZR. lra.
Qed.
Lemma next_gap_pos f g k : good f -> good g -> 0 <= rank f -> rank g = rank f + 1 -> -1021 <= k ->
  (val g <= bpow radix2 k)%R -> (val g - val f <= bpow radix2 (k - 53))%R.
Proof.
  intros Gf Gg Rf E Hk B. destruct g as [sg|sg| |sg mg eg]; try (destruct Gg; discriminate); [cbn in E; lia|].
  pose proof (good_finite _ _ _ Gg) as Bg. pose proof (mag_range _ _ Bg) as Mg.
  destruct sg; [cbn in E; lia|]. cbn [rank] in E.
  destruct f as [sf|sf| |sf mf ef]; try (destruct Gf; discriminate).
  - cbn [rank] in E. rewrite val_zero, Rminus_0_r, val_finite. cbn [cond_Zopp].
    apply bounded_inv in Bg as (He & Hm & Hc). unfold mag in E.
    destruct (Z.ltb_spec (Zpos mg) (2 ^ 52)); [|pows; nia]. assert (eg = -1074) by (pows; lia). subst eg.
    rewrite E. unfold F2R. cbn [Fnum Fexp]. rewrite Z.add_0_l, Rmult_1_l. apply bpow_le. lia.
  - pose proof (good_finite _ _ _ Gf) as Bf. pose proof (mag_range _ _ Bf) as Mf.
    destruct sf; [cbn in Rf; lia|]. cbn [rank] in E. destruct (mag_next _ _ _ _ Bf Bg E) as (V & C).
    rewrite val_finite in B. cbn [cond_Zopp] in B. rewrite !val_finite. cbn [cond_Zopp]. rewrite V in *. clear V.
    unfold F2R in *. cbn [Fnum Fexp] in *. rewrite plus_IZR in *.
    replace ((IZR (Zpos mf) + 1) * bpow radix2 ef - IZR (Zpos mf) * bpow radix2 ef)%R with (bpow radix2 ef) by ring.
    apply bpow_le. destruct C as [C| ->]; [|lia].
    destruct (Z.le_gt_cases ef (k - 53)) as [L|L]; [exact L|exfalso].
    apply bounded_inv in Bf as (He & Hm & Hc).
    destruct (Z.eq_dec (Zpos mf + 1) (2 ^ 52)) as [E52|N52].
    + (* then e = -1074 *) assert (ef = -1074) by (pows; lia). lia.
    + assert (H : (bpow radix2 k < (IZR (Zpos mf) + 1) * bpow radix2 ef)%R); [|lra].
      rewrite <- plus_IZR. apply Rlt_le_trans with (IZR (2 ^ 52 + 1) * bpow radix2 ef)%R.
      * apply Rle_lt_trans with (bpow radix2 52 * bpow radix2 ef)%R; [rewrite <- bpow_plus; apply bpow_le; lia|].
        apply Rmult_lt_compat_r; [apply bpow_gt_0|]. rewrite <- IZR_Zpower by lia. apply IZR_lt.
        change (radix2 ^ 52) with (2 ^ 52). lia.
      * apply Rmult_le_compat_r; [apply bpow_ge_0|]. apply IZR_le. lia.
Qed.
Lemma next_gap f g k : good f -> good g -> rank g = rank f + 1 -> -1021 <= k ->
  (Rabs (val f) <= bpow radix2 k -> Rabs (val g) <= bpow radix2 k -> val g - val f <= bpow radix2 (k - 53))%R.
Proof.
  intros Gf Gg E Hk Bf Bg. apply Rabs_le_inv in Bf, Bg. destruct (Z.le_gt_cases 0 (rank f)) as [L|L].
  - apply next_gap_pos; try assumption. lra.
  - destruct (fneg_good f Gf) as (Gf' & Vf & Rf). destruct (fneg_good g Gg) as (Gg' & Vg & Rg).
    pose proof (next_gap_pos (fneg g) (fneg f) k Gg' Gf' ltac:(lia) ltac:(lia) Hk ltac:(lra)). lra.
Qed.
Lemma rank_good_onto k f g : good f -> good g -> rank f <= k <= rank g -> exists h, good h /\ rank h = k.
Proof.
  intros Gf Gg Hk. pose proof (rank_range f (good_number f Gf)). pose proof (rank_range g (good_number g Gg)).
  destruct (rank_onto k ltac:(lia)) as (h & (V & N) & E). exists h. split; [|exact E]. split; [exact V|].
  destruct h as [s|s| |s m e]; try reflexivity; try discriminate. exfalso. cbn [rank] in E.
  assert (F : forall f, good f -> - inf_mag < rank f < inf_mag).
  { intros x Gx. destruct x as [s'|s'| |s' m e]; try (destruct Gx; discriminate); [cbn; pows; lia|].
    pose proof (mag_range _ _ (good_finite _ _ _ Gx)). cbn [rank]. destruct s'; lia. }
  pose proof (F f Gf). pose proof (F g Gg). destruct s; lia.
Qed.
Lemma rank_gap n : forall f g k, good f -> good g -> rank g = rank f + Z.of_nat n -> -1021 <= k ->
  (Rabs (val f) <= bpow radix2 k -> Rabs (val g) <= bpow radix2 k -> val g - val f <= INR n * bpow radix2 (k - 53))%R.
Proof.
  induction n as [|n IH]; intros f g k Gf Gg E Hk Bf Bg.
  - cbn [INR]. assert (rank g <= rank f) as H by lia. apply rank_le_val in H; [|assumption..]. lra.
  - destruct (rank_good_onto (rank f + 1) f g Gf Gg ltac:(lia)) as (h & Gh & Rh).
    assert (H1 : (val f <= val h)%R) by (apply rank_le_val; [assumption..|lia]).
    assert (H2 : (val h <= val g)%R) by (apply rank_le_val; [assumption..|lia]).
    apply Rabs_le_inv in Bf as Bf'. apply Rabs_le_inv in Bg as Bg'.
    assert (Bh : (Rabs (val h) <= bpow radix2 k)%R) by (apply Rabs_le; lra).
    pose proof (next_gap f h k Gf Gh Rh Hk Bf Bh). pose proof (IH h g k Gh Gg ltac:(lia) Hk Bh Bg).
    rewrite S_INR. lra.
Qed.
Lemma almost_equal_gap f g k : good f -> good g -> -1021 <= k ->
  (Rabs (val f) <= bpow radix2 k)%R -> (Rabs (val g) <= bpow radix2 k)%R -> f_almost_equal f g = true ->
  (Rabs (val f - val g) <= bpow radix2 (k - 51))%R.
Proof.
  intros Gf Gg Hk Bf Bg A. rewrite almost_equal_rank in A by (apply good_number; assumption). apply Z.leb_le in A.
  assert (P : forall f g, good f -> good g -> (Rabs (val f) <= bpow radix2 k)%R -> (Rabs (val g) <= bpow radix2 k)%R ->
    0 <= rank g - rank f <= 4 -> (val g - val f <= bpow radix2 (k - 51))%R /\ (val f <= val g)%R).
  { clear -Hk. intros f g Gf Gg Bf Bg A. split; [|apply rank_le_val; [assumption..|lia]].
    pose proof (rank_gap (Z.to_nat (rank g - rank f)) f g k Gf Gg ltac:(lia) Hk Bf Bg) as H.
    refine (Rle_trans _ _ _ H _). replace (k - 51) with (2 + (k - 53)) by lia. rewrite bpow_plus.
    apply Rmult_le_compat_r; [apply bpow_ge_0|]. change (bpow radix2 2) with 4%R. rewrite INR_IZR_INZ.
    apply IZR_le. lia. }
  destruct (Z.le_gt_cases (rank f) (rank g)) as [L|L].
  - destruct (P f g Gf Gg Bf Bg ltac:(lia)). apply Rabs_le. pose proof (bpow_ge_0 radix2 (k - 51)). lra.
  - destruct (P g f Gg Gf Bg Bf ltac:(lia)). apply Rabs_le. pose proof (bpow_ge_0 radix2 (k - 51)). lra.
Qed.
Lemma almost_equal_same f g : good f -> good g -> val f = val g -> f_almost_equal f g = true.
Proof.
  intros Gf Gg E. rewrite almost_equal_rank by (apply good_number; assumption). apply Z.leb_le.
  assert (rank f <= rank g) by (apply rank_le_val; [assumption..|lra]).
  assert (rank g <= rank f) by (apply rank_le_val; [assumption..|lra]). lia.
Qed.

(** ** [round_towards_min] / [round_towards_max] *)
Lemma rnd_half z : Z.abs z < 2 ^ 53 -> rnd (IZR z / 2) = (IZR z / 2)%R.
Proof.
  intros H. apply round_generic; [typeclasses eauto|]. apply (generic_format_FLT radix2 (-1074) 53).
  exists (Float radix2 z (-1)); cbn [Fnum Fexp].
  - unfold F2R. cbn [Fnum Fexp]. change (bpow radix2 (-1)) with (/ 2)%R. lra.
  - exact H.
  - lia.
Qed.
Lemma val_half : val f_half = (/ 2)%R.
Proof.
  unfold f_half. rewrite val_finite. cbn [cond_Zopp].
  change (F2R (Float radix2 (Zpos (2 ^ 52)) (-53))) with (IZR (2 ^ 52) * bpow radix2 (-53))%R.
  change 2 with (radix_val radix2) at 1. rewrite IZR_Zpower, <- bpow_plus by lia. reflexivity.
Qed.
Lemma good_half : good f_half. Proof. split; reflexivity. Qed.
Lemma plus_half z : Z.abs z < 2 ^ 51 ->
  exists h, num_add (NI z) (NF f_half) = Ok (NF h) /\ good h /\ val h = (IZR z + / 2)%R.
Proof.
  intros H. destruct (float_of_Z_ok z ltac:(lia)) as (f & E & G & V). rewrite rnd_IZR_small in V by lia.
  destruct (fadd_spec f f_half G good_half) as (s & S). rewrite val_half, V in S.
  exists (fadd f f_half). split; [cbn [num_add num_arith num_to_float]; rewrite E; reflexivity|].
  assert (X : (IZR z + / 2 = IZR (2 * z + 1) / 2)%R) by (rewrite plus_IZR, mult_IZR; lra).
  rewrite X in *. rewrite <- (rnd_half (2 * z + 1)) by lia.
  destruct S as [(_ & G' & V' & _)|(N & _)]; [auto|]. exfalso. apply N. unfold in_range. rewrite rnd_half by lia.
  apply Rle_lt_trans with (bpow radix2 53); [|apply bpow_lt; lia]. unfold Rdiv. rewrite Rabs_mult, <- abs_IZR.
  rewrite <- IZR_Zpower by lia. rewrite (Rabs_pos_eq (/ 2)) by lra.
  apply Rle_trans with (IZR (Z.abs (2 * z + 1)) * 1)%R.
  - apply Rmult_le_compat_l; [apply IZR_le; lia|lra].
  - rewrite Rmult_1_r. apply IZR_le. change (radix2 ^ 53) with (2 ^ 53). lia.
Qed.
Lemma floor_small x k : 0 <= k -> (Rabs x < bpow radix2 k)%R -> - 2 ^ k <= Zfloor x < 2 ^ k.
Proof.
  intros Hk H. apply Rabs_lt_inv in H. rewrite <- IZR_Zpower in H by exact Hk. change (radix2 ^ k) with (2 ^ k) in H.
  split.
  - apply Zfloor_lub. rewrite opp_IZR. lra.
  - apply lt_IZR. apply Rle_lt_trans with x; [apply Zfloor_lb|lra].
Qed.
Lemma half_up_small x k : 0 <= k <= 51 -> (Rabs x < bpow radix2 k)%R -> check_digits (half_up_int x) = Ok (half_up_int x).
Proof.
  intros Hk H. unfold check_digits. destruct (half_up_int_spec x) as (E & _).
  assert (B : (Rabs x < bpow radix2 51)%R) by (refine (Rlt_le_trans _ _ _ H _); apply bpow_le; lia).
  rewrite <- IZR_Zpower in B by lia. apply Rabs_le_inv in E. apply Rabs_lt_inv in B.
  assert (C : Z.abs (half_up_int x) < 2 ^ 52).
  { apply lt_IZR. rewrite abs_IZR. apply Rabs_lt. change (radix2 ^ 51) with (2 ^ 51) in B.
    assert (IZR (2 ^ 52) = 2 * IZR (2 ^ 51))%R by (rewrite <- mult_IZR; reflexivity).
    assert (1 <= IZR (2 ^ 51))%R by (apply IZR_le; lia). lra. }
  destruct (Z.ltb_spec (Z.abs (half_up_int x)) (10 ^ 28)); [reflexivity|lia].
Qed.
Lemma round_towards_float f k : good f -> 0 <= k <= 50 -> (Rabs (val f) < bpow radix2 k)%R ->
  exists h, good h /\ val h = (IZR (Zfloor (val f)) + / 2)%R /\
    round_towards_min (NF f) = Ok (if f_almost_equal h f then Zfloor (val f) else half_up_int (val f)) /\
    round_towards_max (NF f) = Ok (if f_almost_equal h f then Zceil (val f) else half_up_int (val f)).
Proof.
  intros G Hk B. pose proof (floor_small _ _ (proj1 Hk) B) as F.
  assert (2 ^ k <= 2 ^ 50) by (apply Z.pow_le_mono_r; lia).
  destruct (plus_half (Zfloor (val f)) ltac:(lia)) as (h & E & Gh & Vh). exists h. split; [exact Gh|]. split; [exact Vh|].
  pose proof (num_floor_spec (NF f) G) as NF_. pose proof (num_ceil_spec (NF f) G) as NC. cbn [numval] in *.
  pose proof (half_up_float f G) as HU. rewrite (half_up_small _ k ltac:(lia) B) in HU.
  unfold round_towards_min, round_towards_max. rewrite NF_. cbn [rbind]. rewrite E. cbn [rbind].
  change (almost_equal (NF h) (NF f)) with (Ok (f_almost_equal h f)). cbn [rbind]. rewrite NC, HU.
  destruct (f_almost_equal h f); auto.
Qed.
Lemma half_of_floor x : (Rabs (IZR (Zfloor x) + / 2 - x) <= / 2)%R.
Proof. pose proof (Zfloor_lb x). pose proof (Zfloor_ub x). apply Rabs_le. lra. Qed.
Lemma half_abs_bound x k : 1 <= k -> (Rabs x < bpow radix2 k)%R -> (Rabs (IZR (Zfloor x) + / 2) <= bpow radix2 k)%R.
Proof.
  intros Hk B. pose proof (floor_small x k ltac:(lia) B) as (F1 & F2). rewrite <- IZR_Zpower by lia. change (radix2 ^ k) with (2 ^ k).
  apply IZR_le in F1. assert (F3 : Zfloor x <= 2 ^ k - 1) by lia. apply IZR_le in F3. rewrite minus_IZR in F3. rewrite opp_IZR in F1.
  apply Rabs_le. lra.
Qed.
Lemma round_towards_error f k : good f -> 1 <= k <= 50 -> (Rabs (val f) < bpow radix2 k)%R ->
  exists mn mx, round_towards_min (NF f) = Ok mn /\ round_towards_max (NF f) = Ok mx /\
    (Rabs (IZR mn - val f) <= / 2 + bpow radix2 (k - 51))%R /\ (Rabs (IZR mx - val f) <= / 2 + bpow radix2 (k - 51))%R /\
    (mn = mx \/ (mx = mn + 1 /\ (IZR mn <= val f <= IZR mx)%R)) /\
    (mn = mx -> (Rabs (IZR mn - val f) <= / 2)%R) /\
    (mn <> mx -> (Rabs (val f - (IZR mn + / 2)) <= bpow radix2 (k - 51))%R).
Proof.
  intros G Hk B. destruct (round_towards_float f k G ltac:(lia) B) as (h & Gh & Vh & E1 & E2).
  pose proof (bpow_ge_0 radix2 (k - 51)) as P.
  do 2 eexists. split; [exact E1|]. split; [exact E2|].
  destruct (f_almost_equal h f) eqn:A.
  - assert (Gap : (Rabs (val h - val f) <= bpow radix2 (k - 51))%R).
    { apply almost_equal_gap; try assumption; [lia| |lra]. rewrite Vh. apply half_abs_bound; [lia|exact B]. }
    rewrite Vh in Gap. pose proof (Zfloor_lb (val f)) as L. pose proof (Zfloor_ub (val f)) as U.
    apply Rabs_le_inv in Gap.
    destruct (Req_dec (IZR (Zfloor (val f))) (val f)) as [I|I].
    + assert (C : Zceil (val f) = Zfloor (val f)) by (rewrite <- I at 1; apply Zceil_IZR). rewrite C, I.
      rewrite Rminus_diag_eq, Rabs_R0 by reflexivity. repeat split; try lra; auto. congruence.
    + rewrite Zceil_floor_neq by exact I. rewrite plus_IZR. split; [apply Rabs_le; lra|]. split; [apply Rabs_le; lra|].
      split; [right; split; [reflexivity|lra]|]. split; [lia|]. intros _. apply Rabs_le. lra.
  - destruct (half_up_int_spec (val f)) as (H & _). repeat split; try lra; auto. congruence.
Qed.
Lemma round_towards_int z : Z.abs z < 10 ^ 28 -> round_towards_min (NI z) = Ok z /\ round_towards_max (NI z) = Ok z.
Proof.
  intros H. assert (L : 10 ^ 28 <= 2 ^ 1023) by (vm_compute; discriminate).
  destruct (float_of_Z_ok z ltac:(lia)) as (f & E & G & V).
  unfold round_towards_min, round_towards_max. cbn [num_floor num_ceil rbind num_add num_arith num_to_float]. rewrite E.
  cbn [rbind]. unfold almost_equal. cbn [num_to_float rbind]. rewrite E. cbn [rbind].
  assert (C : round_half_up (NI z) = Ok z).
  { cbn. unfold check_digits. destruct (Z.ltb_spec (Z.abs z) (10 ^ 28)); [reflexivity|lia]. }
  rewrite C. destruct (f_almost_equal _ _); auto.
Qed.
