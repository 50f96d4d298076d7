(** * The float operations of the model against real arithmetic (Flocq)

    [val f] is the real number a finite float stands for, [rnd] rounding of reals
    to the nearest binary64 number (ties to even, unbounded exponent range above). *)
From Coq Require Import ZArith List Bool Lia Reals Lra Psatz.
From Coq Require Import Floats.SpecFloat.
From Flocq Require Import Core.Core IEEE754.BinarySingleNaN.
From Verif Require Import Py Utils Geometry.
Open Scope Z_scope.

Definition val (f : float) : R := SF2R radix2 f.
Notation fexp64 := (SpecFloat.fexp 53 1024).
Definition rnd (x : R) : R := round radix2 fexp64 ZnearestE x.
Definition good (f : float) : Prop := valid_binary fprec femax f = true /\ is_finite_SF f = true.
Definition in_range (x : R) : Prop := (Rabs (rnd x) < bpow radix2 1024)%R.

#[export] Instance prec64 : Prec_gt_0 53. Proof. reflexivity. Qed.
#[export] Instance emax64 : Prec_lt_emax 53 1024. Proof. reflexivity. Qed.
#[export] Instance fexp64_valid : Valid_exp fexp64.
Proof. apply (fexp_correct 53 1024). reflexivity. Qed.
#[export] Instance fexp64_mono : Monotone_exp fexp64.
Proof. apply fexp_monotone. Qed.

Lemma rne_equiv s m l : round_nearest_even m l = choice_mode mode_NE s m l.
Proof.
  destruct l as [|[]]; try reflexivity. cbn. unfold Round.cond_incr. destruct (Z.even m); reflexivity.
Qed.
Lemma aux_equiv sx mx ex lx :
  SpecFloat.binary_round_aux 53 1024 sx mx ex lx
  = BinarySingleNaN.binary_round_aux 53 1024 mode_NE sx mx ex lx.
Proof.
  unfold SpecFloat.binary_round_aux, BinarySingleNaN.binary_round_aux.
  destruct (shr_fexp _ _ _ _ _) as [mrs' e']. rewrite (rne_equiv sx). reflexivity.
Qed.
Lemma round_equiv sx mx ex : SpecFloat.binary_round 53 1024 sx mx ex
  = BinarySingleNaN.binary_round 53 1024 mode_NE sx mx ex.
Proof.
  unfold SpecFloat.binary_round, BinarySingleNaN.binary_round, shl_align_fexp.
  destruct (shl_align _ _ _). apply aux_equiv.
Qed.
Lemma SF2R_exact z : SF2R radix2 (exact z) = IZR z.
Proof. destruct z; cbn; unfold F2R; cbn; rewrite ?Rmult_1_r; reflexivity. Qed.

(** ** The outcome of a rounded operation *)
Definition rounded (x : R) (sgn0 : bool) (f : float) : Prop :=
  (in_range x /\ good f /\ val f = rnd x /\ (x <> 0%R -> sign_SF f = Rlt_bool x 0) /\
     (x = 0%R -> f = S754_zero sgn0)) \/
  (~ in_range x /\ f = S754_infinity (Rlt_bool x 0)).
Lemma rounded_not_nan x s f : rounded x s f -> f_is_nan f = false.
Proof.
  intros [(_ & (_ & H) & _)|(_ & ->)]; [|reflexivity]. destruct f; try reflexivity; discriminate.
Qed.
Lemma rnd_0 : rnd 0 = 0%R.
Proof. apply round_0. typeclasses eauto. Qed.
Lemma in_range_0 : in_range 0.
Proof. unfold in_range. rewrite rnd_0, Rabs_R0. apply bpow_gt_0. Qed.
Lemma rounded_0 s : rounded 0 s (S754_zero s).
Proof.
  left. split; [apply in_range_0|]. repeat split; [|congruence]. cbn. symmetry. apply rnd_0.
Qed.
Lemma rounded_aux x z s : (x <> 0)%R ->
  valid_binary 53 1024 z = true /\
  (if Rlt_bool (Rabs (round radix2 fexp64 (round_mode mode_NE) x)) (bpow radix2 1024)
   then SF2R radix2 z = round radix2 fexp64 (round_mode mode_NE) x /\ is_finite_SF z = true /\
        sign_SF z = Rlt_bool x 0
   else z = binary_overflow 53 1024 mode_NE (Rlt_bool x 0)) ->
  rounded x s z.
Proof.
  intros N (V & H). unfold rounded, in_range. fold (rnd x) in *.
  change (round radix2 fexp64 (round_mode mode_NE) x) with (rnd x) in H.
  destruct (Rlt_bool_spec (Rabs (rnd x)) (bpow radix2 1024)) as [L|L].
  - left. destruct H as (H1 & H2 & H3). split; [exact L|]. split; [split; assumption|].
    split; [exact H1|]. split; [auto|contradiction].
  - right. split; [lra|]. rewrite H. reflexivity.
Qed.
Lemma F2R_cond_neg s m e : Rlt_bool (F2R (Float radix2 (cond_Zopp s (Zpos m)) e)) 0 = s.
Proof.
  destruct s; cbn.
  - apply Rlt_bool_true. apply F2R_lt_0. reflexivity.
  - apply Rlt_bool_false. apply F2R_ge_0. cbn. lia.
Qed.
Lemma F2R_cond_nz s m e : (F2R (Float radix2 (cond_Zopp s (Zpos m)) e) <> 0)%R.
Proof.
  intros H. apply eq_0_F2R in H. destruct s; discriminate.
Qed.
Lemma mult_sign x y : (x <> 0 -> y <> 0 -> Rlt_bool (x * y) 0 = xorb (Rlt_bool x 0) (Rlt_bool y 0))%R.
Proof.
  intros Hx Hy. destruct (Rlt_bool_spec x 0), (Rlt_bool_spec y 0); cbn;
    first [apply Rlt_bool_true; nra|apply Rlt_bool_false; nra].
Qed.

(** ** Operations *)
Lemma round_spec s m e : rounded (F2R (Float radix2 (cond_Zopp s (Zpos m)) e)) false (SpecFloat.binary_round 53 1024 s m e).
Proof.
  rewrite round_equiv. apply rounded_aux; [apply F2R_cond_nz|].
  pose proof (binary_round_correct 53 1024 _ _ mode_NE s m e) as H. cbv zeta in H. rewrite F2R_cond_neg. exact H.
Qed.
Lemma normalize_spec z e s : rounded (F2R (Float radix2 z e)) s (SpecFloat.binary_normalize fprec femax z e s).
Proof.
  destruct z as [|m|m]; cbn [SpecFloat.binary_normalize].
  - rewrite F2R_0. apply rounded_0.
  - destruct (round_spec false m e) as [H|H]; [left|right; exact H].
    destruct H as (H1 & H2 & H3 & H4 & H5). repeat (split; [assumption|]).
    intros Z. exfalso. apply (F2R_cond_nz false m e). exact Z.
  - destruct (round_spec true m e) as [H|H]; [left|right; exact H].
    destruct H as (H1 & H2 & H3 & H4 & H5). repeat (split; [assumption|]).
    intros Z. exfalso. apply (F2R_cond_nz true m e). exact Z.
Qed.
Lemma F2R_Z z : F2R (Float radix2 z 0) = IZR z.
Proof. unfold F2R. cbn. apply Rmult_1_r. Qed.
Definition returns (r : res float) (x : R) (s : bool) : Prop :=
  (in_range x /\ exists f, r = Ok f /\ good f /\ val f = rnd x /\
     (x <> 0%R -> sign_SF f = Rlt_bool x 0) /\ (x = 0%R -> f = S754_zero s)) \/
  (~ in_range x /\ r = Raise OverflowError).
Lemma float_of_Z_spec z : returns (float_of_Z z) (IZR z) false.
Proof.
  pose proof (normalize_spec z 0 false) as H. rewrite F2R_Z in H. unfold float_of_Z.
  destruct H as [(H1 & H2 & H3)|(H1 & ->)]; [left|right; auto].
  split; [exact H1|]. exists (SpecFloat.binary_normalize fprec femax z 0 false).
  split; [|auto]. destruct (SpecFloat.binary_normalize _ _ _ _ _); try reflexivity.
  destruct H2 as (_ & H2). discriminate.
Qed.
Lemma exact_cond z : z <> 0 -> exists s m, z = cond_Zopp s (Zpos m) /\ exact z = S754_finite s m 0 /\ s = (z <? 0).
Proof.
  intros N. destruct z as [|m|m]; [contradiction|exists false, m|exists true, m]; repeat split.
Qed.
Lemma fdiv_spec a b : b <> 0 -> rounded (IZR a / IZR b) (b <? 0) (fdiv (exact a) (exact b)).
Proof.
  intros Nb. destruct (exact_cond b Nb) as (sb & mb & Eb & Xb & Sb). rewrite Xb, <- Sb.
  destruct (Z.eq_dec a 0) as [->|Na].
  - unfold Rdiv. rewrite Rmult_0_l. change (fdiv (exact 0) (S754_finite sb mb 0)) with (S754_zero (xorb false sb)).
    rewrite xorb_false_l. apply rounded_0.
  - destruct (exact_cond a Na) as (sa & ma & Ea & Xa & _). rewrite Xa.
    unfold fdiv, SFdiv.
    pose proof (Bdiv_correct_aux 53 1024 _ _ mode_NE sa ma 0 sb mb 0) as H. cbv zeta in H.
    destruct (SFdiv_core_binary _ _ _ _ _ _) as [[mz ez] lz].
    replace (IZR a / IZR b)%R with
      (F2R (Float radix2 (cond_Zopp sa (Zpos ma)) 0) / F2R (Float radix2 (cond_Zopp sb (Zpos mb)) 0))%R
      by (rewrite !F2R_Z, <- Ea, <- Eb; reflexivity).
    rewrite aux_equiv. apply rounded_aux.
    + unfold Rdiv. apply Rmult_integral_contrapositive. split; [apply F2R_cond_nz|apply Rinv_neq_0_compat, F2R_cond_nz].
    + replace (Rlt_bool (F2R (Float radix2 (cond_Zopp sa (Zpos ma)) 0) / F2R (Float radix2 (cond_Zopp sb (Zpos mb)) 0)) 0)
        with (xorb sa sb); [exact H|].
      unfold Rdiv. rewrite mult_sign; [|apply F2R_cond_nz|apply Rinv_neq_0_compat, F2R_cond_nz].
      rewrite F2R_cond_neg. f_equal. rewrite F2R_Z.
      assert (X : Rlt_bool (IZR (cond_Zopp sb (Z.pos mb))) 0 = sb) by (rewrite <- F2R_Z; apply F2R_cond_neg).
      rewrite <- X at 1. destruct (Rlt_bool_spec (IZR (cond_Zopp sb (Z.pos mb))) 0) as [L|L]; symmetry.
      * apply Rlt_bool_true. apply Rinv_lt_0_compat. exact L.
      * apply Rlt_bool_false. destruct L as [L|L]; [|exfalso; apply (F2R_cond_nz sb mb 0); rewrite F2R_Z; congruence].
        left. apply Rinv_0_lt_compat. exact L.
Qed.
Lemma truediv_spec a b : b <> 0 -> returns (int_truediv a b) (IZR a / IZR b) (b <? 0).
Proof.
  intros Nb. unfold int_truediv. destruct (Z.eqb_spec b 0); [contradiction|].
  destruct (fdiv_spec a b Nb) as [(H1 & H2 & H3)|(H1 & ->)]; [left|right; auto].
  split; [exact H1|]. exists (fdiv (exact a) (exact b)). split; [|auto].
  destruct (fdiv _ _); try reflexivity. destruct H2 as (_ & H2). discriminate.
Qed.
Lemma good_finite s m e : good (S754_finite s m e) -> SpecFloat.bounded 53 1024 m e = true.
Proof. intros (H & _). exact H. Qed.
Lemma val_zero s : val (S754_zero s) = 0%R. Proof. reflexivity. Qed.
Lemma val_finite s m e : val (S754_finite s m e) = F2R (Float radix2 (cond_Zopp s (Zpos m)) e).
Proof. reflexivity. Qed.
Lemma val_finite_nz s m e : (val (S754_finite s m e) <> 0)%R.
Proof. rewrite val_finite. apply F2R_cond_nz. Qed.
Lemma sign_val f : good f -> (val f <> 0)%R -> sign_SF f = Rlt_bool (val f) 0.
Proof.
  intros (_ & G) N. destruct f as [s|s| |s m e]; try discriminate; [elim N; reflexivity|].
  rewrite val_finite, F2R_cond_neg. reflexivity.
Qed.
Lemma fmul_spec f g : good f -> good g -> rounded (val f * val g) (xorb (sign_SF f) (sign_SF g)) (fmul f g).
Proof.
  intros Gf Gg. destruct f as [sf|sf| |sf mf ef]; try (destruct Gf; discriminate);
    destruct g as [sg|sg| |sg mg eg]; try (destruct Gg; discriminate);
    try (rewrite ?val_zero, ?Rmult_0_l, ?Rmult_0_r; match goal with |- rounded _ ?s _ => exact (rounded_0 s) end).
  unfold fmul, SFmul. rewrite aux_equiv, !val_finite.
  apply rounded_aux.
  - apply Rmult_integral_contrapositive. split; apply F2R_cond_nz.
  - rewrite mult_sign by apply F2R_cond_nz. rewrite !F2R_cond_neg.
    exact (Bmult_correct_aux 53 1024 _ _ mode_NE sf mf ef (good_finite _ _ _ Gf) sg mg eg (good_finite _ _ _ Gg)).
Qed.
Lemma shl_align_val s m e ez : (ez <= e)%Z ->
  F2R (Float radix2 (cond_Zopp s (Zpos (fst (shl_align m e ez)))) ez) = F2R (Float radix2 (cond_Zopp s (Zpos m)) e).
Proof.
  intros L. pose proof (shl_align_correct' m e ez L) as H. destruct (shl_align m e ez) as [m' e'].
  destruct H as (H & ->). cbn [fst]. destruct s; cbn [cond_Zopp]; [|exact H].
  rewrite !F2R_Zopp. f_equal. exact H.
Qed.
Lemma good_format f : good f -> generic_format radix2 fexp64 (val f).
Proof.
  intros (V & G). destruct f as [s|s| |s m e]; try discriminate; [apply generic_format_0|].
  apply generic_format_canonical. apply (canonical_bounded 53 1024 s m e). exact V.
Qed.
Lemma good_val_round f : good f -> rnd (val f) = val f.
Proof. intros G. apply round_generic; [typeclasses eauto|]. apply good_format. exact G. Qed.
Lemma good_in_range f : good f -> in_range (val f).
Proof.
  intros G. unfold in_range. rewrite good_val_round by exact G. destruct G as (V & G).
  destruct f as [s|s| |s m e]; try discriminate; [rewrite val_zero, Rabs_R0; apply bpow_gt_0|].
  rewrite val_finite, <- F2R_Zabs, abs_cond_Zopp. apply (bounded_lt_emax 53 1024). exact V.
Qed.
Lemma rounded_self f s : good f -> (val f <> 0)%R -> rounded (val f) s f.
Proof.
  intros G N. left. split; [apply good_in_range, G|]. split; [exact G|]. split; [symmetry; apply good_val_round, G|].
  split; [intros _; apply sign_val; assumption|contradiction].
Qed.
Lemma fadd_spec f g : good f -> good g -> exists s, rounded (val f + val g) s (fadd f g).
Proof.
  intros Gf Gg. destruct f as [sf|sf| |sf mf ef]; try (destruct Gf; discriminate);
    destruct g as [sg|sg| |sg mg eg]; try (destruct Gg; discriminate).
  - exists (if Bool.eqb sf sg then sf else false). rewrite !val_zero, Rplus_0_l.
    replace (fadd (S754_zero sf) (S754_zero sg)) with (S754_zero (if Bool.eqb sf sg then sf else false))
      by (destruct sf, sg; reflexivity). apply rounded_0.
  - exists false. rewrite val_zero, Rplus_0_l. apply rounded_self; [exact Gg|apply val_finite_nz].
  - exists false. rewrite val_zero, Rplus_0_r. apply rounded_self; [exact Gf|apply val_finite_nz].
  - exists false. unfold fadd, SFadd. rewrite !val_finite.
    rewrite <- (shl_align_val sf mf ef (Z.min ef eg)), <- (shl_align_val sg mg eg (Z.min ef eg)) by lia.
    rewrite <- Operations.F2R_plus, Operations.Fplus_same_exp. apply normalize_spec.
Qed.
(** equal reals, equal floats *)
Lemma good_inj f g : good f -> good g -> val f = val g -> (val f = 0%R -> sign_SF f = sign_SF g) -> f = g.
Proof.
  intros Gf Gg E S.
  destruct f as [sf|sf| |sf mf ef]; try (destruct Gf; discriminate);
    destruct g as [sg|sg| |sg mg eg]; try (destruct Gg; discriminate).
  - f_equal. apply S. reflexivity.
  - exfalso. apply (val_finite_nz sg mg eg). rewrite <- E. reflexivity.
  - exfalso. apply (val_finite_nz sf mf ef). rewrite E. reflexivity.
  - clear S.
    pose proof (B2R_inj 53 1024 (B754_finite sf mf ef (good_finite _ _ _ Gf)) (B754_finite sg mg eg (good_finite _ _ _ Gg))
      eq_refl eq_refl E) as H. injection H as -> -> ->. reflexivity.
Qed.
Lemma returns_inj r r' x s : returns r x s -> returns r' x s -> r = r'.
Proof.
  intros [(R & f & -> & G & V & S & Z)|(R & ->)] [(R' & f' & -> & G' & V' & S' & Z')|(R' & ->)];
    try contradiction; [|reflexivity].
  f_equal. destruct (Req_dec x 0) as [E|N].
  - rewrite Z, Z' by exact E. reflexivity.
  - apply good_inj; [assumption..|congruence|]. intros _. rewrite S, S' by exact N. reflexivity.
Qed.
(** ** the quotient of ints depends on the ratio only *)
Lemma truediv_ratio a b c d : b <> 0 -> d <> 0 -> (b <? 0) = (d <? 0) -> a * d = c * b ->
  int_truediv a b = int_truediv c d.
Proof.
  intros Nb Nd S E. apply (returns_inj _ _ (IZR a / IZR b) (b <? 0)); [apply truediv_spec; exact Nb|].
  replace (IZR a / IZR b)%R with (IZR c / IZR d)%R.
  - rewrite S. apply truediv_spec. exact Nd.
  - apply IZR_neq in Nb, Nd. apply (f_equal IZR) in E. rewrite !mult_IZR in E.
    field_simplify_eq; [lra|split; assumption].
Qed.

(** ** Comparisons *)
Lemma SFcompare_spec f g : good f -> good g -> SFcompare f g = Some (Rcompare (val f) (val g)).
Proof.
  intros Gf Gg.
  assert (H : forall x y : binary_float 53 1024, is_finite x = true -> is_finite y = true ->
              SFcompare (B2SF x) (B2SF y) = Some (Rcompare (B2R x) (B2R y))).
  { intros x y Fx Fy. exact (Bcompare_correct 53 1024 x y Fx Fy). }
  specialize (H (SF2B f (proj1 Gf)) (SF2B g (proj1 Gg))).
  rewrite !B2SF_SF2B, !B2R_SF2B, !is_finite_SF2B in H. apply H; [apply Gf|apply Gg].
Qed.
Lemma F2R_scale m e : e < 0 -> (F2R (Float radix2 m e) * IZR (2 ^ (- e)) = IZR m)%R.
Proof.
  intros L. unfold F2R. cbn [Fnum Fexp]. change 2 with (radix_val radix2).
  rewrite IZR_Zpower by lia.
  rewrite Rmult_assoc, <- bpow_plus. replace (e + - e) with 0 by lia. cbn. lra.
Qed.
Lemma sgn_mant_cond s m : sgn_mant s m = cond_Zopp s (Zpos m).
Proof. destruct s; reflexivity. Qed.
Lemma F2R_pos_exp m e : 0 <= e -> F2R (Float radix2 m e) = IZR (m * 2 ^ e).
Proof.
  intros L. unfold F2R. cbn [Fnum Fexp]. rewrite mult_IZR. f_equal. symmetry.
  change 2 with (radix_val radix2). apply IZR_Zpower. exact L.
Qed.
Lemma pow2_IZR_pos e : 0 <= e -> (0 < IZR (2 ^ e))%R.
Proof. intros L. apply IZR_lt. apply Z.pow_pos_nonneg; lia. Qed.
Lemma compare_fin_Z_spec s m e z : compare_fin_Z s m e z = Rcompare (val (S754_finite s m e)) (IZR z).
Proof.
  unfold compare_fin_Z. rewrite val_finite, sgn_mant_cond. destruct (Z.leb_spec 0 e) as [L|L].
  - rewrite F2R_pos_exp, Rcompare_IZR by exact L. reflexivity.
  - rewrite <- (Rcompare_mult_r (IZR (2 ^ (- e))) _ (IZR z)) by (apply pow2_IZR_pos; lia).
    rewrite F2R_scale, <- mult_IZR, Rcompare_IZR by exact L. reflexivity.
Qed.
Definition numval (x : num) : R := match x with NI z => IZR z | NF f => val f end.
Definition num_good (x : num) : Prop := match x with NI _ => True | NF f => good f end.
Lemma num_compare_spec x y : num_good x -> num_good y -> num_compare x y = Some (Rcompare (numval x) (numval y)).
Proof.
  destruct x as [a|f], y as [b|g]; cbn [num_good numval num_compare]; intros Gx Gy.
  - rewrite Rcompare_IZR. reflexivity.
  - destruct g as [s|s| |s m e]; try (destruct Gy; discriminate).
    + rewrite val_zero, Rcompare_IZR. reflexivity.
    + rewrite compare_fin_Z_spec, <- Rcompare_sym. reflexivity.
  - destruct f as [s|s| |s m e]; try (destruct Gx; discriminate).
    + rewrite val_zero, Rcompare_IZR. reflexivity.
    + rewrite compare_fin_Z_spec. reflexivity.
  - apply SFcompare_spec; assumption.
Qed.
Lemma num_ltb_spec x y : num_good x -> num_good y -> num_ltb x y = Rlt_bool (numval x) (numval y).
Proof.
  intros Gx Gy. unfold num_ltb. rewrite num_compare_spec by assumption. unfold Rlt_bool.
  destruct (Rcompare _ _); reflexivity.
Qed.
Lemma num_leb_spec x y : num_good x -> num_good y -> num_leb x y = Rle_bool (numval x) (numval y).
Proof.
  intros Gx Gy. unfold num_leb. rewrite num_compare_spec by assumption. unfold Rle_bool.
  destruct (Rcompare _ _); reflexivity.
Qed.
Lemma num_eqb_spec x y : num_good x -> num_good y -> num_eqb x y = Req_bool (numval x) (numval y).
Proof.
  intros Gx Gy. unfold num_eqb. rewrite num_compare_spec by assumption. unfold Req_bool.
  destruct (Rcompare _ _); reflexivity.
Qed.

(** ** floor and ceil *)
Lemma Zfloor_div a b : 0 < b -> Zfloor (IZR a / IZR b) = a / b.
Proof. intros H. apply Zfloor_div. lia. Qed.
Lemma floor_spec f : good f -> float_floor f = Ok (Zfloor (val f)).
Proof.
  intros G. destruct f as [s|s| |s m e]; try (destruct G; discriminate).
  - cbn. rewrite Zfloor_IZR. reflexivity.
  - cbn [float_floor]. rewrite val_finite, sgn_mant_cond. f_equal. destruct (Z.leb_spec 0 e) as [L|L].
    + rewrite F2R_pos_exp, Zfloor_IZR by exact L. reflexivity.
    + rewrite <- Zfloor_div by (apply Z.pow_pos_nonneg; lia). f_equal.
      pose proof (pow2_IZR_pos (- e) ltac:(lia)). rewrite <- (F2R_scale (cond_Zopp s (Zpos m)) e L). field. lra.
Qed.
Lemma num_floor_spec x : num_good x -> num_floor x = Ok (Zfloor (numval x)).
Proof. destruct x as [z|f]; cbn; [rewrite Zfloor_IZR; reflexivity|apply floor_spec]. Qed.
Lemma num_ceil_spec x : num_good x -> num_ceil x = Ok (Zceil (numval x)).
Proof.
  destruct x as [z|f]; cbn [num_good num_ceil numval]; [rewrite Zceil_IZR; reflexivity|]. intros G.
  destruct f as [s|s| |s m e]; try (destruct G; discriminate).
  - cbn. rewrite Zceil_IZR. reflexivity.
  - rewrite val_finite, sgn_mant_cond. f_equal. unfold Zceil. destruct (Z.leb_spec 0 e) as [L|L].
    + rewrite F2R_pos_exp by exact L. rewrite <- opp_IZR, Zfloor_IZR. lia.
    + rewrite <- Zfloor_div by (apply Z.pow_pos_nonneg; lia). do 2 f_equal.
      pose proof (pow2_IZR_pos (- e) ltac:(lia)). rewrite opp_IZR, <- (F2R_scale (cond_Zopp s (Zpos m)) e L). field. lra.
Qed.

(** ** ranges *)
Lemma rnd_le x y : (x <= y -> rnd x <= rnd y)%R.
Proof. apply round_le; typeclasses eauto. Qed.
Lemma rnd_IZR_small z : Z.abs z <= 2 ^ 53 -> rnd (IZR z) = IZR z.
Proof.
  intros H. apply round_generic; [typeclasses eauto|].
  apply (generic_format_FLT radix2 (-1074) 53).
  destruct (Z.eq_dec (Z.abs z) (2 ^ 53)) as [E|N].
  - exists (Float radix2 (Z.sgn z * 2 ^ 52) 1); cbn [Fnum Fexp].
    + rewrite F2R_pos_exp by lia. f_equal. lia.
    + change (Zpower radix2 53) with (2 ^ 53). lia.
    + lia.
  - exists (Float radix2 z 0); cbn [Fnum Fexp]; [rewrite F2R_Z; reflexivity| |lia].
    change (Zpower radix2 53) with (2 ^ 53). lia.
Qed.
Lemma in_range_small x : (Rabs x <= bpow radix2 1023)%R -> in_range x.
Proof.
  intros H. unfold in_range. apply Rabs_le_inv in H.
  assert (B : rnd (bpow radix2 1023) = bpow radix2 1023).
  { apply round_generic; [typeclasses eauto|]. apply generic_format_bpow. vm_compute. discriminate. }
  assert (B' : rnd (- bpow radix2 1023) = (- bpow radix2 1023)%R).
  { apply round_generic; [typeclasses eauto|]. apply generic_format_opp, generic_format_bpow. vm_compute. discriminate. }
  destruct H as (H1 & H2). apply rnd_le in H1, H2. rewrite B in H2. rewrite B' in H1.
  apply Rle_lt_trans with (bpow radix2 1023); [apply Rabs_le; split; assumption|]. apply bpow_lt. reflexivity.
Qed.
Lemma float_of_Z_ok z : Z.abs z <= 2 ^ 1023 -> exists f, float_of_Z z = Ok f /\ good f /\ val f = rnd (IZR z).
Proof.
  intros H. destruct (float_of_Z_spec z) as [(_ & f & E & G & V & _)|(N & _)]; [eauto|].
  exfalso. apply N, in_range_small. rewrite <- abs_IZR, <- IZR_Zpower by lia. apply IZR_le. exact H.
Qed.
Lemma truediv_ok a b : b <> 0 -> Z.abs a <= 2 ^ 1023 ->
  exists f, int_truediv a b = Ok f /\ good f /\ val f = rnd (IZR a / IZR b).
Proof.
  intros Nb H. destruct (truediv_spec a b Nb) as [(_ & f & E & G & V & _)|(N & _)]; [eauto|].
  exfalso. apply N, in_range_small. unfold Rdiv. rewrite Rabs_mult, <- abs_IZR.
  apply Rle_trans with (IZR (Z.abs a) * 1)%R.
  - apply Rmult_le_compat_l; [apply IZR_le; lia|]. rewrite Rabs_inv, <- abs_IZR.
    rewrite <- Rinv_1. apply Rinv_le; [lra|]. apply IZR_le. lia.
  - rewrite Rmult_1_r, <- IZR_Zpower by lia. apply IZR_le. exact H.
Qed.
(** what can come out of a division of ints: a finite number or OverflowError *)
Lemma truediv_cases a b : b <> 0 ->
  (exists f, int_truediv a b = Ok f /\ good f) \/ int_truediv a b = Raise OverflowError.
Proof.
  intros Nb. destruct (truediv_spec a b Nb) as [(_ & f & E & G & _)|(_ & E)]; [left; eauto|auto].
Qed.
