(** * Approximate float comparison (wagyu/utils.py:15-46) *)
From Coq Require Import ZArith List Bool Lia.
From Coq Require Import Floats.SpecFloat.
From Verif Require Import Py Monad Utils Spec.
Import ListNotations.
Local Open Scope Z_scope.

(** ** Positive floats in canonical form *)
Lemma digits2_bound m : 2 ^ (Zpos (digits2_pos m) - 1) <= Zpos m < 2 ^ Zpos (digits2_pos m).
Proof.
  induction m as [m IH|m IH|]; cbn [digits2_pos]; try (cbn; lia).
  - rewrite Pos2Z.inj_succ. replace (Z.succ (Zpos (digits2_pos m)) - 1) with (Zpos (digits2_pos m)) by lia.
    rewrite Z.pow_succ_r by lia.
    assert (2 ^ Zpos (digits2_pos m) = 2 * 2 ^ (Zpos (digits2_pos m) - 1))
      by (rewrite <- Z.pow_succ_r by lia; f_equal; lia). lia.
  - rewrite Pos2Z.inj_succ. replace (Z.succ (Zpos (digits2_pos m)) - 1) with (Zpos (digits2_pos m)) by lia.
    rewrite Z.pow_succ_r by lia.
    assert (2 ^ Zpos (digits2_pos m) = 2 * 2 ^ (Zpos (digits2_pos m) - 1))
      by (rewrite <- Z.pow_succ_r by lia; f_equal; lia). lia.
Qed.

Lemma bounded_inv m e : bounded fprec femax m e = true ->
  -1074 <= e <= 971 /\ Zpos m < 2 ^ 53 /\ (2 ^ 52 <= Zpos m \/ e = -1074).
Proof.
  unfold bounded, canonical_mantissa, fexp, emin, fprec, femax. intros H.
  apply andb_true_iff in H as [H1 H2]. apply Zeq_bool_eq in H1. apply Zle_bool_imp_le in H2.
  pose proof (digits2_bound m) as [Hl Hu]. set (d := Zpos (digits2_pos m)) in *.
  assert (Hd : d <= 53) by lia.
  repeat split; try lia.
  - eapply Z.lt_le_trans; [exact Hu|]. apply Z.pow_le_mono_r; lia.
  - destruct (Z.eq_dec d 53) as [E|N]; [left|right; lia]. rewrite E in Hl. exact Hl.
Qed.
Lemma bounded_intro m e :
  -1074 <= e <= 971 -> Zpos m < 2 ^ 53 -> 2 ^ 52 <= Zpos m \/ e = -1074 ->
  bounded fprec femax m e = true.
Proof.
  intros He Hm Hc. unfold bounded, canonical_mantissa, fexp, emin, fprec, femax.
  pose proof (digits2_bound m) as [Hl Hu]. set (d := Zpos (digits2_pos m)) in *.
  assert (Hd0 : 1 <= d) by (unfold d; lia).
  assert (Hd : d <= 53).
  { destruct (Z.le_gt_cases d 53); [assumption|].
    assert (2 ^ 53 <= 2 ^ (d - 1)) by (apply Z.pow_le_mono_r; lia). lia. }
  apply andb_true_iff. split; [|apply Zle_is_le_bool; lia].
  apply Zeq_is_eq_bool. destruct Hc as [Hc| ->]; [|lia].
  assert (d = 53); [|lia].
  destruct (Z.eq_dec d 53); [assumption|].
  assert (2 ^ d <= 2 ^ 52) by (apply Z.pow_le_mono_r; lia). lia.
Qed.

(** position of a positive finite float among the non-negative floats *)
Definition mag (m : positive) (e : Z) : Z :=
  if Zpos m <? 2 ^ 52 then Zpos m else (e + 1075) * 2 ^ 52 + (Zpos m - 2 ^ 52).
Definition inf_mag : Z := 2047 * 2 ^ 52.

(** signed position in the total order of the numbers; both zeros have rank 0 *)
Definition rank (f : float) : Z :=
  match f with
  | S754_zero _ => 0
  | S754_infinity s => if s then - inf_mag else inf_mag
  | S754_nan => 0
  | S754_finite s m e => if s then - mag m e else mag m e
  end.

Ltac pows := change (2 ^ 52) with 4503599627370496 in *; change (2 ^ 53) with 9007199254740992 in *;
             change (2 ^ 63) with 9223372036854775808 in *; change (2 ^ 64) with 18446744073709551616 in *;
             change inf_mag with (2047 * 4503599627370496) in *.

Lemma mag_range m e : bounded fprec femax m e = true -> 0 < mag m e < inf_mag.
Proof.
  intros H. apply bounded_inv in H as (He & Hm & Hc). unfold mag.
  destruct (Z.ltb_spec (Zpos m) (2 ^ 52)); pows; lia.
Qed.

Lemma compare_lt_of a b c d : (a ?= b) = Lt -> c < d -> (a ?= b) = (c ?= d).
Proof. intros -> H. symmetry. now apply Z.compare_lt_iff. Qed.
Lemma compare_gt_of a b c d : (a ?= b) = Gt -> d < c -> (a ?= b) = (c ?= d).
Proof. intros -> H. symmetry. now apply Z.compare_gt_iff. Qed.

Lemma mag_compare m1 e1 m2 e2 :
  bounded fprec femax m1 e1 = true -> bounded fprec femax m2 e2 = true ->
  match e1 ?= e2 with Lt => Lt | Gt => Gt | Eq => Pcompare m1 m2 Eq end
  = (mag m1 e1 ?= mag m2 e2).
Proof.
  intros H1 H2. apply bounded_inv in H1 as (He1 & Hm1 & Hc1). apply bounded_inv in H2 as (He2 & Hm2 & Hc2).
  change (Pcompare m1 m2 Eq) with (Zpos m1 ?= Zpos m2).
  unfold mag. destruct (Z.compare_spec e1 e2) as [->|Hl|Hl].
  - destruct (Z.ltb_spec (Zpos m1) (2 ^ 52)), (Z.ltb_spec (Zpos m2) (2 ^ 52)).
    + reflexivity.
    + symmetry. rewrite (proj2 (Z.compare_lt_iff _ _)); [|pows; lia].
      symmetry. apply Z.compare_lt_iff. pows; lia.
    + symmetry. rewrite (proj2 (Z.compare_gt_iff _ _)); [|pows; lia].
      symmetry. apply Z.compare_gt_iff. pows; lia.
    + destruct (Z.compare_spec (Zpos m1) (Zpos m2)) as [E|L|L]; symmetry.
      * rewrite E. apply Z.compare_refl.
      * apply Z.compare_lt_iff. lia.
      * apply Z.compare_gt_iff. lia.
  - symmetry. apply Z.compare_lt_iff.
    destruct (Z.ltb_spec (Zpos m1) (2 ^ 52)), (Z.ltb_spec (Zpos m2) (2 ^ 52)); pows; nia.
  - symmetry. apply Z.compare_gt_iff.
    destruct (Z.ltb_spec (Zpos m1) (2 ^ 52)), (Z.ltb_spec (Zpos m2) (2 ^ 52)); pows; nia.
Qed.

Lemma valid_finite s m e : is_number (S754_finite s m e) -> bounded fprec femax m e = true.
Proof. intros [H _]. exact H. Qed.

Lemma CompOpp_compare a b : CompOpp (a ?= b) = (- a ?= - b).
Proof. rewrite Z.compare_opp, Z.compare_antisym. destruct (b ?= a); reflexivity. Qed.

Lemma rank_compare f g : is_number f -> is_number g ->
  SFcompare f g = Some (rank f ?= rank g).
Proof.
  intros Hf Hg.
  assert (Gt0 : forall a b, b < a -> Some Gt = Some (a ?= b))
    by (intros a b H; f_equal; symmetry; now apply Z.compare_gt_iff).
  assert (Lt0 : forall a b, a < b -> Some Lt = Some (a ?= b))
    by (intros a b H; f_equal; symmetry; now apply Z.compare_lt_iff).
  destruct f as [sf|sf| |sf mf ef]; destruct g as [sg|sg| |sg mg eg];
    try (destruct Hf as [_ Hf]; discriminate Hf); try (destruct Hg as [_ Hg]; discriminate Hg);
    try (apply valid_finite in Hf; pose proof (mag_range _ _ Hf));
    try (apply valid_finite in Hg; pose proof (mag_range _ _ Hg));
    cbn [SFcompare rank].
  - reflexivity.
  - destruct sg; [apply Gt0|apply Lt0]; pows; lia.
  - destruct sg; [apply Gt0|apply Lt0]; pows; lia.
  - destruct sf; [apply Lt0|apply Gt0]; pows; lia.
  - destruct sf, sg; rewrite ?Z.compare_refl; reflexivity.
  - destruct sf, sg; first [apply Lt0|apply Gt0]; pows; lia.
  - destruct sf; [apply Lt0|apply Gt0]; pows; lia.
  - destruct sf, sg; first [apply Lt0; pows; lia|apply Gt0; pows; lia].
  - pose proof (mag_compare mf ef mg eg Hf Hg) as HM.
    destruct sf, sg.
    + f_equal. rewrite <- CompOpp_compare, <- HM.
      destruct (ef ?= eg); reflexivity.
    + apply Lt0. lia.
    + apply Gt0. lia.
    + f_equal. rewrite <- HM. destruct (ef ?= eg); reflexivity.
Qed.

Lemma flt_rank f g : is_number f -> is_number g -> (flt f g <-> rank f < rank g).
Proof.
  intros Hf Hg. unfold flt, SFltb. rewrite (rank_compare f g Hf Hg).
  destruct (Z.compare_spec (rank f) (rank g)); split; try discriminate; try lia; auto.
Qed.
Lemma feq_rank f g : is_number f -> is_number g -> (feq f g <-> rank f = rank g).
Proof.
  intros Hf Hg. unfold feq, SFeqb. rewrite (rank_compare f g Hf Hg).
  destruct (Z.compare_spec (rank f) (rank g)); split; try discriminate; try lia; auto.
Qed.

Lemma rank_range f : is_number f -> - inf_mag <= rank f <= inf_mag.
Proof.
  intros Hf. destruct f as [s|s| |s m e]; cbn [rank].
  - pows; lia.
  - destruct s; pows; lia.
  - pows; lia.
  - apply valid_finite in Hf. apply mag_range in Hf. destruct s; pows; lia.
Qed.

(** every position is taken *)
Lemma rank_onto k : - inf_mag <= k <= inf_mag -> exists f, is_number f /\ rank f = k.
Proof.
  assert (pos : forall k, 0 < k <= inf_mag -> forall s, exists f, is_number f /\
                  rank f = if (s : bool) then - k else k).
  { clear k. intros k Hk s.
    destruct (Z.eq_dec k inf_mag) as [->|Hi].
    { exists (S754_infinity s). split; [split; reflexivity|]. destruct s; reflexivity. }
    destruct (Z.lt_ge_cases k (2 ^ 52)) as [Hs|Hb].
    - exists (S754_finite s (Z.to_pos k) (-1074)). split.
      + split; [|reflexivity]. cbn [valid_binary]. apply bounded_intro; rewrite ?Z2Pos.id by lia; pows; lia.
      + cbn [rank]. unfold mag. rewrite Z2Pos.id by lia.
        destruct (Z.ltb_spec k (2 ^ 52)); [reflexivity|lia].
    - pose proof (Z.div_mod k (2 ^ 52) ltac:(lia)) as HD.
      pose proof (Z.mod_pos_bound k (2 ^ 52) ltac:(lia)) as HM.
      set (q := k / 2 ^ 52) in *. set (r := k mod 2 ^ 52) in *.
      assert (1 <= q <= 2046) by (pows; lia).
      exists (S754_finite s (Z.to_pos (2 ^ 52 + r)) (q - 1075)). split.
      + split; [|reflexivity]. cbn [valid_binary]. apply bounded_intro; rewrite ?Z2Pos.id by lia; pows; lia.
      + cbn [rank]. unfold mag. rewrite Z2Pos.id by lia.
        destruct (Z.ltb_spec (2 ^ 52 + r) (2 ^ 52)); [lia|].
        replace ((q - 1075 + 1075) * 2 ^ 52 + (2 ^ 52 + r - 2 ^ 52)) with k by lia. reflexivity. }
  intros Hk. destruct (Z.lt_trichotomy k 0) as [H|[->|H]].
  - destruct (pos (- k) ltac:(lia) true) as (f & Hf & E). exists f. split; [exact Hf|]. rewrite E. lia.
  - exists (S754_zero false). split; [split; reflexivity|reflexivity].
  - exact (pos k ltac:(lia) false).
Qed.

Lemma next_number_rank f g : next_number f g <-> is_number f /\ is_number g /\ rank g = rank f + 1.
Proof.
  split.
  - intros (Hf & Hg & Hlt & Hno). split; [exact Hf|]. split; [exact Hg|].
    apply flt_rank in Hlt; auto.
    destruct (Z.eq_dec (rank g) (rank f + 1)) as [|N]; [assumption|].
    pose proof (rank_range f Hf). pose proof (rank_range g Hg).
    destruct (rank_onto (rank f + 1)) as (h & Hh & E); [lia|].
    exfalso. apply (Hno h Hh). rewrite !flt_rank by assumption. lia.
  - intros (Hf & Hg & E). repeat split; try apply Hf; try apply Hg.
    + apply flt_rank; auto. lia.
    + intros h Hh [H1 H2]. apply flt_rank in H1; auto. apply flt_rank in H2; auto. lia.
Qed.

Lemma steps_rank n : forall f g, steps n f g <-> is_number f /\ is_number g /\ rank g = rank f + Z.of_nat n.
Proof.
  induction n as [|n IH]; intros f g.
  - split.
    + intros H. inversion H as [? ? Hf Hg E|]; subst. apply feq_rank in E; auto.
      repeat split; try apply Hf; try apply Hg. lia.
    + intros (Hf & Hg & E). constructor; auto. apply feq_rank; auto. lia.
  - split.
    + intros H. inversion H as [|? ? g1 ? H1 H2]; subst.
      apply next_number_rank in H1 as (Hf & Hg & E). apply IH in H2 as (_ & Hh & E2).
      split; [exact Hf|]. split; [exact Hh|]. lia.
    + intros (Hf & Hg & E). pose proof (rank_range f Hf). pose proof (rank_range g Hg).
      destruct (rank_onto (rank f + 1)) as (h & Hh & Eh); [lia|].
      econstructor; [apply next_number_rank; eauto|]. apply IH. repeat split; try apply Hh; try apply Hg. lia.
Qed.

(** ** [_double_to_biased] *)
Lemma land_high_low r : 0 <= r < 2 ^ 63 -> Z.land (2 ^ 63) r = 0.
Proof.
  intros H. apply Z.bits_inj'. intros n Hn. rewrite Z.land_spec, Z.bits_0, Z.pow2_bits_eqb by lia.
  destruct (Z.eqb_spec 63 n) as [<-|]; [|reflexivity]. cbn [andb].
  destruct (Z.eq_dec r 0) as [->|]; [apply Z.bits_0|].
  apply Z.bits_above_log2; [lia|]. apply Z.log2_lt_pow2; lia.
Qed.
Lemma lor_high_low r : 0 <= r < 2 ^ 63 -> Z.lor (2 ^ 63) r = 2 ^ 63 + r.
Proof.
  intros H. rewrite <- Z.lxor_lor by now apply land_high_low.
  symmetry. apply Z.add_nocarry_lxor. now apply land_high_low.
Qed.
Lemma land_high_set r : 0 <= r < 2 ^ 63 -> Z.land (2 ^ 63) (2 ^ 63 + r) = 2 ^ 63.
Proof.
  intros H. rewrite <- lor_high_low by exact H. rewrite Z.land_lor_distr_r.
  rewrite (land_high_low r H), Z.lor_0_r. apply Z.land_diag.
Qed.

Lemma biased_rank f : is_number f ->
  double_to_biased f = 2 ^ 63 + rank f \/ (f = S754_zero true /\ double_to_biased f = 2 ^ 63).
Proof.
  intros Hf. unfold double_to_biased.
  assert (P : forall r, 0 <= r <= inf_mag ->
     (if Z.land (2 ^ 63) r =? 0 then Z.lor (2 ^ 63) r mod 2 ^ 64 else (Z.lnot r + 1) mod 2 ^ 64)
     = 2 ^ 63 + r).
  { intros r Hr. rewrite land_high_low, lor_high_low by (pows; lia). cbn [Z.eqb].
    apply Z.mod_small. pows; lia. }
  assert (N : forall r, 0 <= r <= inf_mag ->
     (if Z.land (2 ^ 63) (2 ^ 63 + r) =? 0 then Z.lor (2 ^ 63) (2 ^ 63 + r) mod 2 ^ 64
      else (Z.lnot (2 ^ 63 + r) + 1) mod 2 ^ 64) = 2 ^ 63 - r).
  { intros r Hr. rewrite land_high_set by (pows; lia).
    destruct (Z.eqb_spec (2 ^ 63) 0); [lia|]. unfold Z.lnot.
    replace (Z.pred (- (2 ^ 63 + r)) + 1) with ((2 ^ 63 - r) + (-1) * 2 ^ 64) by (pows; lia).
    rewrite Z_mod_plus_full. apply Z.mod_small. pows; lia. }
  destruct f as [s|s| |s m e]; cbn [float_bits rank].
  - destruct s; [right|left; apply (P 0); pows; lia].
    split; reflexivity.
  - left. change (2047 * 2 ^ 52) with inf_mag. destruct s.
    + rewrite N by (pows; lia). lia.
    + rewrite Z.add_0_l, P by (pows; lia). lia.
  - destruct Hf as [_ Hf]; discriminate.
  - left. apply valid_finite in Hf. pose proof (mag_range m e Hf). fold (mag m e). destruct s.
    + rewrite N by lia. lia.
    + rewrite Z.add_0_l, P by lia. lia.
Qed.

Lemma almost_equal_rank f g : is_number f -> is_number g ->
  f_almost_equal f g = (Z.abs (rank f - rank g) <=? 4).
Proof.
  intros Hf Hg. unfold f_almost_equal.
  destruct (biased_rank f Hf) as [->|[-> ->]]; destruct (biased_rank g Hg) as [->|[-> ->]];
    cbn [rank]; f_equal; f_equal; lia.
Qed.

Lemma almost_equal_steps f g : is_number f -> is_number g ->
  (f_almost_equal f g = true <-> exists n, (n <= 4)%nat /\ (steps n f g \/ steps n g f)).
Proof.
  intros Hf Hg. rewrite almost_equal_rank by assumption. rewrite Z.leb_le. split.
  - intros H. exists (Z.to_nat (Z.abs (rank f - rank g))). split; [lia|].
    rewrite !steps_rank. destruct (Z.le_gt_cases (rank f) (rank g)); [left|right];
      (split; [assumption|split; [assumption|lia]]).
  - intros (n & Hn & [H|H]); apply steps_rank in H as (_ & _ & E); lia.
Qed.

