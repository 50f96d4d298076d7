(** * Intersection of two edges (edge.py:24-41) against real arithmetic *)
From Coq Require Import ZArith List Bool Lia Reals Lra Psatz.
From Coq Require Import Floats.SpecFloat.
From Flocq Require Import Core.Core IEEE754.BinarySingleNaN.
From Verif Require Import Py Utils Geometry SpecEdge FloatP SlopeP RoundP.
Open Scope Z_scope.

(** parameter of the common point of the lines on the first edge, as a fraction *)
Definition t_num (e o : edge) : Z :=
  (px (etop o) - px (ebot o)) * (py (ebot e) - py (ebot o)) - (py (etop o) - py (ebot o)) * (px (ebot e) - px (ebot o)).
Definition s_num (e o : edge) : Z :=
  - (py (etop e) - py (ebot e)) * (px (ebot e) - px (ebot o)) + (px (etop e) - px (ebot e)) * (py (ebot e) - py (ebot o)).

Lemma lines_meet e o t s : determinant e o <> 0 ->
  (at_x e t = at_x o s /\ at_y e t = at_y o s) <->
  (t = IZR (t_num e o) / IZR (determinant e o) /\ s = IZR (s_num e o) / IZR (determinant e o))%R.
Proof.
  intros N. apply IZR_neq in N. unfold at_x, at_y, t_num, s_num, determinant in *.
  rewrite ?minus_IZR, ?plus_IZR, ?mult_IZR, ?opp_IZR, ?minus_IZR in *.
  set (a := IZR (px (etop e))) in *. set (b := IZR (px (ebot e))) in *. set (c := IZR (py (etop e))) in *. set (d := IZR (py (ebot e))) in *.
  set (a' := IZR (px (etop o))) in *. set (b' := IZR (px (ebot o))) in *. set (c' := IZR (py (etop o))) in *. set (d' := IZR (py (ebot o))) in *.
  split.
  - intros (H1 & H2).
    split; apply (Rmult_eq_reg_r ((a - b) * (c' - d') - (a' - b') * (c - d))%R); try exact N;
      unfold Rdiv; rewrite Rmult_assoc, Rinv_l, Rmult_1_r by exact N.
    + pose proof (f_equal (Rmult (c' - d')) H1). pose proof (f_equal (Rmult (a' - b')) H2). lra.
    + pose proof (f_equal (Rmult (c - d)) H1). pose proof (f_equal (Rmult (a - b)) H2). lra.
  - intros (-> & ->). split; field; exact N.
Qed.

Lemma rnd_01 a b : b <> 0 -> (Z.abs b <= 2 ^ 1000)%Z ->
  (0 <= IZR a / IZR b <= 1)%R -> (0 <= rnd (IZR a / IZR b) <= 1)%R.
Proof.
  intros _ _ (H1 & H2). apply rnd_le in H1, H2. rewrite rnd_0 in H1. rewrite (rnd_IZR_small 1) in H2 by lia. lra.
Qed.
Lemma quot_ge a b : b <> 0 -> (1 < IZR a / IZR b)%R -> (1 + / IZR (Z.abs b) <= IZR a / IZR b)%R.
Proof.
  intros N H. assert (P : (0 < IZR (Z.abs b))%R) by (apply IZR_lt; lia).
  assert (E : (IZR a / IZR b = IZR (a * Z.sgn b) / IZR (Z.abs b))%R).
  { replace (Z.abs b) with (b * Z.sgn b) by lia. rewrite !mult_IZR. field. split; apply IZR_neq; lia. }
  rewrite E in *. replace (1 + / IZR (Z.abs b))%R with ((IZR (Z.abs b) + 1) / IZR (Z.abs b))%R by (field; lra).
  apply Rmult_le_compat_r; [left; apply Rinv_0_lt_compat; exact P|]. rewrite <- plus_IZR. apply IZR_le.
  apply (Rmult_lt_compat_r (IZR (Z.abs b))) in H; [|exact P]. unfold Rdiv in H.
  rewrite Rmult_assoc, Rinv_l, Rmult_1_r, Rmult_1_l in H by lra. apply lt_IZR in H. lia.
Qed.
Lemma quot_le a b : b <> 0 -> (IZR a / IZR b < 0)%R -> (IZR a / IZR b <= - / IZR (Z.abs b))%R.
Proof.
  intros N H. assert (P : (0 < IZR (Z.abs b))%R) by (apply IZR_lt; lia).
  assert (E : (IZR a / IZR b = IZR (a * Z.sgn b) / IZR (Z.abs b))%R).
  { replace (Z.abs b) with (b * Z.sgn b) by lia. rewrite !mult_IZR. field. split; apply IZR_neq; lia. }
  rewrite E in *. replace (- / IZR (Z.abs b))%R with (-1 / IZR (Z.abs b))%R by (field; lra).
  apply Rmult_le_compat_r; [left; apply Rinv_0_lt_compat; exact P|]. apply IZR_le.
  apply (Rmult_lt_compat_r (IZR (Z.abs b))) in H; [|exact P]. unfold Rdiv in H.
  rewrite Rmult_assoc, Rinv_l, Rmult_1_r, Rmult_0_l in H by lra. apply lt_IZR in H. lia.
Qed.
Lemma inv_bpow b k : (0 < Z.abs b <= 2 ^ k)%Z -> 0 <= k -> (bpow radix2 (- k) <= / IZR (Z.abs b))%R.
Proof.
  intros B Hk. rewrite bpow_opp. apply Rinv_le; [apply IZR_lt; lia|]. rewrite <- IZR_Zpower by exact Hk. apply IZR_le. exact (proj2 B).
Qed.
Lemma rnd_01_inv a b : b <> 0 -> (Z.abs b <= 2 ^ 52)%Z ->
  (0 <= rnd (IZR a / IZR b) <= 1)%R -> (0 <= IZR a / IZR b <= 1)%R.
Proof.
  intros N B (H1 & H2). pose proof (inv_bpow b 52 ltac:(lia) ltac:(lia)) as I. change (Z.opp 52) with (-52) in I. split.
  - destruct (Rle_or_lt 0 (IZR a / IZR b)) as [L|L]; [exact L|exfalso]. apply quot_le in L; [|exact N].
    assert (H : (IZR a / IZR b <= - bpow radix2 (-52))%R) by lra. apply rnd_le in H.
    assert (R : rnd (- bpow radix2 (-52)) = (- bpow radix2 (-52))%R).
    { apply round_generic; [typeclasses eauto|]. apply generic_format_opp, generic_format_bpow. vm_compute. discriminate. }
    pose proof (bpow_gt_0 radix2 (-52)). lra.
  - destruct (Rle_or_lt (IZR a / IZR b) 1) as [L|L]; [exact L|exfalso]. apply quot_ge in L; [|exact N].
    assert (H : (1 + bpow radix2 (-52) <= IZR a / IZR b)%R) by lra. apply rnd_le in H.
    assert (R : rnd (1 + bpow radix2 (-52)) = (1 + bpow radix2 (-52))%R).
    { apply round_generic; [typeclasses eauto|]. apply (generic_format_FLT radix2 (-1074) 53).
      exists (Float radix2 (2 ^ 52 + 1) (-52)); cbn [Fnum Fexp]; [|vm_compute; reflexivity|lia].
      unfold F2R. cbn [Fnum Fexp]. rewrite plus_IZR. change 2 with (radix_val radix2) at 1. rewrite IZR_Zpower by lia.
      rewrite Rmult_plus_distr_r, <- bpow_plus. change (bpow radix2 (52 + -52)) with 1%R. lra. }
    pose proof (bpow_gt_0 radix2 (-52)). lra.
Qed.
Lemma good_01 f : good f -> f_in_01 f = true <-> (0 <= val f <= 1)%R.
Proof.
  intros G. unfold f_in_01.
  assert (G0 : good f_zero) by (split; reflexivity). assert (G1 : good f_one) by (split; reflexivity).
  rewrite !num_leb_spec by assumption. cbn [numval]. change (val f_zero) with 0%R.
  assert (V1 : val f_one = 1%R).
  { unfold f_one. rewrite val_finite. cbn [cond_Zopp].
    change (F2R (Float radix2 (Zpos (2 ^ 52)) (-52))) with (IZR (2 ^ 52) * bpow radix2 (-52))%R.
    change 2 with (radix_val radix2) at 1. rewrite IZR_Zpower, <- bpow_plus by lia. reflexivity. }
  rewrite V1, andb_true_iff. destruct (Rle_bool_spec 0 (val f)), (Rle_bool_spec (val f) 1);
    split; intros; try lra; try (destruct H1; discriminate); auto.
Qed.

(** ** Whether a point is found *)
Definition found (r : res (option npoint)) : Prop := exists p, r = Ok (Some p).
Lemma edge_and_unfold e o : determinant e o <> 0 ->
  edge_and e o =
  (s <- int_truediv (s_num e o) (determinant e o) ;;
   t <- int_truediv (t_num e o) (determinant e o) ;;
   if f_in_01 s && f_in_01 t then
     (tx <- num_mul (NF t) (NI (px (etop e) - px (ebot e))) ;;
      x <- num_add (NI (px (ebot e))) tx ;;
      ty <- num_mul (NF t) (NI (py (etop e) - py (ebot e))) ;;
      y <- num_add (NI (py (ebot e))) ty ;;
      Ok (Some (NPt x y)))
   else Ok None)%res.
Proof.
  intros N. unfold edge_and. fold (determinant e o). destruct (Z.eqb_spec (determinant e o) 0); [contradiction|]. reflexivity.
Qed.
Lemma swapped e o : determinant o e = - determinant e o /\ t_num o e = - s_num e o /\ s_num o e = - t_num e o.
Proof. unfold determinant, t_num, s_num. repeat split; ring. Qed.
Lemma small_det e o : small_edge e (2 ^ 24) -> small_edge o (2 ^ 24) -> Z.abs (determinant e o) <= 2 ^ 51.
Proof.
  intros ((A1 & A2) & (A3 & A4)) ((B1 & B2) & (B3 & B4)). unfold determinant.
  set (a := px (etop e) - px (ebot e)). set (b := py (etop o) - py (ebot o)).
  set (c := px (etop o) - px (ebot o)). set (d := py (etop e) - py (ebot e)).
  assert (Z.abs a <= 2 ^ 25) by (unfold a; lia). assert (Z.abs b <= 2 ^ 25) by (unfold b; lia).
  assert (Z.abs c <= 2 ^ 25) by (unfold c; lia). assert (Z.abs d <= 2 ^ 25) by (unfold d; lia). clearbody a b c d.
  assert (Z.abs (a * b) <= 2 ^ 50). { rewrite Z.abs_mul. change (2 ^ 50) with (2 ^ 25 * 2 ^ 25). apply Z.mul_le_mono_nonneg; lia. }
  assert (Z.abs (c * d) <= 2 ^ 50). { rewrite Z.abs_mul. change (2 ^ 50) with (2 ^ 25 * 2 ^ 25). apply Z.mul_le_mono_nonneg; lia. }
  change (2 ^ 51) with (2 ^ 50 + 2 ^ 50). lia.
Qed.

(** ** Accuracy of the point *)
Lemma mul_add t d b : good t -> (0 <= val t <= 1)%R -> Z.abs d <= 2 ^ 25 -> Z.abs b <= 2 ^ 24 ->
  exists p x, num_mul (NF t) (NI d) = Ok p /\ num_add (NI b) p = Ok (NF x) /\ good x /\
    (Rabs (val x - (IZR b + val t * IZR d)) <= bpow radix2 (-26))%R.
Proof.
  intros G T D B. destruct (float_of_Z_ok d ltac:(lia)) as (fd & Ed & Gd & Vd). rewrite rnd_IZR_small in Vd by lia.
  destruct (float_of_Z_ok b ltac:(lia)) as (fb & Eb & Gb & Vb). rewrite rnd_IZR_small in Vb by lia.
  assert (Err : forall x k, -1021 <= k -> (Rabs x <= bpow radix2 k)%R -> (Rabs (rnd x - x) <= bpow radix2 (k - 53))%R).
  { intros x k Hk Hx. pose proof (error_le_half_ulp radix2 fexp64 (fun x => negb (Z.even x)) x) as H.
    fold (rnd x) in H. refine (Rle_trans _ _ _ H _).
    apply Rle_trans with (/ 2 * ulp radix2 fexp64 (bpow radix2 k))%R.
    - apply Rmult_le_compat_l; [lra|]. apply ulp_le; [typeclasses eauto..|]. rewrite (Rabs_pos_eq (bpow _ _)) by apply bpow_ge_0. exact Hx.
    - rewrite ulp_bpow. unfold SpecFloat.fexp, SpecFloat.emin. replace (Z.max (k + 1 - 53) (3 - 1024 - 53)) with (1 + (k - 53)) by lia.
      rewrite bpow_plus. change (bpow radix2 1) with 2%R. lra. }
  assert (X1 : (Rabs (val t * IZR d) <= bpow radix2 25)%R).
  { rewrite Rabs_mult, (Rabs_pos_eq (val t)), <- abs_IZR by lra. rewrite <- IZR_Zpower by lia.
    apply Rle_trans with (1 * IZR (Z.abs d))%R; [apply Rmult_le_compat_r; [apply IZR_le; lia|lra]|].
    rewrite Rmult_1_l. apply IZR_le. exact D. }
  pose proof (Err _ 25 ltac:(lia) X1) as E1.
  pose proof (fmul_spec t fd G Gd) as M. rewrite Vd in M.
  assert (R1 : in_range (val t * IZR d)). { apply in_range_small. refine (Rle_trans _ _ _ X1 _). apply bpow_le. lia. }
  destruct M as [(_ & Gm & Vm & _)|(N & _)]; [|contradiction].
  assert (X2 : (Rabs (IZR b + val (fmul t fd)) <= bpow radix2 26)%R).
  { refine (Rle_trans _ _ _ (Rabs_triang _ _) _). rewrite <- abs_IZR.
    assert (Rabs (val (fmul t fd)) <= bpow radix2 25)%R.
    { rewrite Vm. apply Rabs_le_inv in X1. destruct X1 as (Y1 & Y2). apply rnd_le in Y1, Y2.
      assert (Z1 : rnd (bpow radix2 25) = bpow radix2 25) by (rewrite <- IZR_Zpower by lia; apply rnd_IZR_small; vm_compute; discriminate).
      assert (Z2 : rnd (- bpow radix2 25) = (- bpow radix2 25)%R)
        by (rewrite <- IZR_Zpower, <- opp_IZR by lia; apply rnd_IZR_small; vm_compute; discriminate).
      apply Rabs_le. lra. }
    assert (IZR (Z.abs b) <= bpow radix2 25)%R. { rewrite <- IZR_Zpower by lia. apply IZR_le. change (radix2 ^ 25) with (2 ^ 25). lia. }
    change (bpow radix2 26) with (bpow radix2 (1 + 25)). rewrite bpow_plus. change (bpow radix2 1) with 2%R. lra. }
  pose proof (Err _ 26 ltac:(lia) X2) as E2.
  destruct (fadd_spec fb (fmul t fd) Gb Gm) as (s & A). rewrite Vb in A.
  assert (R2 : in_range (IZR b + val (fmul t fd))). { apply in_range_small. refine (Rle_trans _ _ _ X2 _). apply bpow_le. lia. }
  destruct A as [(_ & Ga & Va & _)|(N & _)]; [|contradiction].
  exists (NF (fmul t fd)), (fadd fb (fmul t fd)).
  split; [cbn [num_mul num_arith num_to_float]; rewrite Ed; reflexivity|].
  split; [cbn [num_add num_arith num_to_float]; rewrite Eb; reflexivity|]. split; [exact Ga|].
  rewrite Va. apply Rabs_le_inv in E1, E2. rewrite <- Vm in E1. apply Rabs_le.
  assert (Q1 : (bpow radix2 (25 - 53) <= bpow radix2 (-27))%R) by (apply bpow_le; lia).
  assert (Q2 : (bpow radix2 (-26) = 2 * bpow radix2 (-27))%R) by (change (-26) with (1 + -27); rewrite bpow_plus; reflexivity).
  change (26 - 53) with (-27) in E2. lra.
Qed.

Lemma num_sizes e o : small_edge e (2 ^ 24) -> small_edge o (2 ^ 24) ->
  Z.abs (t_num e o) <= 2 ^ 51 /\ Z.abs (s_num e o) <= 2 ^ 51.
Proof.
  intros ((A1 & A2) & (A3 & A4)) ((B1 & B2) & (B3 & B4)).
  assert (D : forall a b, Z.abs a <= 2 ^ 24 -> Z.abs b <= 2 ^ 24 -> Z.abs (a - b) <= 2 ^ 25) by (intros a b; lia).
  assert (P : forall a b c d, Z.abs a <= 2 ^ 25 -> Z.abs b <= 2 ^ 25 -> Z.abs c <= 2 ^ 25 -> Z.abs d <= 2 ^ 25 ->
    Z.abs (a * b - c * d) <= 2 ^ 51).
  { intros a b c d Ha Hb Hc Hd.
    assert (Z.abs (a * b) <= 2 ^ 25 * 2 ^ 25) by (rewrite Z.abs_mul; apply Z.mul_le_mono_nonneg; lia).
    assert (Z.abs (c * d) <= 2 ^ 25 * 2 ^ 25) by (rewrite Z.abs_mul; apply Z.mul_le_mono_nonneg; lia). lia. }
  split.
  - unfold t_num. apply P; apply D; assumption.
  - unfold s_num. rewrite Z.add_comm, Z.mul_opp_l, Z.add_opp_r. apply P; apply D; assumption.
Qed.
Lemma edge_and_small e o : small_edge e (2 ^ 24) -> small_edge o (2 ^ 24) -> determinant e o <> 0 ->
  exists r, edge_and e o = Ok r /\
    match r with
    | None => ~ meet e o
    | Some p => exists t s x y, p = NPt (NF x) (NF y) /\ good x /\ good y /\
        (0 <= t <= 1)%R /\ (0 <= s <= 1)%R /\ at_x e t = at_x o s /\ at_y e t = at_y o s /\
        (Rabs (val x - at_x e t) <= bpow radix2 (-25))%R /\ (Rabs (val y - at_y e t) <= bpow radix2 (-25))%R
    end.
Proof.
  intros Se So N. rewrite edge_and_unfold by exact N. pose proof (small_det e o Se So) as D.
  destruct (num_sizes e o Se So) as (Bt & Bs).
  assert (Big : 2 ^ 51 <= 2 ^ 1023) by (apply Z.pow_le_mono_r; lia).
  apply (fun H => Z.le_trans _ _ _ H Big) in Bt, Bs. clear Big.
  destruct (truediv_ok (s_num e o) _ N Bs) as (s & -> & Gs & Vs).
  destruct (truediv_ok (t_num e o) _ N Bt) as (t & -> & Gt & Vt). cbn [rbind].
  pose proof (good_01 s Gs) as Is. pose proof (good_01 t Gt) as It. rewrite Vs in Is. rewrite Vt in It.
  set (rt := (IZR (t_num e o) / IZR (determinant e o))%R) in *. set (rs := (IZR (s_num e o) / IZR (determinant e o))%R) in *.
  assert (Es : (0 <= rnd rs <= 1)%R <-> (0 <= rs <= 1)%R).
  { split; [apply rnd_01_inv|apply rnd_01]; auto; lia. }
  assert (Et : (0 <= rnd rt <= 1)%R <-> (0 <= rt <= 1)%R).
  { split; [apply rnd_01_inv|apply rnd_01]; auto; lia. }
  rewrite Es in Is. rewrite Et in It.
  destruct (f_in_01 s) eqn:Fs, (f_in_01 t) eqn:Ft; cbn [andb].
  2,3,4: exists None; split; [reflexivity|]; intros (t0 & s0 & T & S & X & Y);
    destruct (proj1 (lines_meet e o t0 s0 N) (conj X Y)) as (-> & ->); fold rt rs in T, S;
    try (apply It in T; discriminate); apply Is in S; discriminate.
  destruct Is as (Is & _). destruct It as (It & _). specialize (Is eq_refl). specialize (It eq_refl).
  assert (Tv : (0 <= val t <= 1)%R) by (rewrite Vt; apply Et; exact It).
  destruct Se as ((A1 & A2) & (A3 & A4)).
  destruct (mul_add t (px (etop e) - px (ebot e)) (px (ebot e)) Gt Tv ltac:(lia) A3) as (p1 & x & -> & E1 & Gx & Ex). cbn [rbind]. rewrite E1. cbn [rbind].
  destruct (mul_add t (py (etop e) - py (ebot e)) (py (ebot e)) Gt Tv ltac:(lia) A4) as (p2 & y & -> & E2 & Gy & Ey). cbn [rbind]. rewrite E2. cbn [rbind].
  eexists. split; [reflexivity|]. exists rt, rs, x, y. split; [reflexivity|]. split; [exact Gx|]. split; [exact Gy|].
  split; [exact It|]. split; [exact Is|].
  destruct (proj2 (lines_meet e o rt rs N) (conj eq_refl eq_refl)) as (X & Y). split; [exact X|]. split; [exact Y|].
  assert (Te : (Rabs (val t - rt) <= bpow radix2 (-53))%R).
  { rewrite Vt. pose proof (quot_error (t_num e o) (determinant e o) N ltac:(lia)) as Q. refine (Rle_trans _ _ _ Q _).
    rewrite <- quot_bounds by exact N. fold rt. rewrite Rabs_pos_eq by lra.
    rewrite <- (Rmult_1_r (bpow radix2 (-53))) at 2. apply Rmult_le_compat_l; [apply bpow_ge_0|lra]. }
  assert (M : forall d, Z.abs d <= 2 ^ 25 -> (Rabs (val t * IZR d - rt * IZR d) <= bpow radix2 (-28))%R).
  { intros d Hd. replace (val t * IZR d - rt * IZR d)%R with ((val t - rt) * IZR d)%R by ring.
    rewrite Rabs_mult, <- abs_IZR. change (-28) with (-53 + 25). rewrite bpow_plus.
    apply Rmult_le_compat; [apply Rabs_pos|apply IZR_le; lia|exact Te|]. rewrite <- IZR_Zpower by lia. apply IZR_le. exact Hd. }
  pose proof (M (px (etop e) - px (ebot e)) ltac:(lia)) as M1. pose proof (M (py (etop e) - py (ebot e)) ltac:(lia)) as M2.
  assert (Q1 : (bpow radix2 (-28) <= bpow radix2 (-26))%R) by (apply bpow_le; lia).
  assert (Q2 : (bpow radix2 (-25) = 2 * bpow radix2 (-26))%R) by (change (-25) with (1 + -26); rewrite bpow_plus; reflexivity).
  unfold at_x, at_y. apply Rabs_le_inv in Ex, Ey, M1, M2. split; apply Rabs_le; lra.
Qed.
Lemma at_small e t : small_edge e (2 ^ 24) -> (0 <= t <= 1)%R ->
  (Rabs (at_x e t) <= bpow radix2 25 /\ Rabs (at_y e t) <= bpow radix2 25)%R.
Proof.
  intros ((A1 & A2) & (A3 & A4)) T. unfold at_x, at_y.
  assert (P : forall a b, Z.abs a <= 2 ^ 24 -> Z.abs b <= 2 ^ 24 -> (Rabs (IZR b + t * IZR (a - b)) <= bpow radix2 25)%R).
  { intros a b Ha Hb. assert (E : (IZR b + t * IZR (a - b) = (1 - t) * IZR b + t * IZR a)%R) by (rewrite minus_IZR; ring).
    rewrite E. change 25 with (1 + 24). rewrite bpow_plus. change (bpow radix2 1) with 2%R. rewrite <- IZR_Zpower by lia.
    change (radix2 ^ 24) with (2 ^ 24).
    assert (Ha' : (- IZR (2 ^ 24) <= IZR a <= IZR (2 ^ 24))%R) by (rewrite <- opp_IZR; split; apply IZR_le; lia).
    assert (Hb' : (- IZR (2 ^ 24) <= IZR b <= IZR (2 ^ 24))%R) by (rewrite <- opp_IZR; split; apply IZR_le; lia).
    assert (0 < IZR (2 ^ 24))%R by (apply IZR_lt; lia). apply Rabs_le. nra. }
  split; apply P; assumption.
Qed.
Lemma round_point_small e t x y : small_edge e (2 ^ 24) -> (0 <= t <= 1)%R -> good x -> good y ->
  (Rabs (val x - at_x e t) <= bpow radix2 (-25))%R -> (Rabs (val y - at_y e t) <= bpow radix2 (-25))%R ->
  exists q, round_point (NPt (NF x) (NF y)) = Ok q /\
    (Rabs (IZR (px q) - at_x e t) <= / 2 + bpow radix2 (-23))%R /\ (Rabs (IZR (py q) - at_y e t) <= / 2 + bpow radix2 (-23))%R.
Proof.
  intros Se T Gx Gy Ex Ey. destruct (at_small e t Se T) as (Bx & By).
  assert (P : forall f r, good f -> (Rabs (val f - r) <= bpow radix2 (-25))%R -> (Rabs r <= bpow radix2 25)%R ->
    exists n, round_towards_max (NF f) = Ok n /\ (Rabs (IZR n - r) <= / 2 + bpow radix2 (-23))%R).
  { intros f r G E B.
    assert (B' : (Rabs (val f) < bpow radix2 26)%R).
    { apply Rabs_le_inv in E, B. assert (bpow radix2 (-25) < bpow radix2 25)%R by (apply bpow_lt; lia).
      assert (bpow radix2 26 = 2 * bpow radix2 25)%R by (change 26 with (1 + 25); rewrite bpow_plus; reflexivity).
      apply Rabs_lt. lra. }
    destruct (round_towards_error f 26 G ltac:(lia) B') as (mn & mx & _ & R & _ & H & _). exists mx. split; [exact R|].
    change (26 - 51) with (-25) in H. apply Rabs_le_inv in H, E. apply Rabs_le.
    assert (bpow radix2 (-25) = / 4 * bpow radix2 (-23))%R.
    { change (-25) with (-2 + -23). rewrite bpow_plus. reflexivity. }
    pose proof (bpow_gt_0 radix2 (-23)). lra. }
  destruct (P x _ Gx Ex Bx) as (nx_ & R1 & H1). destruct (P y _ Gy Ey By) as (ny_ & R2 & H2).
  exists (Pt nx_ ny_). unfold round_point. cbn [nx ny]. rewrite R1. cbn [rbind]. rewrite R2. auto.
Qed.
Lemma f_in_01_val f g : good f -> good g -> val f = val g -> f_in_01 f = f_in_01 g.
Proof.
  intros Gf Gg E. pose proof (good_01 f Gf) as A. pose proof (good_01 g Gg) as B. rewrite E in A.
  destruct (f_in_01 f), (f_in_01 g); try reflexivity; [symmetry; apply B, A; reflexivity|apply A, B; reflexivity].
Qed.
Lemma truediv_opp a b : b <> 0 -> match int_truediv a b, int_truediv (- a) (- b) with
  | Ok f, Ok g => good f /\ good g /\ val f = val g
  | Raise x, Raise y => x = OverflowError /\ y = OverflowError
  | _, _ => False
  end.
Proof.
  intros N. assert (N' : - b <> 0) by lia. pose proof (truediv_spec a b N) as S1. pose proof (truediv_spec (- a) (- b) N') as S2.
  assert (E : (IZR (- a) / IZR (- b) = IZR a / IZR b)%R) by (rewrite !opp_IZR; field; apply IZR_neq; exact N).
  rewrite E in S2.
  destruct S1 as [(R1 & f & -> & G1 & V1 & _)|(R1 & ->)]; destruct S2 as [(R2 & g & -> & G2 & V2 & _)|(R2 & ->)]; try contradiction; auto.
  repeat split; try apply G1; try apply G2. congruence.
Qed.
Lemma edge_and_none_sym e o : edge_and e o = Ok None -> edge_and o e = Ok None.
Proof.
  destruct (swapped e o) as (Sd & St & Ss). destruct (Z.eq_dec (determinant e o) 0) as [Z0|N].
  { intros _. unfold edge_and. fold (determinant o e). rewrite Sd, Z0. reflexivity. }
  rewrite !edge_and_unfold by lia. rewrite Sd, St, Ss.
  pose proof (truediv_opp (s_num e o) _ N) as O1. pose proof (truediv_opp (t_num e o) _ N) as O2.
  destruct (int_truediv (s_num e o) (determinant e o)) as [s|x|], (int_truediv (- s_num e o) (- determinant e o)) as [s'|x'|]; try contradiction;
    destruct (int_truediv (t_num e o) (determinant e o)) as [t|z|], (int_truediv (- t_num e o) (- determinant e o)) as [t'|z'|]; try contradiction;
    cbn [rbind]; try discriminate.
  destruct O1 as (G1 & G2 & V1), O2 as (G3 & G4 & V2).
  rewrite (f_in_01_val t' t G4 G3 (eq_sym V2)), (f_in_01_val s' s G2 G1 (eq_sym V1)).
  rewrite (andb_comm (f_in_01 t)). destruct (f_in_01 s && f_in_01 t); [|reflexivity].
  unfold rbind. repeat match goal with |- context [match ?m with _ => _ end = Ok None] => destruct m; try discriminate end.
Qed.
Lemma edge_and_complete e o : determinant e o <> 0 -> meet e o ->
  Z.abs (px (ebot e)) <= 2 ^ 1023 -> Z.abs (py (ebot e)) <= 2 ^ 1023 ->
  Z.abs (px (etop e) - px (ebot e)) <= 2 ^ 1023 -> Z.abs (py (etop e) - py (ebot e)) <= 2 ^ 1023 ->
  exists p, edge_and e o = Ok (Some p).
Proof.
  intros N (t0 & s0 & T & S & X & Y) B1 B2 B3 B4. rewrite edge_and_unfold by exact N.
  destruct (proj1 (lines_meet e o t0 s0 N) (conj X Y)) as (-> & ->).
  assert (F : forall a, (0 <= IZR a / IZR (determinant e o) <= 1)%R ->
    exists f, int_truediv a (determinant e o) = Ok f /\ f_in_01 f = true).
  { intros a H. destruct (truediv_spec a _ N) as [(_ & f & E & G & V & _)|(C & _)].
    - exists f. split; [exact E|]. apply good_01; [exact G|]. rewrite V. destruct H as (H1 & H2). apply rnd_le in H1, H2.
      rewrite rnd_0 in H1. rewrite (rnd_IZR_small 1) in H2 by lia. lra.
    - exfalso. apply C. apply in_range_small. rewrite Rabs_pos_eq by lra. apply Rle_trans with (bpow radix2 0); [apply H|apply bpow_le; lia]. }
  destruct (F _ S) as (s & -> & Is). destruct (F _ T) as (t & -> & It). cbn [rbind]. rewrite Is, It. cbn [andb].
  destruct (float_of_Z_ok _ B1) as (b1 & E1 & _). destruct (float_of_Z_ok _ B2) as (b2 & E2 & _).
  destruct (float_of_Z_ok _ B3) as (b3 & E3 & _). destruct (float_of_Z_ok _ B4) as (b4 & E4 & _).
  cbn [num_mul num_add num_arith num_to_float]. rewrite E3. cbn [rbind num_to_float num_arith]. rewrite E1. cbn [rbind]. rewrite E4. cbn [rbind num_to_float num_arith].
  rewrite E2. cbn [rbind]. eauto.
Qed.
