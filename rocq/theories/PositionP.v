(** * Positions on the scan line can always be compared *)
From Coq Require Import ZArith List Bool Lia Reals.
From Coq Require Import Floats.SpecFloat.
From Verif Require Import Py Monad Utils Geometry LinearRingM BoundM SpecBounds FloatP.
Import ListNotations.
Open Scope Z_scope.

Lemma float_of_Z_good z f : float_of_Z z = Ok f -> good f.
Proof.
  intros E. destruct (float_of_Z_spec z) as [(_ & g & Eg & G & _)|(_ & E')]; [|congruence].
  assert (f = g) by congruence. subst g. exact G.
Qed.
Lemma good_number f : good f -> f_is_nan f = false.
Proof. intros (_ & F). destruct f; try discriminate; reflexivity. Qed.
Lemma rounded_cases x s f : rounded x s f -> good f \/ exists b, f = S754_infinity b.
Proof. intros [(_ & G & _)|(_ & ->)]; eauto. Qed.
Lemma current_x_number e y x : well_made e -> is_horizontal e = false -> get_current_x e y = Ok x -> f_is_nan x = false.
Proof.
  intros (_ & _ & W) Hh E. unfold get_current_x in E.
  destruct (y =? py (etop e)); [apply good_number; eapply float_of_Z_good; exact E|].
  assert (Gs : good (eslope e)).
  { destruct (Z.eqb_spec (py (etop e)) (py (ebot e))) as [Ey|Ey].
    - unfold is_horizontal in Hh. rewrite W in Hh. discriminate.
    - destruct (truediv_cases (px (etop e) - px (ebot e)) (py (etop e) - py (ebot e))) as [(f & Ef & Gf)|Ef]; [lia| |congruence].
      assert (f = eslope e) by congruence. subst f. exact Gf. }
  unfold num_mul, num_add, num_arith, num_to_float, rbind in E.
  destruct (float_of_Z (y - py (ebot e))) as [d| |] eqn:Ed; try discriminate.
  destruct (float_of_Z (px (ebot e))) as [b| |] eqn:Eb; try discriminate. injection E as <-.
  apply float_of_Z_good in Ed, Eb. destruct (rounded_cases _ _ _ (fmul_spec _ _ Gs Ed)) as [G|(t & ->)].
  - destruct (fadd_spec b _ Eb G) as (s & Hs). eapply rounded_not_nan. exact Hs.
  - destruct Eb as (_ & Fb). destruct b; try discriminate; reflexivity.
Qed.
(** two floats that are numbers are comparable *)
Lemma SFcompare_total f g : f_is_nan f = false -> f_is_nan g = false ->
  exists c, SFcompare f g = Some c /\ SFcompare g f = Some (CompOpp c).
Proof.
  intros Hf Hg. destruct f as [a|a| |a m e], g as [b|b| |b n d]; try discriminate; cbn [SFcompare];
    try (destruct a; try destruct b; eexists; split; reflexivity).
  destruct a, b; try (eexists; split; reflexivity).
  - rewrite (Z.compare_antisym e d). destruct (e ?= d); cbn [CompOpp]; try (eexists; split; reflexivity).
    change (Pos.compare_cont Eq n m) with (Pos.compare n m). rewrite (Pos.compare_antisym m n).
    change (Pos.compare_cont Eq m n) with (Pos.compare m n).
    eexists; split; reflexivity.
  - rewrite (Z.compare_antisym e d). destruct (e ?= d); cbn [CompOpp]; try (eexists; split; reflexivity).
    change (Pos.compare_cont Eq n m) with (Pos.compare n m). rewrite (Pos.compare_antisym m n).
    change (Pos.compare_cont Eq m n) with (Pos.compare m n).
    eexists; split; reflexivity.
Qed.
Lemma leb_total f g : f_is_nan f = false -> f_is_nan g = false ->
  num_leb (NF f) (NF g) = true \/ num_leb (NF g) (NF f) = true.
Proof.
  intros Hf Hg. destruct (SFcompare_total f g Hf Hg) as (c & E1 & E2). unfold num_leb. cbn [num_compare].
  rewrite E1, E2. destruct c; auto.
Qed.
