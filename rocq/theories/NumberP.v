(** * Positions on the scan line are numbers, also on horizontal edges *)
From Coq Require Import ZArith List Bool Lia Reals Lra.
From Coq Require Import Floats.SpecFloat.
From Verif Require Import Py Monad Utils Geometry LinearRingM BoundM SpecBounds FloatP PositionP PropOrigin.
Import ListNotations.
Open Scope Z_scope.

Lemma float_of_Z_nonzero z f : z <> 0 -> float_of_Z z = Ok f -> exists s m e, f = S754_finite s m e.
Proof.
  intros N E. destruct (float_of_Z_spec z) as [(_ & g & Eg & G & V & _)|(_ & E')]; [|congruence].
  assert (f = g) by congruence. subst g. destruct G as (Va & Fi). destruct f as [s|s| |s m e]; try discriminate; [|eauto].
  exfalso. change (val (S754_zero s)) with 0%R in V. assert (H : z <= -1 \/ 1 <= z) by lia. destruct H as [H|H]; apply IZR_le, rnd_le in H.
  - rewrite (rnd_IZR_small (-1)) in H by lia. lra.
  - rewrite (rnd_IZR_small 1) in H by lia. lra.
Qed.
Lemma current_x_number' e y x : well_made e -> get_current_x e y = Ok x -> f_is_nan x = false.
Proof.
  intros W E. destruct (is_horizontal e) eqn:Hh; [|eapply current_x_number; eassumption].
  pose proof W as (_ & _ & Ws). unfold get_current_x in E.
  destruct (Z.eqb_spec y (py (etop e))) as [Y|Y]; [apply good_number; eapply float_of_Z_good; exact E|].
  assert (Fl : py (etop e) = py (ebot e)) by (apply (well_made_flat e W); exact Hh).
  rewrite Fl, Z.eqb_refl in Ws.
  unfold num_mul, num_add, num_arith, num_to_float, rbind in E.
  destruct (float_of_Z (y - py (ebot e))) as [d| |] eqn:Ed; try discriminate.
  destruct (float_of_Z (px (ebot e))) as [b| |] eqn:Eb; try discriminate. injection E as <-.
  apply float_of_Z_good in Eb. apply float_of_Z_nonzero in Ed; [|lia]. destruct Ed as (t & m & k & ->). rewrite Ws.
  destruct Eb as (_ & Fb). destruct b as [b|b| |b mb kb]; try discriminate; destruct t; reflexivity.
Qed.
