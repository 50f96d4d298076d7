(** * Property theorems: executions as a whole (C37, C41) *)
From Coq Require Import ZArith List Bool Lia FMapPositive.
From Verif Require Import Py Monad Utils Geometry LinearRingM BoundM LocalMinimumM StateM
     PointNodeM RingM SweepM TopologyM WagyuM Examples FuelP.
Import ListNotations.
Local Open Scope Z_scope.

(** ** C41: the outcome of [execute] is determined.  [NoFuel] stands for "still
    running after so many steps"; a result or an exception, once reached, is the
    same for every larger bound, so an execution has at most one outcome. *)
Theorem C41_execute_has_one_outcome :
  forall fuel1 fuel2 w op sfk cfk,
  execute fuel1 w op sfk cfk <> NoFuel -> execute fuel2 w op sfk cfk <> NoFuel ->
  execute fuel1 w op sfk cfk = execute fuel2 w op sfk cfk.
Proof. exact execute_fuel_irrelevant. Qed.
Print Assumptions C41_execute_has_one_outcome.
Theorem C41_more_steps_keep_the_outcome :
  forall fuel1 fuel2 w op sfk cfk, (fuel1 <= fuel2)%nat ->
  execute fuel1 w op sfk cfk <> NoFuel ->
  execute fuel2 w op sfk cfk = execute fuel1 w op sfk cfk.
Proof. intros f1 f2 w op sfk cfk L N. destruct (fuel_execute _ _ L op sfk cfk w); congruence. Qed.
Print Assumptions C41_more_steps_keep_the_outcome.
Example C41_example : exists b1 b2 w r w', ex_wagyu = Ok (b1, b2, w) /\
  execute 3 w XOR EVEN_ODD EVEN_ODD = NoFuel /\
  execute 100 w XOR EVEN_ODD EVEN_ODD = Ok (r, w') /\ length r = 2%nat /\
  execute 1000 w XOR EVEN_ODD EVEN_ODD = Ok (r, w').
Proof.
  do 5 eexists. split; [vm_compute; reflexivity|]. split; [vm_compute; reflexivity|].
  split; [vm_compute; reflexivity|]. split; [reflexivity|]. vm_compute. reflexivity.
Qed.

(** ** C37 is false of the code: there are valid polygons with small coordinates
    on which [symmetric_subtract] raises, however many steps it is given, and an
    exception is the only outcome it can have. *)
Definition bad_subject : polygon :=
  [[Pt 3 3; Pt 3 1; Pt 0 0; Pt 3 0; Pt 3 3];
   [Pt 0 3; Pt 0 2; Pt 1 2; Pt 3 0; Pt 3 3; Pt 2 0; Pt 0 3]].
Definition bad_clip : polygon := [[Pt 2 2; Pt 3 2; Pt 1 2; Pt 0 3; Pt 2 0; Pt 2 2]].
Theorem C37_execute_never_fails_refuted :
  exists w1 w2,
    add_polygon (new_wagyu false) bad_subject SUBJECT = Ok (true, w1) /\
    add_polygon w1 bad_clip CLIP = Ok (true, w2) /\
    (forall fuel, execute fuel w2 XOR NON_ZERO POSITIVE = NoFuel \/
                  execute fuel w2 XOR NON_ZERO POSITIVE = Raise (RuntimeError HoleWithoutParent)) /\
    (forall fuel, (200 <= fuel)%nat ->
                  execute fuel w2 XOR NON_ZERO POSITIVE = Raise (RuntimeError HoleWithoutParent)).
Proof.
  do 2 eexists. split; [vm_compute; reflexivity|]. split; [vm_compute; reflexivity|].
  match goal with |- (forall fuel, execute fuel ?w _ _ _ = _ \/ _) /\ _ => set (w0 := w) end.
  assert (E : execute 200 w0 XOR NON_ZERO POSITIVE = Raise (RuntimeError HoleWithoutParent)) by (vm_compute; reflexivity).
  clearbody w0. split.
  - intros fuel. destruct (Nat.le_ge_cases fuel 200) as [L|L].
    + destruct (fuel_execute _ _ L XOR NON_ZERO POSITIVE w0) as [H|H]; [left; exact H|right; congruence].
    + destruct (fuel_execute _ _ L XOR NON_ZERO POSITIVE w0) as [H|H]; [congruence|right; congruence].
  - intros fuel L. destruct (fuel_execute _ _ L XOR NON_ZERO POSITIVE w0) as [H|H]; congruence.
Qed.
Print Assumptions C37_execute_never_fails_refuted.
