(** * Property theorems: the [Wagyu] object (C01, C02, C14)

    Only statements; every proof is [exact] of a lemma or a computation. *)
From Coq Require Import ZArith List Bool Lia FMapPositive.
From Coq Require Import Floats.SpecFloat.
From Verif Require Import Py Monad Utils Spec Geometry LinearRingM BoundM LocalMinimumM StateM
     PointNodeM RingM SweepM TopologyM WagyuM Examples SweepFrameP ApiP.
Import ListNotations.
Local Open Scope Z_scope.

(** ** C01 *)
(** For every history of calls in which nothing contributed since the creation
    or the last [clear], every operation returns the empty multipolygon, raises
    nothing and leaves the object as it was. *)
Theorem C01_execute_without_contributing_rings :
  forall rv w, history rv w false ->
  forall fuel op sfk cfk, execute fuel w op sfk cfk = Ok ([], w).
Proof. exact execute_nothing. Qed.
Print Assumptions C01_execute_without_contributing_rings.
(** As soon as one ring contributed the sweep is run on the recorded minima. *)
Theorem C01_execute_with_contributing_rings :
  forall rv w, history rv w true ->
  forall fuel op sfk cfk,
  execute fuel w op sfk cfk =
  match run fuel op sfk cfk rv (lml_values (w_minimums w))
            (init_st (lml_bounds (w_minimums w))) with
  | Ok (r, s) => Ok (r, Wagyu (LML (lml_values (w_minimums w)) (s_bounds s)
                                   (lml_next (w_minimums w))) rv)
  | Raise e => Raise e
  | NoFuel => NoFuel
  end.
Proof. exact execute_something. Qed.
Print Assumptions C01_execute_with_contributing_rings.
Example C01_example :
  (exists w, w_add_linear_ring (new_wagyu true) [Pt 0 0; Pt 1 1; Pt 2 2] CLIP = Ok (false, w) /\
             history true w false) /\
  (exists w1 w2, add_polygon (new_wagyu false) lower_triangle SUBJECT = Ok (true, w1) /\
                 history false w1 true /\ clear w1 = w2 /\ history false w2 false).
Proof.
  assert (A : exists w, w_add_linear_ring (new_wagyu true) [Pt 0 0; Pt 1 1; Pt 2 2] CLIP = Ok (false, w))
    by (eexists; vm_compute; reflexivity).
  assert (B : exists w, add_polygon (new_wagyu false) lower_triangle SUBJECT = Ok (true, w))
    by (eexists; vm_compute; reflexivity).
  destruct A as (w & A). destruct B as (w1 & B).
  pose proof (h_ring _ _ _ _ _ _ _ (h_new true) A) as HA.
  pose proof (h_polygon _ _ _ _ _ _ _ (h_new false) B) as HB.
  split; [exists w; auto|]. exists w1, (clear w1). repeat split; auto.
  eapply h_clear. exact HB.
Qed.

(** ** C02 *)
(** [add_polygon] leaves the object in the state that adding the rings one after
    the other leaves it in, and returns whether one of those calls returned True;
    if one of them raises, so does [add_polygon]. *)
Theorem C02_add_polygon_is_the_sequence_of_its_rings :
  forall w p kind,
  add_polygon w p kind =
  match add_rings w p kind with
  | Ok (bs, w') => Ok (existsb (fun b => b) bs, w')
  | Raise e => Raise e
  | NoFuel => NoFuel
  end.
Proof. exact add_polygon_rings. Qed.
Print Assumptions C02_add_polygon_is_the_sequence_of_its_rings.
Theorem C02_empty_polygon_changes_nothing :
  forall w kind, add_polygon w [] kind = Ok (false, w).
Proof. reflexivity. Qed.
Print Assumptions C02_empty_polygon_changes_nothing.
(** ... and a polygon for which it returns False changes nothing *)
Theorem C02_false_changes_nothing :
  forall w p kind w', add_polygon w p kind = Ok (false, w') -> w' = w.
Proof. exact add_polygon_false. Qed.
Print Assumptions C02_false_changes_nothing.
Example C02_example :
  exists w', add_polygon (new_wagyu false) [[Pt 0 0; Pt 1 1; Pt 2 2]; [Pt 0 0; Pt 6 0; Pt 3 3]] SUBJECT
             = Ok (true, w') /\ length (lml_values (w_minimums w')) = 1%nat.
Proof. eexists. split; vm_compute; reflexivity. Qed.

(** ** C14 *)
(** A completed [execute] keeps the orientation flag, the list of minima, and of
    every bound the edges, winding delta, polygon kind and maximum partner. *)
Theorem C14_execute_keeps_its_input :
  forall fuel w op sfk cfk r w',
  execute fuel w op sfk cfk = Ok (r, w') ->
  w_reverse w' = w_reverse w /\
  lml_values (w_minimums w') = lml_values (w_minimums w) /\
  forall i,
  let old := bget (lml_bounds (w_minimums w)) i in
  let new := bget (lml_bounds (w_minimums w')) i in
  b_edges new = b_edges old /\ b_wd new = b_wd old /\
  b_kind new = b_kind old /\ b_max new = b_max old.
Proof. exact execute_keeps_input. Qed.
Print Assumptions C14_execute_keeps_its_input.
(** the scratch fields do change *)
Example C14_example :
  exists w r w', ex_wagyu = Ok (true, true, w) /\ unite 100 w EVEN_ODD EVEN_ODD = Ok (r, w') /\
                 r <> [] /\
                 b_wc (bget (lml_bounds (w_minimums w')) 1) <> b_wc (bget (lml_bounds (w_minimums w)) 1).
Proof. do 3 eexists. split; [vm_compute; reflexivity|]. split; [vm_compute; reflexivity|].
  split; vm_compute; congruence. Qed.
