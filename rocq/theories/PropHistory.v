(** * Property theorems: histories of calls (C13, C42)

    Read with SpecHistory.v ([built rv w rs]: [w] is the object after some sequence
    of completed calls on [Wagyu(rv)], [rs] the rings added since the last
    [clear]). *)
From Coq Require Import ZArith List Bool Lia FMapPositive.
From Verif Require Import Py Monad Utils Geometry LinearRingM BoundM LocalMinimumM StateM
     PointNodeM RingM SweepM TopologyM WagyuM SpecHistory HistoryP RunRelP.
Import ListNotations.
Open Scope Z_scope.

(** ** C13 *)
(** Whatever happened to an object before, after [clear] it accepts rings exactly as
    a new object with the same orientation flag does: the same calls return the same
    booleans or stop with the same exception, and afterwards every operation with
    every fill rule gives the same multipolygon or the same exception. *)
Theorem C13_clear_is_a_fresh_start :
  forall rv w rs0 rs, built rv w rs0 ->
  (forall fuel op sfk cfk, execute fuel (clear w) op sfk cfk = Ok ([], clear w)) /\
  match add_all (clear w) rs, add_all (new_wagyu rv) rs with
  | Ok (bs, w1), Ok (bs', w2) =>
      bs = bs' /\
      forall fuel op sfk cfk, answer (execute fuel w1 op sfk cfk) = answer (execute fuel w2 op sfk cfk)
  | Raise e, Raise e' => e = e'
  | NoFuel, NoFuel => True
  | _, _ => False
  end.
Proof.
  intros rv w rs0 rs B. split; [reflexivity|].
  pose proof (built_clear rv w rs0 B) as B1. pose proof (built_new rv) as B2.
  pose proof (twins_add_all rs _ _ (built_twins rv _ _ _ B1 B2)) as G.
  destruct (add_all (clear w) rs) as [[bs w1]| |] eqn:E1, (add_all (new_wagyu rv) rs) as [[bs' w2]| |] eqn:E2; try contradiction; auto.
  split; [exact G|]. intros fuel op sfk cfk. eapply execute_depends_on_rings.
  - eapply built_add_all; [exact B1|exact E1].
  - eapply built_add_all; [exact B2|exact E2].
Qed.
Print Assumptions C13_clear_is_a_fresh_start.

(** ** C42 *)
(** The answer of an operation is determined by the orientation flag, the rings
    added since the last [clear], the operation and the fill rules: two objects with
    other pasts (other rings cleared away, other operations executed, rings added one
    by one or as polygons) give the same answer. *)
Theorem C42_answer_depends_on_the_rings_only :
  forall rv w w' rs fuel op sfk cfk,
  built rv w rs -> built rv w' rs ->
  answer (execute fuel w op sfk cfk) = answer (execute fuel w' op sfk cfk).
Proof. intros. eapply execute_depends_on_rings; eauto. Qed.
Print Assumptions C42_answer_depends_on_the_rings_only.
(** in particular an executed object can be executed again, with any operation *)
Theorem C42_execute_again :
  forall rv w rs fuel op sfk cfk r w' fuel' op' sfk' cfk',
  built rv w rs -> execute fuel w op sfk cfk = Ok (r, w') ->
  answer (execute fuel' w' op' sfk' cfk') = answer (execute fuel' w op' sfk' cfk').
Proof. intros. eapply execute_depends_on_rings; [eapply built_execute; eauto|eassumption]. Qed.
Print Assumptions C42_execute_again.
(** and the working values a bound keeps from earlier sweeps, completed or not,
    whatever they are, play no role: only edges, winding delta, kind and maximum
    partner do *)
Theorem C42_working_values_play_no_role :
  forall rv w rs w' fuel op sfk cfk, built rv w rs ->
  w_reverse w' = w_reverse w ->
  lml_values (w_minimums w') = lml_values (w_minimums w) ->
  (forall i, let b := bget (lml_bounds (w_minimums w)) i in
             let b' := bget (lml_bounds (w_minimums w')) i in
     b_edges b' = b_edges b /\ b_wd b' = b_wd b /\ b_kind b' = b_kind b /\ b_max b' = b_max b) ->
  answer (execute fuel w' op sfk cfk) = answer (execute fuel w op sfk cfk).
Proof. intros. eapply execute_ignores_scratch; eauto. Qed.
Print Assumptions C42_working_values_play_no_role.

(** an object that has a past: other rings were added, executed and cleared, so its
    bounds have other identities; the answers are the same and not empty *)
Definition lower_ring : linear_ring := [Pt 0 0; Pt 6 0; Pt 3 3; Pt 0 0].
Definition upper_ring : linear_ring := [Pt 3 1; Pt 6 4; Pt 0 4; Pt 3 1].
Definition past (w : wagyu) : Prop :=
  exists w1 w2 w3 r b b',
    add_polygon (new_wagyu false) [[Pt 0 0; Pt 9 0; Pt 3 5]] SUBJECT = Ok (true, w1) /\
    execute 100 w1 UNION EVEN_ODD EVEN_ODD = Ok (r, w2) /\ r <> [] /\
    w_add_linear_ring (clear w2) lower_ring SUBJECT = Ok (b, w3) /\
    w_add_linear_ring w3 upper_ring CLIP = Ok (b', w).
Definition fresh (w : wagyu) : Prop :=
  exists w1 b b',
    w_add_linear_ring (new_wagyu false) lower_ring SUBJECT = Ok (b, w1) /\
    w_add_linear_ring w1 upper_ring CLIP = Ok (b', w).
Example C42_example :
  exists w w', past w /\ fresh w' /\
    built false w [(lower_ring, SUBJECT); (upper_ring, CLIP)] /\
    built false w' [(lower_ring, SUBJECT); (upper_ring, CLIP)] /\
    map lm_left (lml_values (w_minimums w)) <> map lm_left (lml_values (w_minimums w')) /\
    answer (execute 100 w XOR EVEN_ODD EVEN_ODD) = answer (execute 100 w' XOR EVEN_ODD EVEN_ODD) /\
    exists m, answer (execute 100 w' XOR EVEN_ODD EVEN_ODD) = Ok m /\ m <> [].
Proof.
  assert (A : exists w w1 w2 w3 r b b',
    add_polygon (new_wagyu false) [[Pt 0 0; Pt 9 0; Pt 3 5]] SUBJECT = Ok (true, w1) /\
    execute 100 w1 UNION EVEN_ODD EVEN_ODD = Ok (r, w2) /\ r <> [] /\
    w_add_linear_ring (clear w2) lower_ring SUBJECT = Ok (b, w3) /\
    w_add_linear_ring w3 upper_ring CLIP = Ok (b', w) /\ map lm_left (lml_values (w_minimums w)) = [4; 6]%positive).
  { do 7 eexists. split; [vm_compute; reflexivity|]. split; [vm_compute; reflexivity|]. split; [discriminate|].
    split; [vm_compute; reflexivity|]. split; [vm_compute; reflexivity|]. vm_compute. reflexivity. }
  assert (A' : exists w' w1 b b' m,
    w_add_linear_ring (new_wagyu false) lower_ring SUBJECT = Ok (b, w1) /\
    w_add_linear_ring w1 upper_ring CLIP = Ok (b', w') /\ map lm_left (lml_values (w_minimums w')) = [2; 4]%positive /\
    answer (execute 100 w' XOR EVEN_ODD EVEN_ODD) = Ok m /\ m <> []).
  { do 5 eexists. split; [vm_compute; reflexivity|]. split; [vm_compute; reflexivity|]. split; [vm_compute; reflexivity|].
    split; [vm_compute; reflexivity|]. discriminate. }
  destruct A as (w & w1 & w2 & w3 & r & b & b' & E1 & E2 & Nr & E3 & E4 & I1), A' as (w' & u1 & c & c' & m & F1 & F2 & I2 & Em & Nm).
  assert (B : built false w [(lower_ring, SUBJECT); (upper_ring, CLIP)]).
  { apply (built_ring false w3 [(lower_ring, SUBJECT)] upper_ring CLIP b' w); [|exact E4].
    apply (built_ring false (clear w2) [] lower_ring SUBJECT b w3); [|exact E3]. eapply built_clear, built_execute; [|exact E2].
    eapply built_polygon; [apply built_new|exact E1]. }
  assert (B' : built false w' [(lower_ring, SUBJECT); (upper_ring, CLIP)]).
  { apply (built_ring false u1 [(lower_ring, SUBJECT)] upper_ring CLIP c' w'); [|exact F2].
    apply (built_ring false (new_wagyu false) [] lower_ring SUBJECT c u1); [|exact F1]. apply built_new. }
  exists w, w'. split; [exists w1, w2, w3, r, b, b'; auto|]. split; [exists u1, c, c'; auto|].
  split; [exact B|]. split; [exact B'|]. split; [rewrite I1, I2; discriminate|]. split; [eapply execute_depends_on_rings; eauto|].
  exists m. auto.
Qed.
