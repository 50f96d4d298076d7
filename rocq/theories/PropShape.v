(** * Property theorems: the edges of a ring are its shape, no less and no more (C57)

    [same_shape] (SpecReduce.v): one list of points can be turned into the other by
    starting elsewhere and by leaving out or adding points that lie on the line through
    their two neighbours in the closed chain. *)
From Coq Require Import ZArith List Bool Lia.
From Verif Require Import Py Monad Utils Geometry LinearRingM BoundM LocalMinimumM StateM
     PointNodeM RingM SweepM TopologyM WagyuM SpecRing SpecReduce SpecHistory HistoryP RunRelP MiscP ListP ScanP LinearRingP LinearRing2P
     RingEdgesP RepeatP ReduceP ShapeP PropWritten.
Import ListNotations.
Open Scope Z_scope.

(** Two rings have the same edges, in the same cyclic order, if and only if they are of
    the same shape. *)
Theorem C57_the_edges_are_the_shape :
  forall r r' es es', linear_ring_edges r = Ok es -> linear_ring_edges r' = Ok es' ->
  (same_shape r r' <-> exists before after, es = before ++ after /\ es' = after ++ before).
Proof.
  intros r r' es es' E E'. split.
  - intros Sh. exact (edges_shape r r' es es' Sh E E').
  - intros (a & b & -> & ->). exact (edges_shape_back r r' a b E E').
Qed.
Print Assumptions C57_the_edges_are_the_shape.

(** There are no edges if and only if all points can be left out one after another, *)
Theorem C57_flat_rings_have_no_edges :
  forall r es, linear_ring_edges r = Ok es -> (es = [] <-> same_shape r []).
Proof.
  intros r es E. rewrite (C57_the_edges_are_the_shape r [] es [] E eq_refl). split.
  - intros ->. exists [], []. auto.
  - intros (a & b & -> & Q). symmetry in Q. apply app_eq_nil in Q. destruct Q as (-> & ->). reflexivity.
Qed.
Print Assumptions C57_flat_rings_have_no_edges.

(** and otherwise the edges are, in order, those of a ring of the same shape from which
    no point can be left out; up to its first point there is only one such ring. *)
Definition reduced (vs : list point) : Prop :=
  (3 <= length vs)%nat /\ Forall (fun '(a, b, c) => ~ on_line a b c) (cyclic_triples vs).
Lemma reduced_normal vs : reduced vs -> normal vs.
Proof.
  intros (L & T). apply ring_normal; [exact L|]. revert T. apply Forall_impl. intros ((a & b) & c) H. exact H.
Qed.
Theorem C57_the_edges_are_those_of_the_reduced_ring :
  forall r es, linear_ring_edges r = Ok es -> es <> [] ->
  exists vs, same_shape r vs /\ reduced vs /\ outline vs es /\
    forall vs', same_shape r vs' -> reduced vs' -> exists before after, vs = before ++ after /\ vs' = after ++ before.
Proof.
  intros r es E N. destruct (edges_steps r es E) as [(-> & _)|(vs & G & St)]; [contradiction|].
  pose proof G as (L & F & _ & T & _). exists vs. split; [apply steps_shape, St|].
  assert (Rd : reduced vs). { split; [exact L|]. revert T. apply Forall_impl. intros ((a & b) & c) H. exact H. }
  split; [exact Rd|]. split.
  - unfold outline. clear - F. induction F as [|(a & b) e ps es H _ IH]; constructor; [|exact IH].
    cbn [fst snd] in H. destruct (mk_edge_orient _ _ _ H) as (O1 & O2). unfold joins.
    destruct (Z.lt_ge_cases (py a) (py b)) as [C|C].
    + destruct (O1 C) as (-> & ->). split; [auto|]. apply Z.lt_le_incl, C.
    + destruct (O2 C) as (-> & ->). split; [auto|exact C].
  - intros vs' Sh Rd'. apply (shape_normal r vs' Sh vs vs' St (reduced_normal _ Rd) (steps_refl _) (reduced_normal _ Rd')).
Qed.
Print Assumptions C57_the_edges_are_those_of_the_reduced_ring.

(** Rings that can be reduced to nothing play no role in any answer. *)
Theorem C57_flat_rings_play_no_role :
  forall rv w w' rs r kind rs' fuel op sfk cfk,
  built rv w (rs ++ (r, kind) :: rs') -> built rv w' (rs ++ rs') -> same_shape r [] ->
  answer (execute fuel w op sfk cfk) = answer (execute fuel w' op sfk cfk).
Proof.
  intros rv w w' rs r kind rs' fuel op sfk cfk B B' Sh. apply (C56_refused_rings_play_no_role rv w w' rs r kind rs' fuel op sfk cfk B B').
  destruct (linear_ring_edges r) as [es|e|] eqn:E.
  - assert (es = []) as -> by (apply (C57_flat_rings_have_no_edges r es E), Sh).
    exists (new_wagyu false), SUBJECT, (new_wagyu false). unfold w_add_linear_ring, add_linear_ring. rewrite E. reflexivity.
  - exfalso. apply tracks_built in B. destruct B as ((d & L & Hp & _) & _). rewrite plain_app in Hp.
    destruct (plain empty_lm_list rs) as [L1| |]; cbn [rbind plain] in Hp; try discriminate.
    unfold add_linear_ring in Hp. rewrite E in Hp. discriminate.
  - exfalso. pose proof (edges_result r) as Q. rewrite E in Q. exact Q.
Qed.
Print Assumptions C57_flat_rings_play_no_role.

(** ** Example: a triangle with a point within a side, a spike with a bend back, and
    repetitions, started on a side *)
Definition plain_triangle : linear_ring := [Pt 6 0; Pt 0 6; Pt 0 0].
Definition decorated_triangle : linear_ring :=
  [Pt 3 0; Pt 6 0; Pt 9 (-3); Pt 12 (-6); Pt 12 (-6); Pt 6 0; Pt 4 2; Pt 0 6; Pt 0 6; Pt 0 0; Pt 1 0].
Lemma drop_at a x b : on_line (last (b ++ a) x) x (hd x (b ++ a)) -> same_shape (a ++ x :: b) (a ++ b).
Proof.
  intros H. eapply shape_chain; [apply shape_start|]. cbn [app]. eapply shape_chain; [apply (shape_drop x (b ++ a) H)|]. apply shape_start.
Qed.
Lemma decorated_shape : same_shape decorated_triangle plain_triangle.
Proof.
  eapply shape_chain; [apply (drop_at [] (Pt 3 0)); reflexivity|]. cbn [app].
  eapply shape_chain; [apply (drop_at [Pt 6 0] (Pt 9 (-3))); reflexivity|]. cbn [app].
  eapply shape_chain; [apply (drop_at [Pt 6 0] (Pt 12 (-6))); reflexivity|]. cbn [app].
  eapply shape_chain; [apply (drop_at [Pt 6 0] (Pt 12 (-6))); reflexivity|]. cbn [app].
  eapply shape_chain; [apply (drop_at [Pt 6 0] (Pt 6 0)); reflexivity|]. cbn [app].
  eapply shape_chain; [apply (drop_at [Pt 6 0] (Pt 4 2)); reflexivity|]. cbn [app].
  eapply shape_chain; [apply (drop_at [Pt 6 0] (Pt 0 6)); reflexivity|]. cbn [app].
  eapply shape_chain; [apply (drop_at [Pt 6 0; Pt 0 6; Pt 0 0] (Pt 1 0)); reflexivity|]. cbn [app].
  exact (shape_start [] [Pt 6 0; Pt 0 6; Pt 0 0]).
Qed.
Definition edges_list (r : res (list edge)) : list edge := match r with Ok es => es | _ => [] end.
Example C57_example :
  same_shape decorated_triangle plain_triangle /\
  linear_ring_edges decorated_triangle = Ok (edges_list (linear_ring_edges decorated_triangle)) /\
  linear_ring_edges plain_triangle = Ok (edges_list (linear_ring_edges plain_triangle)) /\
  length (edges_list (linear_ring_edges decorated_triangle)) = 3%nat /\
  edges_list (linear_ring_edges decorated_triangle) <> edges_list (linear_ring_edges plain_triangle).
Proof. split; [exact decorated_shape|]. split; [vm_compute; reflexivity|]. split; [vm_compute; reflexivity|]. split; [vm_compute; reflexivity|]. vm_compute. discriminate. Qed.
(** a flat ring, and a ring that winds twice round the triangle: not the same shape *)
Example C57_flat_example : same_shape [Pt 0 0; Pt 6 0; Pt 6 6; Pt 6 0] [].
Proof.
  eapply shape_chain; [apply (drop_at [Pt 0 0; Pt 6 0] (Pt 6 6)); reflexivity|]. cbn [app].
  eapply shape_chain; [apply (drop_at [Pt 0 0; Pt 6 0] (Pt 6 0)); reflexivity|]. cbn [app].
  eapply shape_chain; [apply (drop_at [Pt 0 0] (Pt 6 0)); reflexivity|]. cbn [app].
  apply (drop_at [] (Pt 0 0)). reflexivity.
Qed.
Example C57_twice_round : ~ same_shape (plain_triangle ++ plain_triangle) plain_triangle.
Proof.
  intros Sh. destruct (proj1 (C57_the_edges_are_the_shape (plain_triangle ++ plain_triangle) plain_triangle
    (edges_list (linear_ring_edges (plain_triangle ++ plain_triangle))) (edges_list (linear_ring_edges plain_triangle))
    ltac:(vm_compute; reflexivity) ltac:(vm_compute; reflexivity)) Sh) as (a & b & E & E').
  apply (f_equal (@length _)) in E, E'. rewrite app_length in E, E'. vm_compute in E. vm_compute in E'.
  assert (Q : (6 = 3)%nat) by (rewrite E, E'; apply PeanoNat.Nat.add_comm). discriminate.
Qed.
