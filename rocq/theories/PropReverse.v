(** * Property theorems: a ring written in the other direction (C59) *)
From Coq Require Import ZArith List Bool Lia.
From Verif Require Import Py Monad Utils Geometry LinearRingM BoundM LocalMinimumM StateM WagyuM SpecRing SpecReduce
     MiscP ListP ScanP LinearRingP LinearRing2P RingEdgesP AddRingP ReduceP ShapeP ReverseRingP PropShape.
Import ListNotations.
Open Scope Z_scope.

(** The edges of a ring written backwards, or of any ring of that shape, are the edges
    of the ring backwards, up to where they begin: in the other order and with the two
    ends of level edges exchanged ([backwards]); the other edges have no direction. *)
Theorem C59_a_ring_backwards_has_its_edges_backwards :
  forall r r' es es', same_shape (rev r) r' ->
  linear_ring_edges r = Ok es -> linear_ring_edges r' = Ok es' ->
  exists before after, es = before ++ after /\ es' = map backwards (rev (after ++ before)).
Proof. exact edges_reversed. Qed.
Print Assumptions C59_a_ring_backwards_has_its_edges_backwards.

(** Conversely, a ring whose edges are those of another ring backwards has the shape of
    the other ring backwards: *)
Theorem C59_backwards_edges_mean_a_backwards_ring :
  forall r r' es es', linear_ring_edges r = Ok es -> linear_ring_edges r' = Ok es' ->
  (same_shape (rev r) r' <-> exists before after, es = before ++ after /\ es' = map backwards (rev (after ++ before))).
Proof.
  intros r r' es es' E E'. split.
  - intros Sh. exact (edges_reversed r r' es es' Sh E E').
  - intros (a & b & -> & ->). exact (edges_reversed_back r r' a b E E').
Qed.
Print Assumptions C59_backwards_edges_mean_a_backwards_ring.

(** what [backwards] does: same line between the same two points, same slope *)
Theorem C59_backwards_exchanges_the_ends_of_level_edges :
  forall e, eslope (backwards e) = eslope e /\ backwards (backwards e) = e /\
  (py (etop e) <> py (ebot e) -> backwards e = e) /\
  (py (etop e) = py (ebot e) -> etop (backwards e) = ebot e /\ ebot (backwards e) = etop e).
Proof.
  intros [t b s]. unfold backwards. cbn [etop ebot eslope]. destruct (Z.eqb_spec (py t) (py b)) as [Q|Q]; cbn [etop ebot eslope].
  - rewrite (proj2 (Z.eqb_eq (py b) (py t))) by lia. repeat split; congruence.
  - rewrite (proj2 (Z.eqb_neq (py t) (py b))) by exact Q. repeat split; congruence.
Qed.
Print Assumptions C59_backwards_exchanges_the_ends_of_level_edges.

(** Hence adding a ring reports the same in either direction, for any two objects and
    kinds: a ring contributes if and only if it contributes backwards. *)
Lemma reports_edges w r kind b w1 : w_add_linear_ring w r kind = Ok (b, w1) -> exists es, linear_ring_edges r = Ok es /\ (b = false <-> es = []).
Proof.
  unfold w_add_linear_ring. intros A. pose proof (add_linear_ring_spec (w_minimums w) r kind) as Q.
  destruct (linear_ring_edges r) as [[|e es]|x|] eqn:E.
  - rewrite Q in A. injection A as <- _. exists []. tauto.
  - destruct Q as (L' & new & Q & _). rewrite Q in A. injection A as <- _. exists (e :: es). split; [reflexivity|]. split; discriminate.
  - destruct Q as (_ & Q). rewrite Q in A. discriminate.
  - contradiction.
Qed.
Theorem C59_direction_does_not_change_what_is_reported :
  forall w w' r r' kind kind' b b' w1 w1', same_shape (rev r) r' ->
  w_add_linear_ring w r kind = Ok (b, w1) -> w_add_linear_ring w' r' kind' = Ok (b', w1') -> b = b'.
Proof.
  intros w w' r r' kind kind' b b' w1 w1' Sh A A'.
  destruct (reports_edges _ _ _ _ _ A) as (es & E & H), (reports_edges _ _ _ _ _ A') as (es' & E' & H').
  destruct (edges_reversed r r' es es' Sh E E') as (x & y & -> & ->).
  assert (Q : b = false <-> b' = false).
  { rewrite H, H'. rewrite <- !length_zero_iff_nil, map_length, rev_length, !app_length. lia. }
  destruct b, b'; try reflexivity; destruct Q as (Q1 & Q2); [discriminate Q2|discriminate Q1]; reflexivity.
Qed.
Print Assumptions C59_direction_does_not_change_what_is_reported.

(** ** Example: a ring with a level side *)
Definition trapezium : linear_ring := [Pt 0 0; Pt 8 0; Pt 6 5; Pt 1 5].
Example C59_example :
  same_shape (rev trapezium) (rev trapezium) /\
  linear_ring_edges trapezium = Ok (edges_list (linear_ring_edges trapezium)) /\
  linear_ring_edges (rev trapezium) = Ok (edges_list (linear_ring_edges (rev trapezium))) /\
  length (edges_list (linear_ring_edges trapezium)) = 4%nat /\
  existsb (fun e => negb (point_eqb (ebot (backwards e)) (ebot e))) (edges_list (linear_ring_edges trapezium)) = true.
Proof.
  split; [exact (shape_start [] (rev trapezium)) || (rewrite <- (app_nil_r (rev trapezium)) at 2; exact (shape_start [] (rev trapezium)))|].
  repeat split; vm_compute; reflexivity.
Qed.
