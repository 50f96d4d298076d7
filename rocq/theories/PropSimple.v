(** * Property theorems: rings do not touch themselves (C48)

    Read with SpecHeap.v ([circle]), SpecRings.v ([well_ringed]) and SpecNest.v
    ([outline_of]: the points of a ring in order, starting at its first vertex). *)
From Coq Require Import ZArith List Bool Lia FMapPositive Permutation.
From Verif Require Import Py Monad Utils Geometry LinearRingM BoundM LocalMinimumM StateM
     PointNodeM RingM SweepM TopologyM WagyuM SpecRing SpecHeap SpecRings SpecTree CircleP HoareP CalmP VatP
     NodeFrameP RingedP RingedTreeP NestP NestTreeP OrientP KeepOrderP MarkP SimpleP PropRinged PropNest SpecNest.
Import ListNotations.
Open Scope Z_scope.

(** ** C48 *)
(** The correction of self intersections: if the rings marked as corrected visit every
    point at most once beforehand (in particular if no ring is marked), all rings do
    so afterwards, the ones cut off in the process included. *)
Theorem C48_no_ring_visits_a_point_twice :
  forall fuel correct_tree s again s', well_ringed s ->
  (forall r vs, r_corrected (ring_at s r) = true -> outline_of s r vs -> NoDup vs) ->
  correct_self_intersections fuel correct_tree s = Ok (again, s') ->
  forall r vs, outline_of s' r vs -> NoDup vs.
Proof.
  intros fuel b s x s' W H E r vs O. destruct (self_clean fuel b s x s' W H E) as (W' & K).
  destruct (K r) as [C|[F|([] & _)]]; [exact (clean_outline s' r vs W' C O)|]. destruct O as (n & l & F' & _). congruence.
Qed.
Print Assumptions C48_no_ring_visits_a_point_twice.

(** No step before marks a ring, and the correction of the tree changes no outline:
    whatever the polygons were, after the sweep and the corrections up to the tree no
    ring visits a point twice. *)
Lemma init_unmarked bounds r : r_corrected (ring_at (init_st bounds) r) = false.
Proof. unfold ring_at, init_st, hget. cbn. destruct r; reflexivity. Qed.
Theorem C48_rings_are_simple_after_the_sweep :
  forall fuel op sfk cfk minimums bounds s',
  upto_tree fuel op sfk cfk minimums (init_st bounds) = Ok (tt, s') ->
  forall r vs, outline_of s' r vs -> NoDup vs.
Proof.
  intros fuel op sfk cfk minimums bounds s' E. unfold upto_tree in E.
  inv_bind E u0 sa Ea. destruct u0. inv_bind E u1 sb Eb. destruct u1.
  assert (Wb : well_ringed sb).
  { apply (C45_rings_are_whole_after_the_sweep fuel op sfk cfk minimums bounds). unfold bind. rewrite Ea. exact Eb. }
  inv_bind E u2 sc Ec. pose proof (kw_sort_all fuel _ _ _ Ec Wb) as Wc. inv_bind E u3 sd Ed.
  destruct (orientations_order fuel sc _ sd Wc Ed) as (Id & _). inv_bind E u4 se Ee.
  pose proof (collinear_order fuel _ _ _ Id Ee) as Ie. inv_bind E u5 sf Ef.
  pose proof (self_order fuel _ _ _ Ie Ef) as If.
  assert (M : fewer (init_st bounds) se).
  { eapply R_trans; [exact (nf_build_hot_pixels fewer _ _ _ _ _ Ea)|]. eapply R_trans; [exact (mk_execute_vatti _ _ _ _ _ _ _ _ Eb)|].
    eapply R_trans; [exact (nf_sort_all_nodes fewer _ _ _ _ Ec)|]. eapply R_trans; [exact (mk_correct_orientations _ _ _ _ Ed)|]. exact (mk_collinear _ _ _ _ Ee). }
  assert (S : forall r vs, outline_of sf r vs -> NoDup vs).
  { apply (C48_no_ring_visits_a_point_twice fuel false se u5 sf (proj1 Ie)); [|exact Ef]. intros r vs K _. apply M in K. rewrite init_unmarked in K. discriminate. }
  destruct (tree_nests fuel sf tt s' If E) as (I' & RN & order & P & _ & A & B & C & D).
  intros r vs O. pose proof O as (n' & l' & F' & C' & EV).
  destruct (first_of sf r) as [n|] eqn:F; [|rewrite (A r F) in F'; discriminate].
  destruct (well_at sf n r (proj1 If) (wr_first sf (proj1 If) r n F)) as (m & Cm & _).
  assert (O0 : outline_of sf r (vertices sf (n :: m))) by (exists n, m; auto).
  destruct (Z.eq_dec (area2 (vertices sf (n :: m))) 0) as [Z0|Z0]; [rewrite (B _ _ O0 Z0) in F'; discriminate|].
  destruct (C _ _ O0 Z0) as ((j & k & Fj & Cj & Ej) & _). rewrite F' in Fj. injection Fj as <-.
  rewrite EV, (circle_unique _ _ _ _ C' Cj), <- Ej. exact (S r _ O0).
Qed.
Print Assumptions C48_rings_are_simple_after_the_sweep.

(** ** Example *)
(** a square with a triangular pocket that touches the upper side: after the sweep
    there is one ring that visits (6, 12) twice; it is not marked, and it is cut into a
    square and a triangle, which hangs below it *)
Definition pocket : res wagyu :=
  ('(_, w) <- add_polygon (new_wagyu false)
      [[Pt 0 0; Pt 12 0; Pt 12 12; Pt 6 12; Pt 9 6; Pt 3 6; Pt 6 12; Pt 0 12; Pt 0 0]] SUBJECT ;; Ok w)%res.
Definition swept_pocket : res (unit * st) :=
  match pocket with
  | Ok w => (build_hot_pixels 100 (lml_values (w_minimums w)) ;;
             execute_vatti 100 UNION EVEN_ODD EVEN_ODD (lml_values (w_minimums w)))%M (init_st (lml_bounds (w_minimums w)))
  | Raise e => Raise e
  | NoFuel => NoFuel
  end.
Definition nested_pocket : res (unit * st) :=
  match pocket with
  | Ok w => upto_tree 100 UNION EVEN_ODD EVEN_ODD (lml_values (w_minimums w)) (init_st (lml_bounds (w_minimums w)))
  | Raise e => Raise e
  | NoFuel => NoFuel
  end.
Example C48_example :
  shown swept_pocket = Some
    [(1%positive, None, []);
     (2%positive, None, [Pt 12 0; Pt 0 0; Pt 0 12; Pt 6 12; Pt 3 6; Pt 9 6; Pt 6 12; Pt 12 12])] /\
  shown nested_pocket = Some
    [(1%positive, None, []);
     (2%positive, None, [Pt 6 12; Pt 12 12; Pt 12 0; Pt 0 0; Pt 0 12]);
     (3%positive, Some 2%positive, [Pt 6 12; Pt 3 6; Pt 9 6])].
Proof. vm_compute. split; reflexivity. Qed.
