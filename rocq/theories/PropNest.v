(** * Property theorems: rings inside rings (C47)

    Read with SpecHeap.v ([circle]), SpecRings.v ([well_ringed]), SpecTree.v
    ([parent_of]) and SpecNest.v ([outline_of], [exterior], [hole], [depth],
    [up_to_date], [placed]). *)
From Coq Require Import ZArith List Bool Lia FMapPositive Permutation Sorting.Sorted Reals.
From Verif Require Import Py Monad Utils Geometry LinearRingM BoundM LocalMinimumM StateM
     PointNodeM RingM SweepM TopologyM WagyuM SpecRing SpecHeap SpecRings SpecTree CircleP HoareP CalmP VatP
     RingedP RingedTreeP NestP NestTreeP OrientP KeepOrderP PropRinged Examples SpecNest.
Import ListNotations.
Open Scope Z_scope.

(** ** C47 *)
(** Orientation: after the correction of orientations every ring with fewer than three
    vertices has lost its points, and every other ring is the same ring or the same
    ring run backwards, such that (unless its area is zero) it is an exterior ring
    when it is an even number of steps below the top of the ring tree and a hole when
    it is an odd number of steps below.  No ring is hung elsewhere, and what is stored
    about the rings is measured on the rings as they are now. *)
Theorem C47_rings_are_turned_by_depth :
  forall fuel s s', well_ringed s ->
  correct_orientations fuel s = Ok (tt, s') ->
  well_ringed s' /\ up_to_date s' /\ all_measured s' /\
  (forall r, parent_of s' r = parent_of s r) /\
  (forall r, ~ has_points s r -> ~ has_points s' r) /\
  (forall r vs, outline_of s r vs -> (length vs < 3)%nat -> ~ has_points s' r) /\
  (forall r p l, outline_of s r (p :: l) -> (3 <= length (p :: l))%nat ->
    exists d, depth s r d /\
      (outline_of s' r (p :: l) \/ outline_of s' r (p :: rev l)) /\
      (area2 (p :: l) = 0 \/ if Nat.odd d then hole s' r else exterior s' r)).
Proof.
  intros fuel s s' W E. destruct (orientations_order fuel s tt s' W E) as ((W' & U) & A).
  destruct (orientations_orient fuel s tt s' W E) as (_ & _ & P & _ & V).
  split; [exact W'|]. split; [exact U|]. split; [exact A|]. split; [exact P|].
  split; [|split].
  - intros r N. apply (outline_first s' r W'). destruct (V r (fun x => x)) as (V1 & _). apply V1. apply outline_first; assumption.
  - intros r vs O L. apply (outline_first s' r W'). destruct (V r (fun x => x)) as (_ & V2 & _). exact (V2 vs O L).
  - intros r p l O L. destruct (V r (fun x => x)) as (_ & _ & _ & T). exact (T p l O L).
Qed.
Print Assumptions C47_rings_are_turned_by_depth.

(** The ring tree: a ring whose area is zero loses its points, every other ring keeps
    its outline.  The rings are hung one after the other in an order of decreasing
    absolute areas, each under the last one before it that has the opposite
    orientation and contains it; a ring for which there is none is an exterior ring and
    stays at the top. *)
Theorem C47_rings_hang_below_the_ring_around_them :
  forall fuel s s', well_ringed s -> up_to_date s ->
  correct_tree fuel s = Ok (tt, s') ->
  (forall r, ~ has_points s r -> ~ has_points s' r) /\
  (forall r vs, outline_of s r vs -> area2 vs = 0 -> ~ has_points s' r) /\
  (forall r vs, outline_of s r vs -> area2 vs <> 0 -> outline_of s' r vs) /\
  exists order, Permutation (all_rings s) order /\
    StronglySorted (fun a b => forall x y, abs_area s a x -> abs_area s b y -> (y <= x)%R) order /\
    forall before r after, order = before ++ r :: after -> has_points s' r -> placed s' before r.
Proof.
  intros fuel s s' W U E. destruct (tree_nests fuel s tt s' (conj W U) E) as ((W' & _) & _ & order & P & S & A & B & C & D).
  split; [intros r N; apply (outline_first s' r W'); apply A, outline_first; assumption|].
  split; [intros r vs O Z; apply (outline_first s' r W'); exact (B r vs O Z)|].
  split; [intros r vs O Z; apply (C r vs O Z)|]. exists order. auto.
Qed.
Print Assumptions C47_rings_hang_below_the_ring_around_them.

(** The whole path from the polygons to the ring tree: whatever the minimums and bounds, if
    the sweep and the corrections up to the ring tree succeed, no ring with points is
    left with zero area, and all the rings were hung one after the other in an order of
    decreasing absolute areas, each under the last one before it that has the opposite
    orientation and contains it. *)
Definition upto_tree fuel op sfk cfk minimums : prog unit :=
  (build_hot_pixels fuel minimums ;; execute_vatti fuel op sfk cfk minimums ;;
   sort_all_nodes fuel ;; correct_orientations fuel ;; correct_collinear_edges fuel ;;
   correct_self_intersections fuel false ;; correct_tree fuel)%M.
Lemma tree_keeps_areas s s' r x : well_ringed s -> well_ringed s' ->
  (forall r, first_of s r = None -> first_of s' r = None) ->
  (forall r vs, outline_of s r vs -> area2 vs = 0 -> first_of s' r = None) ->
  (forall r vs, outline_of s r vs -> area2 vs <> 0 -> outline_of s' r vs) ->
  abs_area s' r x -> abs_area s r x.
Proof.
  intros W W' A B C X. pose proof (abs_area_points _ _ _ X) as F'.
  destruct (first_of s r) as [n|] eqn:F; [|destruct (F' (A r F))].
  destruct (well_at s n r W (wr_first s W r n F)) as (m & Cm & _).
  assert (O : outline_of s r (vertices s (n :: m))) by (exists n, m; auto).
  destruct (Z.eq_dec (area2 (vertices s (n :: m))) 0) as [Z|Z]; [destruct (F' (B _ _ O Z))|].
  pose proof (C _ _ O Z) as O'. destruct X as (vs & g & Ov & G & ->). exists (vertices s (n :: m)), g. split; [exact O|].
  replace (vertices s (n :: m)) with vs; [auto|].
  destruct Ov as (i & l & Fi & Ci & ->). destruct O' as (j & k & Fj & Cj & ->). rewrite Fi in Fj. injection Fj as <-.
  rewrite (circle_unique _ _ _ _ Ci Cj). reflexivity.
Qed.
Theorem C47_rings_are_nested_after_the_sweep :
  forall fuel op sfk cfk minimums bounds s',
  upto_tree fuel op sfk cfk minimums (init_st bounds) = Ok (tt, s') ->
  well_ringed s' /\ up_to_date s' /\
  (forall r vs, outline_of s' r vs -> area2 vs <> 0) /\
  exists order, Permutation (all_rings s') order /\
    StronglySorted (fun a b => forall x y, abs_area s' a x -> abs_area s' b y -> (y <= x)%R) order /\
    forall before r after, order = before ++ r :: after -> has_points s' r -> placed s' before r.
Proof.
  intros fuel op sfk cfk minimums bounds s' E. unfold upto_tree in E.
  inv_bind E u0 sa Ea. destruct u0. inv_bind E u1 sb Eb. destruct u1.
  assert (Wb : well_ringed sb).
  { apply (C45_rings_are_whole_after_the_sweep fuel op sfk cfk minimums bounds). unfold bind. rewrite Ea. exact Eb. }
  inv_bind E u2 sc Ec. pose proof (kw_sort_all fuel _ _ _ Ec Wb) as Wc. inv_bind E u3 sd Ed.
  destruct (orientations_order fuel sc _ sd Wc Ed) as (Id & _). inv_bind E u4 se Ee.
  pose proof (collinear_order fuel _ _ _ Id Ee) as Ie. inv_bind E u5 sf Ef.
  pose proof (self_order fuel _ _ _ Ie Ef) as If.
  destruct (tree_nests fuel sf tt s' If E) as (I' & RN & order & P & S & A & B & C & D).
  split; [apply I'|]. split; [apply I'|]. split.
  - intros r vs O Z. pose proof O as (n' & l' & F' & C' & EV).
    destruct (first_of sf r) as [n|] eqn:F; [|rewrite (A r F) in F'; discriminate].
    destruct (well_at sf n r (proj1 If) (wr_first sf (proj1 If) r n F)) as (m & Cm & _).
    assert (O0 : outline_of sf r (vertices sf (n :: m))) by (exists n, m; auto).
    destruct (Z.eq_dec (area2 (vertices sf (n :: m))) 0) as [Z0|Z0]; [rewrite (B _ _ O0 Z0) in F'; discriminate|].
    destruct (C _ _ O0 Z0) as ((j & k & Fj & Cj & Ej) & _). apply Z0. rewrite Ej. rewrite F' in Fj. injection Fj as <-.
    rewrite <- (circle_unique _ _ _ _ C' Cj), <- EV. exact Z.
  - exists order. split; [|split; [|exact D]].
    + unfold all_rings. rewrite RN. exact P.
    + revert S. assert (K : forall r x, abs_area s' r x -> abs_area sf r x).
      { intros r x. apply tree_keeps_areas; [apply If|apply I'|exact A|exact B|]. intros q vs O Z. apply (C q vs O Z). }
      clear -K. intros S. induction S as [|a l S IH F]; constructor; [exact IH|]. revert F. apply Forall_impl. intros b H x y X Y. apply H; auto.
Qed.
Print Assumptions C47_rings_are_nested_after_the_sweep.

(** ** Example *)
(** a square minus a smaller square: the state after the sweep and the correction of
    orientations satisfies the hypotheses, two rings have points, and the tree puts
    one of them, a hole, below the other one *)
Definition ring_square a b := [Pt a a; Pt b a; Pt b b; Pt a b; Pt a a].
Definition two_squares : res wagyu :=
  ('(_, w) <- add_polygon (new_wagyu false) [ring_square 0 10] SUBJECT ;;
   '(_, w) <- add_polygon w [ring_square 2 8] CLIP ;; Ok w)%res.
Definition swept_squares : res (unit * st) :=
  match two_squares with
  | Ok w => (build_hot_pixels 100 (lml_values (w_minimums w)) ;;
             execute_vatti 100 DIFFERENCE EVEN_ODD EVEN_ODD (lml_values (w_minimums w)))%M (init_st (lml_bounds (w_minimums w)))
  | Raise e => Raise e
  | NoFuel => NoFuel
  end.
Definition turn (x : res (unit * st)) : res (unit * st) :=
  match x with Ok (_, s) => correct_orientations 100 s | Raise e => Raise e | NoFuel => NoFuel end.
Definition hang_rings (x : res (unit * st)) : res (unit * st) :=
  match x with Ok (_, s) => correct_tree 100 s | Raise e => Raise e | NoFuel => NoFuel end.
Definition shown (x : res (unit * st)) :=
  match x with
  | Ok (_, s) => Some (map (fun r => (r, parent_of s r, match first_of s r with
                     | Some n => match nodes_list 100 n s with Ok (l, _) => vertices s l | _ => [] end
                     | None => [] end)) (all_rings s))
  | _ => None
  end.
(** the hole is turned round, and stays below the outer square *)
Example C47_example :
  shown swept_squares = Some [(1%positive, None, [Pt 10 0; Pt 0 0; Pt 0 10; Pt 10 10]);
                              (2%positive, Some 1%positive, [Pt 8 2; Pt 2 2; Pt 2 8; Pt 8 8])] /\
  shown (turn swept_squares) = Some [(1%positive, None, [Pt 10 0; Pt 0 0; Pt 0 10; Pt 10 10]);
                               (2%positive, Some 1%positive, [Pt 8 2; Pt 8 8; Pt 2 8; Pt 2 2])] /\
  shown (hang_rings (turn swept_squares)) = shown (turn swept_squares).
Proof. vm_compute. split; [reflexivity|]. split; reflexivity. Qed.
(** both theorems apply to these states *)
Definition applicable (x : res (unit * st)) : Prop :=
  match x, turn x, hang_rings (turn x) with
  | Ok (_, s), Ok (_, s1), Ok (_, s2) =>
      well_ringed s /\ correct_orientations 100 s = Ok (tt, s1) /\
      well_ringed s1 /\ up_to_date s1 /\ correct_tree 100 s1 = Ok (tt, s2)
  | _, _, _ => False
  end.
Lemma C47_hypotheses x a b :
  (forall s, x = Ok (tt, s) -> well_ringed s) -> shown x = Some a -> shown (turn x) = Some b -> shown (hang_rings (turn x)) = shown (turn x) ->
  applicable x.
Proof.
  intros W X Y Z. unfold applicable. destruct x as [[[] s]|e|]; [|discriminate X..]. specialize (W s eq_refl). unfold turn in *.
  destruct (correct_orientations 100 s) as [[[] s1]|e|] eqn:Eo; [|discriminate Y..]. unfold hang_rings in *.
  destruct (correct_tree 100 s1) as [[[] s2]|e|] eqn:Ec; [|discriminate Z..].
  destruct (C47_rings_are_turned_by_depth 100 s s1 W Eo) as (W1 & U1 & _). repeat (split; [first [assumption|reflexivity]|]). reflexivity.
Qed.
Lemma swept_squares_well s : swept_squares = Ok (tt, s) -> well_ringed s.
Proof.
  unfold swept_squares. destruct two_squares as [w|e|]; [|discriminate..]. apply C45_rings_are_whole_after_the_sweep.
Qed.
Example C47_example_hypotheses : applicable swept_squares.
Proof.
  exact (C47_hypotheses swept_squares _ _ swept_squares_well (proj1 C47_example) (proj1 (proj2 C47_example)) (proj2 (proj2 C47_example))).
Qed.
(** the whole path succeeds on these squares *)
Definition nested_squares : res (unit * st) :=
  match two_squares with
  | Ok w => upto_tree 100 DIFFERENCE EVEN_ODD EVEN_ODD (lml_values (w_minimums w)) (init_st (lml_bounds (w_minimums w)))
  | Raise e => Raise e
  | NoFuel => NoFuel
  end.
Example C47_example_nested :
  shown nested_squares = Some [(1%positive, None, [Pt 10 0; Pt 0 0; Pt 0 10; Pt 10 10]);
                               (2%positive, Some 1%positive, [Pt 8 2; Pt 8 8; Pt 2 8; Pt 2 2])].
Proof. vm_compute. reflexivity. Qed.
