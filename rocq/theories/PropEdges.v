(** * Property theorems: the corrections conserve the sides of the rings (C49)

    Read with SpecEdges.v ([sides s]: the sides of all rings, each from a vertex to its
    successor, as often as they occur; [line_sides]: the sides of a polyline), SpecHeap.v
    ([circle]), SpecRings.v ([well_ringed]) and SpecNest.v ([outline_of], [up_to_date]). *)
From Coq Require Import ZArith List Bool Lia FMapPositive Permutation.
From Verif Require Import Py Monad Utils Geometry LinearRingM BoundM LocalMinimumM StateM
     PointNodeM RingM SweepM TopologyM WagyuM Spec SpecRing SpecHeap SpecRings SpecTree SpecEdges CircleP HoareP CalmP VatP
     NodeFrameP RingedP RingedTreeP LiveP NestP NestTreeP OrientP KeepOrderP EdgesP Examples PropRinged PropNest SpecNest.
Import ListNotations.
Open Scope Z_scope.

(** ** C49 *)
(** Resolving self intersections cuts rings apart and joins them in new ways, but it
    leaves every side in place: no side appears, none disappears, none changes its
    direction. *)
Theorem C49_self_intersections_keep_the_sides :
  forall fuel correct_tree s again s', well_ringed s ->
  correct_self_intersections fuel correct_tree s = Ok (again, s') ->
  Permutation (sides s) (sides s').
Proof.
  intros fuel b s x s' W E. exact (al_sides _ _ _ _ _ (proj1 (lk_self_intersections _ _ _ _ fuel b _ _ _ (well_alive s W) E))).
Qed.
Print Assumptions C49_self_intersections_keep_the_sides.
(** So does joining and separating rings that touch each other, *)
Theorem C49_chained_rings_keep_the_sides :
  forall fuel s s', well_ringed s ->
  correct_chained_rings fuel s = Ok (tt, s') ->
  Permutation (sides s) (sides s').
Proof.
  intros fuel s s' W E. exact (al_sides _ _ _ _ _ (proj1 (lk_correct_chained_rings _ _ _ fuel _ _ _ (well_alive s W) E))).
Qed.
Print Assumptions C49_chained_rings_keep_the_sides.
(** however often the two are repeated. *)
Definition repeat_corrections fuel : prog unit :=
  loopM fuel (fun _ : unit =>
    (correct_chained_rings fuel ;;
     again <- correct_self_intersections fuel true ;;
     ret (if (again : bool) then inl tt else inr tt))%M) tt.
Theorem C49_repeated_corrections_keep_the_sides :
  forall fuel s s', well_ringed s ->
  repeat_corrections fuel s = Ok (tt, s') ->
  Permutation (sides s) (sides s').
Proof.
  intros fuel s s' W E. exact (al_sides _ _ _ _ _ (proj1 (lk_late _ _ _ fuel _ _ _ (well_alive s W) E))).
Qed.
Print Assumptions C49_repeated_corrections_keep_the_sides.
(** Building the ring tree only takes away the sides of rings whose shoelace sum is
    zero. *)
Definition flat (s : st) (e : side) : Prop :=
  exists r vs, outline_of s r vs /\ area2 vs = 0 /\ In e (loop_sides vs).
Theorem C49_ring_tree_drops_only_flat_rings :
  forall fuel s s', well_ringed s -> up_to_date s ->
  correct_tree fuel s = Ok (tt, s') ->
  exists dropped, Permutation (sides s) (sides s' ++ dropped) /\ forall e, In e dropped -> flat s e.
Proof. intros fuel s s' W U E. exact (tree_sides fuel s tt s' (conj W U) E). Qed.
Print Assumptions C49_ring_tree_drops_only_flat_rings.

(** From the correction of collinear edges to the result.  Whatever the polygons, the
    operation and the fill rules: the sides that are left once overlapping sides are
    dealt with are the sides of the rings at the end and sides of rings without area;
    and every side of every ring of the result is one of the sides of the rings (walked
    the other way round unless [reverse_output=True]). *)
Definition upto_collinear fuel op sfk cfk minimums : prog unit :=
  (build_hot_pixels fuel minimums ;; execute_vatti fuel op sfk cfk minimums ;;
   sort_all_nodes fuel ;; correct_orientations fuel ;; correct_collinear_edges fuel)%M.
Theorem C49_output_sides_come_from_the_rings :
  forall fuel w op sfk cfk result w',
  lml_values (w_minimums w) <> [] ->
  execute fuel w op sfk cfk = Ok (result, w') ->
  exists before split last dropped,
    upto_collinear fuel op sfk cfk (lml_values (w_minimums w)) (init_st (lml_bounds (w_minimums w))) = Ok (tt, before) /\
    Permutation (sides before) (sides split) /\
    Permutation (sides split) (sides last ++ dropped) /\
    (forall e, In e dropped -> flat split e) /\
    forall poly ring e, In poly result -> In ring poly -> In e (line_sides ring) ->
      In (if w_reverse w then e else reversed_side e) (sides last).
Proof.
  intros fuel w op sfk cfk result w' NE E.
  destruct (C45_output_rings_are_single_laps fuel w op sfk cfk result w' NE E) as (s & Es & LAP).
  inv_bind Es u0 sa Ea. destruct u0. inv_bind Es u1 sb Eb. destruct u1.
  assert (Wb : well_ringed sb).
  { apply (C45_rings_are_whole_after_the_sweep fuel op sfk cfk (lml_values (w_minimums w)) (lml_bounds (w_minimums w))). unfold bind. rewrite Ea. exact Eb. }
  unfold correct_topology in Es.
  inv_bind Es u2 sc Ec. destruct u2. pose proof (kw_sort_all fuel _ _ _ Ec Wb) as Wc. inv_bind Es u3 sd Ed. destruct u3.
  destruct (orientations_order fuel sc _ sd Wc Ed) as (Id & _). inv_bind Es u4 se Ee. destruct u4.
  pose proof (collinear_order fuel _ _ _ Id Ee) as Ie. inv_bind Es u5 sf Ef.
  pose proof (self_order fuel _ _ _ Ie Ef) as If. inv_bind Es u6 sg Eg. destruct u6.
  destruct (tree_sides fuel sf tt sg If Eg) as (dropped & PD & FD).
  pose proof (proj1 (tree_nests fuel sf tt sg If Eg)) as Ig.
  pose proof (proj1 (lk_late _ _ _ fuel _ _ _ (well_alive sg (proj1 Ig)) Es)) as AL.
  exists se, sf, s, dropped. split; [|split; [|split; [|split; [exact FD|]]]].
  - unfold upto_collinear. rewrite (bind_run _ _ _ _ _ Ea), (bind_run _ _ _ _ _ Eb), (bind_run _ _ _ _ _ Ec), (bind_run _ _ _ _ _ Ed). exact Ee.
  - exact (C49_self_intersections_keep_the_sides fuel false se u5 sf (proj1 Ie) Ef).
  - rewrite PD. apply Permutation_app_tail. exact (al_sides _ _ _ _ _ AL).
  - intros poly ring e Ip Ir He. destruct (LAP poly ring Ip Ir) as (r & n & l & Fn & C & ->).
    assert (K : forall i, In i (n :: l) -> ring_of s i <> None /\ (i < s_nnext s)%positive).
    { intros i J. destruct (alive_circle _ _ _ _ s n AL (al_first _ _ _ _ _ AL r n Fn)) as (m & Cm & M).
      rewrite (circle_unique s n l m C Cm) in J. pose proof (M i J) as Gi. split; [apply (al_live _ _ _ _ _ AL); exact Gi|apply (al_known _ _ _ _ _ AL); exact Gi]. }
    destruct (w_reverse w); [apply (lap_sides s n l e C K He)|apply (lap_sides_rev s n l e C K He)].
Qed.
Print Assumptions C49_output_sides_come_from_the_rings.

(** ** Example *)
(** a square with a triangular pocket that touches the upper side: one ring that visits
    (6, 12) twice becomes a border and a hole; the eight sides stay *)
Definition pocket_polygon : res wagyu :=
  ('(_, w) <- add_polygon (new_wagyu false)
      [[Pt 0 0; Pt 12 0; Pt 12 12; Pt 6 12; Pt 9 6; Pt 3 6; Pt 6 12; Pt 0 12; Pt 0 0]] SUBJECT ;; Ok w)%res.
Definition from_start (x : res wagyu) (f : list local_minimum -> prog unit) : res (unit * st) :=
  match x with
  | Ok w => f (lml_values (w_minimums w)) (init_st (lml_bounds (w_minimums w)))
  | Raise e => Raise e
  | NoFuel => NoFuel
  end.
Definition sides_in (x : res (unit * st)) : option (list side) :=
  match x with Ok (_, s) => Some (sides s) | _ => None end.
Definition result_of (x : res (multipolygon * wagyu)) : res multipolygon :=
  match x with Ok (r, _) => Ok r | Raise e => Raise e | NoFuel => NoFuel end.
Definition pocket_sides : list side :=
  [(Pt 6 12, Pt 12 12); (Pt 0 12, Pt 6 12); (Pt 6 12, Pt 3 6); (Pt 12 12, Pt 12 0);
   (Pt 9 6, Pt 6 12); (Pt 3 6, Pt 9 6); (Pt 0 0, Pt 0 12); (Pt 12 0, Pt 0 0)].
Definition pocket_result : multipolygon :=
  [[[Pt 6 12; Pt 0 12; Pt 0 0; Pt 12 0; Pt 12 12; Pt 6 12]; [Pt 6 12; Pt 9 6; Pt 3 6; Pt 6 12]]].
Example C49_example :
  sides_in (from_start pocket_polygon (upto_collinear 100 UNION EVEN_ODD EVEN_ODD)) = Some pocket_sides /\
  (match pocket_polygon with Ok w => result_of (execute 100 w UNION EVEN_ODD EVEN_ODD) | _ => NoFuel end) = Ok pocket_result /\
  map reversed_side (flat_map line_sides (concat pocket_result)) =
    [(Pt 0 12, Pt 6 12); (Pt 0 0, Pt 0 12); (Pt 12 0, Pt 0 0); (Pt 12 12, Pt 12 0); (Pt 6 12, Pt 12 12);
     (Pt 9 6, Pt 6 12); (Pt 3 6, Pt 9 6); (Pt 6 12, Pt 3 6)].
Proof. vm_compute. repeat split. Qed.

(** ** The correction of collinear edges is different *)
(** One would expect it to cancel sides only against the same side of another ring (or
    of the same ring) walked the other way.  It does not: below, two triangles over the
    same three points (wound in opposite ways) and a third one that overlaps them leave
    three rings after the sweep.  The side between (1, 1) and (2, 0) is walked once in
    each direction, but only one of the two walks disappears; a ring that ought to have
    gone stays behind with the wrong orientation, and the operation ends with
    [RuntimeError] although all the polygons are valid. *)
Definition same_side (e e' : side) : bool := point_eqb (fst e) (fst e') && point_eqb (snd e) (snd e').
Definition balance (e : side) (l : list side) : Z :=
  Z.of_nat (length (filter (same_side e) l)) - Z.of_nat (length (filter (same_side (reversed_side e)) l)).
Definition three_triangles : res wagyu :=
  ('(_, w) <- add_polygon (new_wagyu false)
      [[Pt 1 0; Pt 1 2; Pt 2 0; Pt 1 0]; [Pt 1 2; Pt 1 0; Pt 2 0; Pt 1 2]] SUBJECT ;;
   '(_, w) <- add_polygon w [[Pt 1 0; Pt 0 2; Pt 2 0; Pt 1 0]] CLIP ;; Ok w)%res.
Definition upto_orientations fuel op sfk cfk minimums : prog unit :=
  (build_hot_pixels fuel minimums ;; execute_vatti fuel op sfk cfk minimums ;;
   sort_all_nodes fuel ;; correct_orientations fuel)%M.
Definition balance_in (e : side) (x : res (unit * st)) : option Z := option_map (balance e) (sides_in x).
Theorem C49_collinear_edges_unbalance_sides_refuted :
  balance_in (Pt 2 0, Pt 1 1) (from_start three_triangles (upto_orientations 100 XOR EVEN_ODD NON_ZERO)) = Some 0 /\
  balance_in (Pt 2 0, Pt 1 1) (from_start three_triangles (upto_collinear 100 XOR EVEN_ODD NON_ZERO)) = Some 1 /\
  (match three_triangles with Ok w => result_of (execute 100 w XOR EVEN_ODD NON_ZERO) | _ => NoFuel end) =
    Raise (RuntimeError HoleWithoutParent).
Proof. vm_compute. repeat split. Qed.
Print Assumptions C49_collinear_edges_unbalance_sides_refuted.
