(** * Property theorems: whole rings (C45) and the orientation flag (C46)

    Read with SpecHeap.v ([circle]: a closed doubly linked chain of distinct
    vertices), SpecRings.v ([well_ringed]) and SpecHistory.v ([built]). *)
From Coq Require Import ZArith List Bool Lia FMapPositive.
From Verif Require Import Py Monad Utils Geometry LinearRingM BoundM LocalMinimumM StateM
     PointNodeM RingM SweepM TopologyM WagyuM SpecRing SpecHeap SpecRings SpecTree SpecHistory CircleP HoareP VatP NodeFrameP
     RingedP RingedTreeP LiveP FlipP TreeP OutputP HistoryP RunRelP PropTree Examples.
Import ListNotations.
Open Scope Z_scope.

(** ** C45 *)
(** The sweep: whatever the rings, the operation and the fill rules, when it is over
    every ring is whole - the vertices that name it form exactly one closed doubly
    linked chain, its first vertex is one of them - and no vertex names a ring that
    does not exist. *)
Theorem C45_rings_are_whole_after_the_sweep :
  forall fuel op sfk cfk minimums bounds s,
  (build_hot_pixels fuel minimums ;; execute_vatti fuel op sfk cfk minimums)%M (init_st bounds) = Ok (tt, s) ->
  well_ringed s.
Proof. intros fuel op sfk cfk ms bs s E. exact (well_swept fuel op sfk cfk ms bs tt s E). Qed.
Print Assumptions C45_rings_are_whole_after_the_sweep.
(** Every correction step up to the ring tree keeps all rings whole, although it
    reverses, cuts, joins and deletes rings and drops vertices. *)
Theorem C45_corrections_keep_rings_whole :
  forall fuel s s', well_ringed s ->
  sort_all_nodes fuel s = Ok (tt, s') \/
  correct_orientations fuel s = Ok (tt, s') \/
  correct_collinear_edges fuel s = Ok (tt, s') \/
  (exists b again, correct_self_intersections fuel b s = Ok (again, s')) \/
  correct_tree fuel s = Ok (tt, s') -> well_ringed s'.
Proof.
  intros fuel s s' W [E|[E|[E|[(b & x & E)|E]]]].
  - exact (kw_sort_all fuel _ _ _ E W).
  - exact (kw_orientations fuel _ _ _ E W).
  - exact (kw_collinear_edges fuel _ _ _ E W).
  - exact (kw_self_intersections fuel b _ _ _ E W).
  - exact (kw_correct_tree fuel _ _ _ E W).
Qed.
Print Assumptions C45_corrections_keep_rings_whole.
(** The whole correction: afterwards every vertex that still belongs to a ring lies
    on a closed doubly linked chain of such vertices, and so does the first vertex
    of every ring. *)
Theorem C45_rings_are_closed_after_the_corrections :
  forall fuel op sfk cfk minimums bounds s,
  (build_hot_pixels fuel minimums ;; execute_vatti fuel op sfk cfk minimums ;; correct_topology fuel)%M (init_st bounds) = Ok (tt, s) ->
  (forall n, ring_of s n <> None \/ (exists r, first_of s r = Some n) ->
   exists l, circle s (n :: l) /\ forall i, In i (n :: l) -> ring_of s i <> None).
Proof.
  intros fuel op sfk cfk ms bs s E. unfold bind in E.
  destruct (build_hot_pixels fuel ms (init_st bs)) as [[[] t1]|e|] eqn:E1; try discriminate.
  destruct (execute_vatti fuel op sfk cfk ms t1) as [[[] t2]|e|] eqn:E2; try discriminate.
  assert (W : well_ringed t2).
  { apply (C45_rings_are_whole_after_the_sweep fuel op sfk cfk ms bs). unfold bind. rewrite E1. exact E2. }
  destruct (topology_circles fuel t2 tt s W E) as (H1 & H2). intros n [H|(r & H)]; [apply H2; exact H|apply (H1 r); exact H].
Qed.
Print Assumptions C45_rings_are_closed_after_the_corrections.
(** Every ring of the result is exactly one lap of such a chain: each vertex of the
    chain once, and the first one repeated at the end. *)
Theorem C45_output_rings_are_single_laps :
  forall fuel w op sfk cfk result w',
  lml_values (w_minimums w) <> [] ->
  execute fuel w op sfk cfk = Ok (result, w') ->
  exists s,
    (build_hot_pixels fuel (lml_values (w_minimums w)) ;;
     execute_vatti fuel op sfk cfk (lml_values (w_minimums w)) ;;
     correct_topology fuel)%M (init_st (lml_bounds (w_minimums w))) = Ok (tt, s) /\
    forall poly ring, In poly result -> In ring poly ->
    exists r n l, first_of s r = Some n /\ circle s (n :: l) /\
      ring = vertices s (n :: (if w_reverse w then l else rev l)) ++ vertices s [n].
Proof.
  intros fuel w op sfk cfk result w' NE E.
  destruct (C33_output_lists_every_ring_once fuel w op sfk cfk result w' NE E) as (s & bs & Es & _ & _ & _ & _ & F).
  exists s. split; [exact Es|]. intros poly ring Ip Ir.
  assert (G : exists b, polygon_of s (if w_reverse w then n_next else n_prev) b poly).
  { clear - F Ip. induction F as [|a x la lx H F IH]; [destruct Ip|]. destruct Ip as [->|Hp]; [exists a; exact H|exact (IH Hp)]. }
  destruct G as (b & border & holes & -> & W & WH).
  assert (G : exists r, written s (if w_reverse w then n_next else n_prev) r ring).
  { destruct Ir as [->|Ir]; [eauto|]. clear - WH Ir. induction WH as [|a x la lx Hx F IH]; [destruct Ir|].
    destruct Ir as [->|Ir]; [exists a; exact Hx|exact (IH Ir)]. }
  destruct G as (r & n & l & Hn & T & ->).
  destruct (C45_rings_are_closed_after_the_corrections _ _ _ _ _ _ _ Es n) as (m & C & _); [right; exists r; exact Hn|].
  exists r, n, m. split; [exact Hn|]. split; [exact C|].
  assert (U : forall dir l k c, trail s dir n c l -> dpath dir s c k n -> ~ In n k -> l = k).
  { clear. intros dir. induction l as [|a l IH]; intros [|d k] c; cbn [trail dpath]; auto.
    - intros T (E & _) N. unfold node_at in E. rewrite T in E. injection E as ->. destruct N. left. reflexivity.
    - intros (T & N & _) E _. unfold node_at in E. rewrite T in E. injection E as ->. congruence.
    - intros (T & _ & T') (E & D) N. unfold node_at in E. rewrite T in E. injection E as <-. f_equal. apply (IH k a); auto.
      intros X. apply N. right. exact X. }
  pose proof C as (ND & CH). inversion ND as [|? ? Nn _]; subst. unfold vertices. cbn [map]. f_equal. f_equal. destruct (w_reverse w).
  - rewrite (U n_next l m n T); [reflexivity|apply dpath_next; exact CH|exact Nn].
  - rewrite (U n_prev l (rev m) n T); [reflexivity|apply dpath_prev; exact CH|rewrite <- in_rev; exact Nn].
Qed.
Print Assumptions C45_output_rings_are_single_laps.

(** ** C46 *)
(** The orientation flag only decides in which direction the rings of the result are
    written: with [reverse_output=True] every operation stops in the same way, leaves
    the same stored data and returns the same polygons and rings in the same order,
    each ring traversed backwards (from the same first vertex). *)
Theorem C46_reverse_output_reverses_every_ring :
  forall fuel L op sfk cfk,
  execute fuel (Wagyu L true) op sfk cfk =
  match execute fuel (Wagyu L false) op sfk cfk with
  | Ok (result, w) => Ok (map (map (@rev point)) result, Wagyu (w_minimums w) true)
  | Raise e => Raise e
  | NoFuel => NoFuel
  end.
Proof. intros. apply execute_flip. Qed.
Print Assumptions C46_reverse_output_reverses_every_ring.
(** the same for two objects that were created with different flags and have
    different pasts, as soon as the same rings have been added since the last
    [clear] *)
Theorem C46_flag_and_history :
  forall w w' rs fuel op sfk cfk,
  built false w rs -> built true w' rs ->
  answer (execute fuel w' op sfk cfk) =
  match answer (execute fuel w op sfk cfk) with
  | Ok result => Ok (map (map (@rev point)) result)
  | Raise e => Raise e
  | NoFuel => NoFuel
  end.
Proof.
  intros w w' rs fuel op sfk cfk B B'. pose proof (built_flag false true w rs B) as B1.
  rewrite (execute_depends_on_rings true _ _ rs fuel op sfk cfk B' B1).
  assert (Ew : w = Wagyu (w_minimums w) false).
  { destruct (tracks_built false w rs B) as (_ & X). destruct w; cbn in *; congruence. }
  rewrite Ew at 2. unfold with_flag. rewrite execute_flip. destruct (execute fuel (Wagyu (w_minimums w) false) op sfk cfk) as [[mp w1]|e|]; reflexivity.
Qed.
Print Assumptions C46_flag_and_history.

(** ** Examples *)
(** the two triangles of the README: both directions, a result that is not empty *)
Definition flagged (rv : bool) : wagyu :=
  match ex_wagyu with Ok (_, _, w) => Wagyu (w_minimums w) rv | _ => new_wagyu rv end.
Example C46_example :
  answer (execute 100 (flagged false) INTERSECTION EVEN_ODD EVEN_ODD) = Ok [[[Pt 3 1; Pt 4 2; Pt 3 3; Pt 2 2; Pt 3 1]]] /\
  answer (execute 100 (flagged true) INTERSECTION EVEN_ODD EVEN_ODD) = Ok [[[Pt 3 1; Pt 2 2; Pt 3 3; Pt 4 2; Pt 3 1]]].
Proof. split; vm_compute; reflexivity. Qed.
(** the sweep of the same input ends, and ring 1 has four vertices *)
Example C45_example :
  let w := flagged false in
  lml_values (w_minimums w) <> [] /\
  match (build_hot_pixels 100 (lml_values (w_minimums w)) ;;
         execute_vatti 100 XOR EVEN_ODD EVEN_ODD (lml_values (w_minimums w)))%M (init_st (lml_bounds (w_minimums w))) with
  | Ok (_, s) => first_of s 1%positive <> None /\
      match first_of s 1%positive with
      | Some n => match nodes_list 100 n s with Ok (l, _) => Nat.leb 5 (length l) | _ => false end
      | None => false
      end = true
  | _ => False
  end.
Proof. cbv zeta. split; [vm_compute; discriminate|]. vm_compute. split; [discriminate|reflexivity]. Qed.
