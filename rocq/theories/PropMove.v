(** * Property theorems: a ring of another size and somewhere else (C60)

    [move k v p] is the point [p] with both coordinates multiplied by [k] and then moved
    by [v]; [move_edge k v e] has the two ends of [e] scaled and moved and the same slope
    (MoveP.v). *)
From Coq Require Import ZArith List Bool Lia Permutation.
From Verif Require Import Py Monad Utils Geometry LinearRingM BoundM LocalMinimumM StateM WagyuM SpecRing SpecReduce SpecHistory HistoryP RunRelP
     MiscP ListP ScanP LinearRingP LinearRing2P RingEdgesP AddRingP ReduceP ShapeP TurnMinP ReverseRingP MoveP PropBounds PropShape PropMinima PropReverse.
Import ListNotations.
Open Scope Z_scope.

(** Scaling and moving a ring scales and moves its edges; slopes (floats) are not changed at all. *)
Theorem C60_a_moved_ring_has_moved_edges :
  forall k v r r' es es', 0 < k -> same_shape (map (move k v) r) r' ->
  linear_ring_edges r = Ok es -> linear_ring_edges r' = Ok es' ->
  exists before after, es = before ++ after /\ es' = map (move_edge k v) (after ++ before).
Proof. intros k v r r' es es' Pk. exact (edges_moved k Pk v r r' es es'). Qed.
Print Assumptions C60_a_moved_ring_has_moved_edges.

(** It scales and moves the minima recorded for it: the heights and the edges of the
    bounds are scaled and moved; which bound is the left one, flags, kinds and windings are the same. *)
Definition move_chain (k : Z) (v : point) (c : list edge * polygon_kind * Z) : list edge * polygon_kind * Z :=
  let '(es, kind, wd) := c in (map (move_edge k v) es, kind, wd).
Definition move_seen (k : Z) (v : point) (x : Z * bool * (list edge * polygon_kind * Z) * (list edge * polygon_kind * Z)) :=
  let '(y, hor, lft, rgt) := x in (k * y + py v, hor, move_chain k v lft, move_chain k v rgt).
Lemma coarse_move k v kind m : coarse (spec_look kind (move_min k v m)) = move_seen k v (coarse (spec_look kind m)).
Proof. unfold spec_look. cbn [move_min ms_min_left]. destruct (ms_min_left m); reflexivity. Qed.
Lemma seen_look w lms : map (seen w) lms = map coarse (map (look (lml_bounds (w_minimums w))) lms).
Proof. rewrite map_map. reflexivity. Qed.
Theorem C60_a_moved_ring_has_moved_minima :
  forall k v w w' r r' kind b b' w1 w1', 0 < k -> same_shape (map (move k v) r) r' ->
  w_add_linear_ring w r kind = Ok (b, w1) -> w_add_linear_ring w' r' kind = Ok (b', w1') ->
  b = b' /\ exists new new' before after,
    minima_of w1 = minima_of w ++ new /\ minima_of w1' = minima_of w' ++ new' /\
    map (seen w1) new = before ++ after /\ map (seen w1') new' = map (move_seen k v) (after ++ before).
Proof.
  intros k v w w' r r' kind b b' w1 w1' Pk Sh A A'.
  destruct (reports_edges _ _ _ _ _ A) as (es & E & H), (reports_edges _ _ _ _ _ A') as (es' & E' & H').
  destruct (edges_moved k Pk v r r' es es' Sh E E') as (ea & eb & -> & ->).
  split.
  - assert (Q : b = false <-> b' = false).
    { rewrite H, H'. rewrite <- !length_zero_iff_nil, map_length, !app_length. lia. }
    destruct b, b'; try reflexivity; destruct Q as (Q1 & Q2); [discriminate Q2|discriminate Q1]; reflexivity.
  - unfold w_add_linear_ring in A, A'.
    destruct (add_linear_ring (w_minimums w) r kind) as [[c L1]| |] eqn:E1; cbn [rbind] in A; try discriminate. injection A as <- <-.
    destruct (add_linear_ring (w_minimums w') r' kind) as [[c' L1']| |] eqn:E1'; cbn [rbind] in A'; try discriminate. injection A' as <- <-.
    destruct (add_cut _ _ _ _ _ _ E E1) as (_ & ms & new & C & V & M & _).
    destruct (add_cut _ _ _ _ _ _ E' E1') as (_ & ms' & new' & C' & V' & M' & _).
    destruct (cut_moved k Pk v r _ ea eb ms ms' E eq_refl C C') as (x & y & -> & ->).
    exists new, new', (map (fun m => coarse (spec_look kind m)) x), (map (fun m => coarse (spec_look kind m)) y).
    split; [exact V|]. split; [exact V'|]. rewrite !seen_look. cbn [w_minimums]. rewrite M, M'. split.
    + rewrite !map_map, map_app. reflexivity.
    + rewrite <- map_app, !map_map. apply map_ext. intros m. apply coarse_move.
Qed.
Print Assumptions C60_a_moved_ring_has_moved_minima.

(** The image of the ring itself gets exactly the image of the list, from the same edge on;
    and [LinearRing.edges] fails on it just when it fails on the ring, in the same way. *)
Theorem C60_the_image_has_the_image_of_the_edges :
  forall k v r, 0 < k ->
  match linear_ring_edges r with
  | Ok es => linear_ring_edges (map (move k v) r) = Ok (map (move_edge k v) es)
  | Raise e => linear_ring_edges (map (move k v) r) = Raise e
  | NoFuel => False
  end.
Proof.
  intros k v r Pk. rewrite (edges_image k Pk v r). pose proof (edges_result r) as H. destruct (linear_ring_edges r) as [es|e|]; [reflexivity|reflexivity|contradiction].
Qed.
Print Assumptions C60_the_image_has_the_image_of_the_edges.

(** Adding the image records the images of the minima in the same order, and it overflows
    just when adding the ring does. *)
Theorem C60_the_image_is_added_alike :
  forall k v w w' r kind, 0 < k ->
  (w_add_linear_ring w r kind = Raise OverflowError <-> w_add_linear_ring w' (map (move k v) r) kind = Raise OverflowError) /\
  forall b w1, w_add_linear_ring w r kind = Ok (b, w1) ->
  exists w1' new new', w_add_linear_ring w' (map (move k v) r) kind = Ok (b, w1') /\
    minima_of w1 = minima_of w ++ new /\ minima_of w1' = minima_of w' ++ new' /\
    map (seen w1') new' = map (move_seen k v) (map (seen w1) new).
Proof.
  intros k v w w' r kind Pk. pose proof (edges_image k Pk v r) as Im.
  pose proof (add_linear_ring_spec (w_minimums w) r kind) as A. pose proof (add_linear_ring_spec (w_minimums w') (map (move k v) r) kind) as A'.
  rewrite Im in A'. destruct (linear_ring_edges r) as [es|e|] eqn:E; cbn [rmap] in A', Im; [|unfold w_add_linear_ring; destruct A as (_ & A), A' as (_ & A'); rewrite A, A'; cbn [rbind]; split; [tauto|discriminate]|contradiction].
  assert (O : exists c L1 c' L1', add_linear_ring (w_minimums w) r kind = Ok (c, L1) /\ add_linear_ring (w_minimums w') (map (move k v) r) kind = Ok (c', L1') /\ c = c').
  { destruct es as [|e es]; cbn [map] in A'.
    - exists false, (w_minimums w), false, (w_minimums w'). auto.
    - destruct A as (L1 & n1 & A & _), A' as (L1' & n1' & A' & _). exists true, L1, true, L1'. auto. }
  clear A A'. destruct O as (c & L1 & c' & L1' & A & A' & <-).
  destruct (add_cut _ _ _ _ _ _ E A) as (_ & ms & new & C & V & M & _).
  destruct (add_cut _ _ _ _ _ _ Im A') as (_ & ms' & new' & C' & V' & M' & _).
  rewrite start_move in C' by exact Pk. pose proof (cut_det _ _ C' _ (cut_move k Pk v _ _ C)) as ->.
  unfold w_add_linear_ring. rewrite A, A'. cbn [rbind]. split; [split; discriminate|].
  intros b w1 [= <- <-]. eexists _, new, new'. split; [reflexivity|]. split; [exact V|]. split; [exact V'|].
  rewrite !seen_look. cbn [w_minimums]. rewrite M, M'. rewrite !map_map. apply map_ext. intros m. apply coarse_move.
Qed.
Print Assumptions C60_the_image_is_added_alike.

(** ** Whole objects *)
Lemma gives_image k v x x' l l' : 0 < k -> same_shape (map (move k v) (fst x)) (fst x') /\ snd x = snd x' ->
  gives x l -> gives x' l' -> Permutation (map (move_seen k v) (map coarse l)) (map coarse l').
Proof.
  intros Pk. destruct x as [r kd], x' as [r' kd']. cbn [fst snd].
  intros (Sh & Ek) (es & ms & E & C & ->) (es' & ms' & E' & C' & ->). cbn [fst snd] in *. subst kd'.
  destruct (edges_moved k Pk v r r' es es' Sh E E') as (ea & eb & -> & ->).
  destruct (cut_moved k Pk v r _ ea eb ms ms' E eq_refl C C') as (x & y & -> & ->).
  assert (Q : forall m, map (move_seen k v) (map coarse (map (spec_look kd) m)) = map coarse (map (spec_look kd) (map (move_min k v) m))).
  { intros m. rewrite !map_map. apply map_ext. intros a. symmetry. apply coarse_move. }
  rewrite Q. do 3 apply Permutation_map. apply Permutation_app_comm.
Qed.
Lemma gives_images k v rs rs' ls ls' : 0 < k -> Forall2 (fun x x' => same_shape (map (move k v) (fst x)) (fst x') /\ snd x = snd x') rs rs' ->
  Forall2 gives rs ls -> Forall2 gives rs' ls' -> Permutation (map (move_seen k v) (map coarse (concat ls))) (map coarse (concat ls')).
Proof.
  intros Pk H. revert ls ls'. induction H as [|x x' rs rs' Sh _ IH]; intros ls ls' G G'; inversion G; inversion G'; subst; [constructor|].
  cbn [concat]. rewrite !map_app. apply Permutation_app; [eapply gives_image; eauto|]. apply IH; assumption.
Qed.
(** Two objects, after any histories, the rings of the second being, in whatever order
    and however written, the images of the rings of the first: the minima the second
    holds are, up to their order, the images of those the first holds. *)
Theorem C60_an_object_of_images_holds_the_images :
  forall k v rv rv' w w' rs rs' moved, 0 < k -> built rv w rs -> built rv' w' rs' ->
  Permutation rs moved ->
  Forall2 (fun x y => same_shape (map (move k v) (fst x)) (fst y) /\ snd x = snd y) moved rs' ->
  Permutation (map (move_seen k v) (map (seen w) (minima_of w))) (map (seen w') (minima_of w')).
Proof.
  intros k v rv rv' w w' rs rs' moved Pk B B' Pm Sh. apply tracks_built in B, B'.
  destruct (tracks_seen _ _ (proj1 B)) as (ls & G & ->), (tracks_seen _ _ (proj1 B')) as (ls' & G' & ->).
  destruct (Permutation_Forall2 Pm G) as (ls2 & Pl & G2). etransitivity; [|exact (gives_images k v _ _ _ _ Pk Sh G2 G')].
  do 2 apply Permutation_map. exact (perm_concat _ _ Pl).
Qed.
Print Assumptions C60_an_object_of_images_holds_the_images.

(** ** Example: the crown of C58, three times as large, moved and written in the other way *)
Example C60_example :
  same_shape (map (move 3 (Pt 100 (-7))) crown) (map (move 3 (Pt 100 (-7))) crown') /\
  w_add_linear_ring (new_wagyu false) (map (move 3 (Pt 100 (-7))) crown') SUBJECT = Ok (true, after_ring (map (move 3 (Pt 100 (-7))) crown')) /\
  length (minima_of (after_ring (map (move 3 (Pt 100 (-7))) crown'))) = 3%nat.
Proof. split; [apply shape_move, crown_shape; lia|]. split; vm_compute; reflexivity. Qed.
(** two objects as in the last theorem: the crown, and its image written in another way *)
Example C60_example_objects :
  built false (after_ring crown) [(crown, SUBJECT)] /\
  built false (after_ring (map (move 3 (Pt 100 (-7))) crown')) [(map (move 3 (Pt 100 (-7))) crown', SUBJECT)] /\
  length (minima_of (after_ring crown)) = 3%nat.
Proof.
  split; [|split].
  - apply (built_ring false (new_wagyu false) [] crown SUBJECT true); [apply built_new|vm_compute; reflexivity].
  - apply (built_ring false (new_wagyu false) [] (map (move 3 (Pt 100 (-7))) crown') SUBJECT true); [apply built_new|vm_compute; reflexivity].
  - vm_compute. reflexivity.
Qed.
