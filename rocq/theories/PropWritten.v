(** * Property theorems: the way a ring is written down (C56)

    Polygons reach the library as lists of points.  The same outline can be written in
    many ways: with the first point repeated at the end or not, with points repeated
    in place, starting anywhere.  [same_outline] below says that two lists differ only
    by repetitions of the first two kinds.  (For [built], [answer] see SpecHistory.v:
    [built rv w rs] - [w] is the object after some sequence of completed calls on
    [Wagyu(rv)], [rs] the rings added since the last [clear].) *)
From Coq Require Import ZArith List Bool Lia.
From Verif Require Import Py Monad Utils Geometry LinearRingM BoundM LocalMinimumM StateM
     PointNodeM RingM SweepM TopologyM WagyuM SpecHistory HistoryP RunRelP MiscP ListP ScanP LinearRingP RepeatP.
Import ListNotations.
Open Scope Z_scope.

Inductive same_outline : linear_ring -> linear_ring -> Prop :=
| same_repeat : forall before p after, same_outline (before ++ p :: after) (before ++ p :: p :: after)
| same_close : forall p rest, same_outline (p :: rest) (p :: rest ++ [p])
| same_self : forall r, same_outline r r
| same_back : forall r r', same_outline r r' -> same_outline r' r
| same_chain : forall r r' r'', same_outline r r' -> same_outline r' r'' -> same_outline r r''.

Lemma dedup_repeat b p a : dedup (b ++ p :: p :: a) = dedup (b ++ p :: a).
Proof.
  induction b as [|x b IH]; [apply dedup_again|]. cbn [app]. destruct b as [|y b]; cbn [app] in *.
  - destruct (point_eqb_spec x p) as [->|N]; [rewrite !dedup_again; reflexivity|].
    rewrite !(dedup_new x) by (cbn; congruence). rewrite IH. reflexivity.
  - destruct (point_eqb_spec x y) as [->|N]; [rewrite !dedup_again; exact IH|].
    rewrite !(dedup_new x) by (cbn; congruence). rewrite IH. reflexivity.
Qed.
Lemma squeeze_close p r : squeeze (p :: r ++ [p]) = squeeze (p :: r).
Proof.
  unfold squeeze. destruct (dedup_head (p :: r)) as (t & D). cbv iota in D. pose proof (dedup_last p (p :: r)) as L. rewrite D in L.
  destruct (point_eq_dec (last (p :: r) p) p) as [E|N].
  - assert (S : dedup (p :: r ++ [p]) = dedup (p :: r)).
    { rewrite app_comm_cons. rewrite (app_removelast_last (l := p :: r) p) by discriminate. rewrite E, <- app_assoc. cbn [app].
      apply (dedup_repeat _ p []). }
    rewrite S. reflexivity.
  - rewrite app_comm_cons, (dedup_tail p [p] ltac:(discriminate) ltac:(repeat constructor) (p :: r) p (or_intror N)), D. cbn [app].
    rewrite last_last, point_eqb_refl, removelast_last.
    destruct t as [|a t]; [exfalso; apply N; rewrite <- L; reflexivity|]. change (last (p :: a :: t) p) with (last (a :: t) p) in L.
    rewrite (proj2 (point_eqb_neq (last (a :: t) p) p)) by congruence. reflexivity.
Qed.
Lemma same_squeeze r r' : same_outline r r' -> squeeze r = squeeze r'.
Proof.
  induction 1 as [b p a|p r|r|r r' _ IH|r r' r'' _ IH1 _ IH2]; [|symmetry; apply squeeze_close|reflexivity|congruence|congruence].
  unfold squeeze. rewrite dedup_repeat. reflexivity.
Qed.

(** ** C56 *)
(** Repeating a point in place, or the first point at the end, does not change the
    edges of a ring (nor whether and how computing them fails), *)
Theorem C56_repetitions_do_not_change_the_edges :
  forall r r', same_outline r r' -> linear_ring_edges r = linear_ring_edges r'.
Proof. intros r r' H. rewrite (edges_squeeze r), (edges_squeeze r'), (same_squeeze r r' H). reflexivity. Qed.
Print Assumptions C56_repetitions_do_not_change_the_edges.
(** so adding either of the two to an object has the same outcome, *)
Theorem C56_repetitions_do_not_change_adding :
  forall w r r' kind, same_outline r r' -> w_add_linear_ring w r kind = w_add_linear_ring w r' kind.
Proof.
  intros w r r' kind H. unfold w_add_linear_ring, add_linear_ring. rewrite (C56_repetitions_do_not_change_the_edges r r' H). reflexivity.
Qed.
Print Assumptions C56_repetitions_do_not_change_adding.

(** and two objects whose rings differ in nothing else, whatever their pasts, give the
    same answer to every operation. *)
Definition same_but_for_repetitions (rs rs' : list (linear_ring * polygon_kind)) : Prop :=
  Forall2 (fun r r' => same_outline (fst r) (fst r') /\ snd r = snd r') rs rs'.
Lemma plain_same rs rs' : same_but_for_repetitions rs rs' -> forall L, plain L rs = plain L rs'.
Proof.
  induction 1 as [|[r k] [r' k'] rs rs' (H & K) _ IH]; intros L; [reflexivity|]. cbn [fst snd] in *. subst k'. cbn [plain].
  unfold add_linear_ring. rewrite (C56_repetitions_do_not_change_the_edges r r' H).
  destruct (_ <- linear_ring_edges r' ;; _)%res as [[b L1]| |]; cbn [rbind]; [apply IH|reflexivity|reflexivity].
Qed.
Lemma answer_plain rv w w' rs rs' fuel op sfk cfk : built rv w rs -> built rv w' rs' ->
  plain empty_lm_list rs = plain empty_lm_list rs' ->
  answer (execute fuel w op sfk cfk) = answer (execute fuel w' op sfk cfk).
Proof.
  intros B B' P. apply tracks_built in B, B'. destruct B as ((d & L & Hp & Si) & R1), B' as ((d' & L' & Hp' & Si') & R1').
  rewrite P, Hp' in Hp. injection Hp as <-.
  rewrite (execute_plain rv rs' d L' w fuel op sfk cfk Hp' Si R1), (execute_plain rv rs' d' L' w' fuel op sfk cfk Hp' Si' R1'). reflexivity.
Qed.
Theorem C56_repetitions_do_not_change_the_answer :
  forall rv w w' rs rs' fuel op sfk cfk,
  built rv w rs -> built rv w' rs' -> same_but_for_repetitions rs rs' ->
  answer (execute fuel w op sfk cfk) = answer (execute fuel w' op sfk cfk).
Proof. intros rv w w' rs rs' fuel op sfk cfk B B' S. exact (answer_plain rv w w' rs rs' fuel op sfk cfk B B' (plain_same rs rs' S _)). Qed.
Print Assumptions C56_repetitions_do_not_change_the_answer.

(** A ring for which [add_linear_ring] returned [False], on this object or on another
    one, may as well not have been added. *)
Definition refused (r : linear_ring) : Prop :=
  exists w kind w', w_add_linear_ring w r kind = Ok (false, w').
Theorem C56_refused_rings_play_no_role :
  forall rv w w' rs r kind rs' fuel op sfk cfk,
  built rv w (rs ++ (r, kind) :: rs') -> built rv w' (rs ++ rs') -> refused r ->
  answer (execute fuel w op sfk cfk) = answer (execute fuel w' op sfk cfk).
Proof.
  intros rv w w' rs r kind rs' fuel op sfk cfk B B' (w0 & k0 & w0' & E).
  apply (answer_plain rv w w' _ _ fuel op sfk cfk B B').
  assert (Ee : linear_ring_edges r = Ok []).
  { unfold w_add_linear_ring, add_linear_ring in E. destruct (linear_ring_edges r) as [[|e es]| |]; cbn [rbind] in E; try discriminate; [reflexivity|].
    exfalso. destruct (loopR _ _ _) as [[[[f|] [l|]] L']| |]; cbn in E; discriminate. }
  rewrite !plain_app. destruct (plain empty_lm_list rs) as [L| |]; cbn [rbind]; [|reflexivity|reflexivity].
  cbn [plain]. unfold add_linear_ring. rewrite Ee. reflexivity.
Qed.
Print Assumptions C56_refused_rings_play_no_role.

(** ** Example *)
Definition given_twice (subject clip : linear_ring) : res wagyu :=
  ('(_, w) <- add_polygon (new_wagyu false) [subject] SUBJECT ;;
   '(_, w) <- add_polygon w [clip] CLIP ;; Ok w)%res.
Definition answer_of (x : res wagyu) (op : operation_kind) (sfk cfk : fill_kind) : res multipolygon :=
  match x with Ok w => answer (execute 2000 w op sfk cfk) | Raise e => Raise e | NoFuel => NoFuel end.
Definition tidy_ring : linear_ring := [Pt 0 0; Pt 6 0; Pt 6 6; Pt 0 6].
Definition sloppy_ring : linear_ring := [Pt 0 0; Pt 6 0; Pt 6 0; Pt 6 6; Pt 0 6; Pt 0 6; Pt 0 6; Pt 0 0; Pt 0 0].
Definition across : linear_ring := [Pt 2 (-3); Pt 4 (-3); Pt 4 9; Pt 2 9].
Lemma sloppy_is_tidy : same_outline tidy_ring sloppy_ring.
Proof.
  eapply same_chain; [exact (same_close (Pt 0 0) [Pt 6 0; Pt 6 6; Pt 0 6])|].
  eapply same_chain; [exact (same_repeat [Pt 0 0] (Pt 6 0) [Pt 6 6; Pt 0 6; Pt 0 0])|].
  eapply same_chain; [exact (same_repeat [Pt 0 0; Pt 6 0; Pt 6 0; Pt 6 6] (Pt 0 6) [Pt 0 0])|].
  eapply same_chain; [exact (same_repeat [Pt 0 0; Pt 6 0; Pt 6 0; Pt 6 6] (Pt 0 6) [Pt 0 6; Pt 0 0])|].
  exact (same_repeat [Pt 0 0; Pt 6 0; Pt 6 0; Pt 6 6; Pt 0 6; Pt 0 6; Pt 0 6] (Pt 0 0) []).
Qed.
Example C56_example :
  same_outline tidy_ring sloppy_ring /\
  answer_of (given_twice tidy_ring across) DIFFERENCE EVEN_ODD EVEN_ODD =
    Ok [[[Pt 2 0; Pt 2 6; Pt 0 6; Pt 0 0; Pt 2 0]]; [[Pt 6 6; Pt 4 6; Pt 4 0; Pt 6 0; Pt 6 6]]] /\
  answer_of (given_twice sloppy_ring across) DIFFERENCE EVEN_ODD EVEN_ODD =
    answer_of (given_twice tidy_ring across) DIFFERENCE EVEN_ODD EVEN_ODD.
Proof. split; [exact sloppy_is_tidy|]. split; vm_compute; reflexivity. Qed.
Example C56_refused_example : refused [Pt 0 0; Pt 3 3; Pt 5 5; Pt 1 1; Pt 0 0].
Proof. exists (new_wagyu true), CLIP. eexists. vm_compute. reflexivity. Qed.

(** ** Where a ring starts and which way it goes does matter *)
(** One would expect the answer to depend on the outline only, that is, not on the
    point at which a ring starts; but then the polygons of the answer may come in
    another order. *)
Theorem C56_starting_point_does_not_matter_refuted :
  exists subject subject' clip,
    (exists before after, subject = before ++ after /\ subject' = after ++ before) /\
    answer_of (given_twice subject clip) UNION NON_ZERO POSITIVE <> answer_of (given_twice subject' clip) UNION NON_ZERO POSITIVE /\
    exists r r', answer_of (given_twice subject clip) UNION NON_ZERO POSITIVE = Ok r /\
                 answer_of (given_twice subject' clip) UNION NON_ZERO POSITIVE = Ok r' /\ r' = rev r.
Proof.
  exists [Pt 7 5; Pt 7 7; Pt 5 3; Pt 0 2; Pt 2 7], [Pt 7 7; Pt 5 3; Pt 0 2; Pt 2 7; Pt 7 5], [Pt 0 5; Pt 5 7; Pt 1 1].
  split; [exists [Pt 7 5], [Pt 7 7; Pt 5 3; Pt 0 2; Pt 2 7]; split; reflexivity|].
  split; [vm_compute; discriminate|]. eexists _, _. split; [vm_compute; reflexivity|]. split; [vm_compute; reflexivity|]. reflexivity.
Qed.
Print Assumptions C56_starting_point_does_not_matter_refuted.
(** And with even-odd filling, where the direction of a ring has no meaning, one would
    expect the same of the direction; but of the two ways of walking round the triangle
    below, one gives a multipolygon and the other [RuntimeError]. *)
Theorem C56_direction_does_not_matter_refuted :
  exists subject clip,
    (exists r, answer_of (given_twice subject clip) XOR EVEN_ODD EVEN_ODD = Ok r /\ r <> []) /\
    answer_of (given_twice (rev subject) clip) XOR EVEN_ODD EVEN_ODD = Raise (RuntimeError HoleWithoutParent).
Proof.
  exists [Pt (-10) 0; Pt 2 98; Pt 0 0], [Pt (-1) (-49); Pt 1 49; Pt (-5) 98; Pt (-20) (-49)].
  split; [|vm_compute; reflexivity]. eexists. split; [vm_compute; reflexivity|discriminate].
Qed.
Print Assumptions C56_direction_does_not_matter_refuted.
