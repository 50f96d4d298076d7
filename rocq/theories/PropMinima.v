(** * Property theorems: what is recorded for a ring is determined by its shape (C58)

    [same_shape] (SpecReduce.v): one list of points can be turned into the other by
    starting elsewhere and by leaving out or adding points that lie on the line through
    their two neighbours in the closed chain. *)
From Coq Require Import ZArith List Bool Lia Permutation Sorted.
From Verif Require Import Py Monad Utils Geometry LinearRingM BoundM LocalMinimumM StateM
     PointNodeM RingM SweepM TopologyM WagyuM SpecRing SpecReduce SpecHistory HistoryP RunRelP MiscP ListP ScanP
     LinearRingP LinearRing2P RingEdgesP MinimaP AddRingP ReduceP ShapeP TurnMinP PropBounds PropShape.
Import ListNotations.
Open Scope Z_scope.

(** what an object holds about a minimum: the height, the flag, and of each of the two
    bounds the edges from the bottom to the top, the kind and the winding *)
Definition chain_of (b : bound) : list edge * polygon_kind * Z := (b_edges b, b_kind b, b_wd b).
Definition seen (w : wagyu) (lm : local_minimum) :=
  (lm_y lm, lm_hor lm, chain_of (bound_of w (lm_left lm)), chain_of (bound_of w (lm_right lm))).

Lemma look_seen w w' new new' x y x' y' :
  map (look (lml_bounds (w_minimums w))) new = x ++ y -> map (look (lml_bounds (w_minimums w'))) new' = y' ++ x' -> x = x' -> y = y' ->
  exists p q, map (seen w) new = p ++ q /\ map (seen w') new' = q ++ p.
Proof.
  intros E E' <- <-.
  set (g := fun l : Z * bool * bound * bound => let '(y0, h, a, b) := l in (y0, h, chain_of a, chain_of b)).
  exists (map g x), (map g y). rewrite <- !map_app, <- E, <- E', !map_map. auto.
Qed.
(** A ring leaves the same minima in any object it is added to, in the same cyclic
    order, however it is written; and both calls report the same. *)
Theorem C58_the_minima_follow_the_shape :
  forall w w' r r' kind b b' w1 w1', same_shape r r' ->
  w_add_linear_ring w r kind = Ok (b, w1) -> w_add_linear_ring w' r' kind = Ok (b', w1') ->
  b = b' /\ exists new new' before after,
    minima_of w1 = minima_of w ++ new /\ minima_of w1' = minima_of w' ++ new' /\
    map (seen w1) new = before ++ after /\ map (seen w1') new' = after ++ before.
Proof.
  intros w w' r r' kind b b' w1 w1' Sh A A'. unfold w_add_linear_ring in A, A'.
  destruct (add_linear_ring (w_minimums w) r kind) as [[c L1]| |] eqn:E1; cbn [rbind] in A; try discriminate. injection A as <- <-.
  destruct (add_linear_ring (w_minimums w') r' kind) as [[c' L1']| |] eqn:E1'; cbn [rbind] in A'; try discriminate. injection A' as <- <-.
  destruct (linear_ring_edges r) as [es|x|] eqn:Er; [|unfold add_linear_ring in E1; rewrite Er in E1; discriminate..].
  destruct (linear_ring_edges r') as [es'|x|] eqn:Er'; [|unfold add_linear_ring in E1'; rewrite Er' in E1'; discriminate..].
  destruct (edges_shape r r' es es' Sh Er Er') as (ea & eb & -> & ->).
  split.
  - unfold add_linear_ring in E1, E1'. rewrite Er in E1. rewrite Er' in E1'. cbn [rbind] in E1, E1'. destruct ea as [|e ea].
    + rewrite app_nil_r in E1'. cbn [app] in E1. destruct eb as [|e eb]; [congruence|].
      repeat (match type of E1 with context [loopR ?a ?b ?c] => destruct (loopR a b c) as [[[[f|] [l|]] L2]| |] end; cbn [rbind] in E1; try discriminate).
      repeat (match type of E1' with context [loopR ?a ?b ?c] => destruct (loopR a b c) as [[[[f'|] [l'|]] L2']| |] end; cbn [rbind] in E1'; try discriminate).
      congruence.
    + destruct (eb ++ e :: ea) as [|e' t] eqn:Q; [destruct eb; discriminate|]. cbn [app] in E1.
      repeat (match type of E1 with context [loopR ?a ?b ?c] => destruct (loopR a b c) as [[[[f|] [l|]] L2]| |] end; cbn [rbind] in E1; try discriminate).
      repeat (match type of E1' with context [loopR ?a ?b ?c] => destruct (loopR a b c) as [[[[f'|] [l'|]] L2']| |] end; cbn [rbind] in E1'; try discriminate).
      congruence.
  - destruct (add_cut _ _ _ _ _ _ Er E1) as (_ & ms & new & C & V & M & _).
    destruct (add_cut _ _ _ _ _ _ Er' E1') as (_ & ms' & new' & C' & V' & M' & _).
    assert (T : exists x y, ms = x ++ y /\ ms' = y ++ x).
    { destruct (edges_steps r _ Er) as [(Z & _)|(vs & G & _)].
      - apply app_eq_nil in Z. destruct Z as (-> & ->). exists [], ms. rewrite app_nil_r. split; [reflexivity|]. exact (cut_det _ _ C' _ C).
      - destruct (good_ring_walk _ _ _ G) as (v & ps & Rw). exact (cut_start_turn v ps ea eb ms ms' Rw C C'). }
    destruct T as (x & y & -> & ->). rewrite map_app in M, M'.
    destruct (look_seen (Wagyu L1 (w_reverse w)) (Wagyu L1' (w_reverse w')) new new' _ _ _ _ M M' eq_refl eq_refl) as (p & q & P1 & P2).
    exists new, new', p, q. auto.
Qed.
Print Assumptions C58_the_minima_follow_the_shape.

(** ** Whole objects *)
Definition looks (L : lm_list) := map (look (lml_bounds L)) (lml_values L).
Definition gives (x : linear_ring * polygon_kind) l : Prop :=
  exists es ms, linear_ring_edges (fst x) = Ok es /\ cut (start_on_local_maximum es) ms /\ l = map (spec_look (snd x)) ms.
Lemma plain_looks rs : forall L L', Forall (within L) (lml_values L) -> plain L rs = Ok L' ->
  Forall (within L') (lml_values L') /\ exists ls, Forall2 gives rs ls /\ looks L' = looks L ++ concat ls.
Proof.
  induction rs as [|[r kind] rs IH]; intros L L' Wi P; cbn [plain] in P.
  - injection P as <-. split; [exact Wi|]. exists []. rewrite app_nil_r. auto.
  - destruct (add_linear_ring L r kind) as [[b L1]| |] eqn:E; cbn [rbind] in P; try discriminate.
    destruct (linear_ring_edges r) as [es|x|] eqn:Er; [|unfold add_linear_ring in E; rewrite Er in E; discriminate..].
    destruct (add_cut _ _ _ _ _ _ Er E) as (K & ms & new & C & V & M & Wn).
    assert (Wi1 : Forall (within L1) (lml_values L1)).
    { rewrite V. apply Forall_app. split; [|exact Wn]. revert Wi. apply Forall_impl. intros lm (H1 & H2). destruct K as (K & _). unfold within. lia. }
    destruct (IH L1 L' Wi1 P) as (Wi' & ls & G & Q). split; [exact Wi'|]. exists (map (spec_look kind) ms :: ls). split.
    + constructor; [|exact G]. exists es, ms. auto.
    + rewrite Q. unfold looks at 1. rewrite V, map_app, (look_keeps _ _ _ K Wi), M. cbn [concat]. rewrite <- app_assoc. reflexivity.
Qed.
Lemma perm_concat {A} (l l' : list (list A)) : Permutation l l' -> Permutation (concat l) (concat l').
Proof.
  induction 1 as [|x l l' H IH|x y l|l l' l'' H IH H' IH']; cbn [concat]; [constructor|apply Permutation_app_head, IH| |etransitivity; eassumption].
  rewrite !app_assoc. apply Permutation_app_tail, Permutation_app_comm.
Qed.
Lemma gives_shape x x' l l' : same_shape (fst x) (fst x') /\ snd x = snd x' -> gives x l -> gives x' l' -> Permutation l l'.
Proof.
  destruct x as [r k], x' as [r' k']. cbn [fst snd].
  intros (Sh & Ek) (es & ms & E & C & ->) (es' & ms' & E' & C' & ->). cbn [fst snd] in *. subst k'. apply Permutation_map.
  destruct (edges_shape _ _ es es' Sh E E') as (ea & eb & -> & ->).
  destruct (edges_steps _ _ E) as [(Z & _)|(vs & G & _)].
  - apply app_eq_nil in Z. destruct Z as (-> & ->). rewrite (cut_det _ _ C _ C'). reflexivity.
  - destruct (good_ring_walk _ _ _ G) as (v & ps & Rw). destruct (cut_start_turn v ps ea eb ms ms' Rw C C') as (a & b & -> & ->).
    apply Permutation_app_comm.
Qed.
Lemma gives_all rs rs' ls ls' : Forall2 (fun x x' => same_shape (fst x) (fst x') /\ snd x = snd x') rs rs' ->
  Forall2 gives rs ls -> Forall2 gives rs' ls' -> Permutation (concat ls) (concat ls').
Proof.
  intros H. revert ls ls'. induction H as [|x x' rs rs' S _ IH]; intros ls ls' G G'; inversion G; inversion G'; subst; [constructor|].
  cbn [concat]. apply Permutation_app; [eapply gives_shape; eauto|]. apply IH; assumption.
Qed.
Definition coarse (l : Z * bool * bound * bound) :=
  let '(y, h, a, b) := l in (y, h, chain_of a, chain_of b).
Lemma tracks_seen w rs : tracks w rs -> exists ls, Forall2 gives rs ls /\ map (seen w) (minima_of w) = map coarse (concat ls).
Proof.
  intros (d & L & P & [S1 S2 S3]). destruct (plain_looks rs empty_lm_list L (Forall_nil _) P) as (Wi & ls & G & Q).
  exists ls. split; [exact G|]. unfold looks at 2 in Q. cbn [lml_values empty_lm_list map app] in Q. rewrite <- Q. unfold looks. rewrite map_map.
  unfold minima_of. rewrite S1, map_map. clear - Wi S3. induction Wi as [|lm lms (H1 & H2) _ IH]; [reflexivity|]. cbn [map]. f_equal; [|exact IH].
  unfold seen, coarse, look, bound_of, lsh, chain_of. cbn [lm_y lm_hor lm_left lm_right].
  destruct (S3 _ H1) as (A1 & A2 & A3 & _), (S3 _ H2) as (B1 & B2 & B3 & _). rewrite A1, A2, A3, B1, B2, B3. reflexivity.
Qed.
(** The minima an object holds after any history, with their bounds, are up to their
    order determined by the shapes and kinds of its rings: neither the order in which
    the rings were added nor how they were written nor the executions in between play
    a role. *)
Theorem C58_an_object_holds_the_shapes_of_its_rings :
  forall rv rv' w w' rs rs' moved, built rv w rs -> built rv' w' rs' ->
  Permutation rs moved ->
  Forall2 (fun x y => same_shape (fst x) (fst y) /\ snd x = snd y) moved rs' ->
  Permutation (map (seen w) (minima_of w)) (map (seen w') (minima_of w')).
Proof.
  intros rv rv' w w' rs rs' moved B B' Pm Sh. apply tracks_built in B, B'.
  destruct (tracks_seen _ _ (proj1 B)) as (ls & G & ->), (tracks_seen _ _ (proj1 B')) as (ls' & G' & ->).
  apply Permutation_map. destruct (Permutation_Forall2 Pm G) as (ls2 & Pl & G2).
  rewrite (perm_concat _ _ Pl). exact (gives_all _ _ _ _ Sh G2 G').
Qed.
Print Assumptions C58_an_object_holds_the_shapes_of_its_rings.

(** ** The heights and the order of the minima *)
Lemma sorted_unique {A} (R : A -> A -> Prop) (anti : forall a b, R a b -> R b a -> a = b) :
  forall l l', StronglySorted R l -> StronglySorted R l' -> Permutation l l' -> l = l'.
Proof.
  induction l as [|a l IH]; intros l' S S' P; [apply Permutation_nil in P; auto|].
  destruct l' as [|b l']; [symmetry in P; apply Permutation_nil in P; discriminate|].
  inversion S as [|? ? Sl Fl]; subst. inversion S' as [|? ? Sl' Fl']; subst. rewrite Forall_forall in Fl, Fl'.
  assert (a = b).
  { assert (Ia : In a (b :: l')) by (eapply Permutation_in; [exact P|left; reflexivity]).
    assert (Ib : In b (a :: l)) by (eapply Permutation_in; [symmetry; exact P|left; reflexivity]).
    destruct Ia as [Q|Ia]; [auto|]. destruct Ib as [Q|Ib]; [auto|]. apply anti; auto. }
  subst b. f_equal. apply IH; auto. eapply Permutation_cons_inv, P.
Qed.
Definition rank (m : local_minimum) : Z * bool := (lm_y m, lm_hor m).
Definition rank_ge (a b : Z * bool) : Prop := fst b < fst a \/ fst b = fst a /\ (snd b = true -> snd a = true).
Lemma rank_ge_anti a b : rank_ge a b -> rank_ge b a -> a = b.
Proof. destruct a as [y []], b as [z []]; unfold rank_ge; cbn; intros [H|(H & H1)] [G|(G & G1)]; try lia; subst; try reflexivity; exfalso; (discriminate H1 || discriminate G1 || auto); try (specialize (H1 eq_refl); discriminate); specialize (G1 eq_refl); discriminate. Qed.
Lemma ranks_sorted ms : Permutation (map rank ms) (map rank (pure_sort_rev lm_lt ms)) /\ StronglySorted rank_ge (map rank (pure_sort_rev lm_lt ms)).
Proof.
  destruct (pure_sort_rev_spec lm_lt) with (l := ms) as (P & So).
  - intros x z. unfold lm_lt. destruct (lm_hor x), (lm_hor z); lia.
  - intros x z w. unfold lm_lt. destruct (lm_hor x), (lm_hor z), (lm_hor w); lia.
  - split; [apply Permutation_map, P|]. clear P. induction So as [|x l S IH F]; cbn [map]; constructor; [exact IH|].
    apply Forall_map. revert F. apply Forall_impl. intros y. unfold ListP.le, lm_lt, rank_ge, rank. cbn [fst snd].
    intros H. destruct (Z.lt_ge_cases (lm_y y) (lm_y x)) as [L|L]; [left; exact L|right].
    destruct (lm_hor x), (lm_hor y); cbn in H; (split; [lia|intros Q]); try reflexivity; try discriminate Q; exfalso; lia.
Qed.
Lemma heights_sorted ms : Permutation (map lm_y ms) (scanbeams_of ms) /\ StronglySorted Z.le (scanbeams_of ms).
Proof.
  unfold scanbeams_of. destruct (pure_sort_spec Z.ltb) with (l := map lm_y ms) as (P & So); [lia|lia|]. split; [exact P|].
  clear P. induction So as [|x l S IH F]; constructor; [exact IH|]. revert F. apply Forall_impl. unfold ListP.le. intros y H. lia.
Qed.
(** Two objects with rings of the same shapes and kinds report the same scanbeams
    ([LocalMinimumList.scanbeams]), and every sweep takes their minima in the same order
    of heights and flags ([sorted(minimums, reverse=True)]). *)
Theorem C58_heights_and_order_of_the_sweep :
  forall rv rv' w w' rs rs' moved, built rv w rs -> built rv' w' rs' ->
  Permutation rs moved ->
  Forall2 (fun x y => same_shape (fst x) (fst y) /\ snd x = snd y) moved rs' ->
  scanbeams_of (minima_of w) = scanbeams_of (minima_of w') /\
  map (fun m => (lm_y m, lm_hor m)) (pure_sort_rev lm_lt (minima_of w)) =
  map (fun m => (lm_y m, lm_hor m)) (pure_sort_rev lm_lt (minima_of w')).
Proof.
  intros rv rv' w w' rs rs' moved B B' Pm Sh.
  pose proof (C58_an_object_holds_the_shapes_of_its_rings rv rv' w w' rs rs' moved B B' Pm Sh) as P.
  set (r := fun x : Z * bool * (list edge * polygon_kind * Z) * (list edge * polygon_kind * Z) => fst (fst x)).
  assert (R : Permutation (map rank (minima_of w)) (map rank (minima_of w'))).
  { pose proof (Permutation_map r P) as Q. rewrite !map_map in Q. exact Q. }
  assert (Y : Permutation (map lm_y (minima_of w)) (map lm_y (minima_of w'))).
  { pose proof (Permutation_map fst R) as Q. rewrite !map_map in Q. exact Q. }
  split.
  - destruct (heights_sorted (minima_of w)) as (P1 & S1), (heights_sorted (minima_of w')) as (P2 & S2).
    apply (sorted_unique Z.le); [intros a b; lia|exact S1|exact S2|]. rewrite <- P1, <- P2. exact Y.
  - destruct (ranks_sorted (minima_of w)) as (P1 & S1), (ranks_sorted (minima_of w')) as (P2 & S2).
    apply (sorted_unique rank_ge rank_ge_anti); [exact S1|exact S2|]. rewrite <- P1, <- P2. exact R.
Qed.
Print Assumptions C58_heights_and_order_of_the_sweep.

(** ** Example: a ring with three minima, written in two ways *)
Definition crown : linear_ring := [Pt 0 0; Pt 4 4; Pt 8 0; Pt 8 9; Pt 4 6; Pt 0 9].
Definition crown' : linear_ring := [Pt 4 6; Pt 0 9; Pt 0 5; Pt 0 0; Pt 4 4; Pt 8 0; Pt 8 9].
Definition after_ring (r : linear_ring) : wagyu :=
  match w_add_linear_ring (new_wagyu false) r SUBJECT with Ok (_, w) => w | _ => new_wagyu false end.
Lemma crown_shape : same_shape crown crown'.
Proof.
  eapply shape_chain; [exact (shape_start [Pt 0 0; Pt 4 4; Pt 8 0; Pt 8 9] [Pt 4 6; Pt 0 9])|].
  apply shape_back. apply (drop_at [Pt 4 6; Pt 0 9] (Pt 0 5)). reflexivity.
Qed.
Example C58_example :
  same_shape crown crown' /\
  w_add_linear_ring (new_wagyu false) crown SUBJECT = Ok (true, after_ring crown) /\
  w_add_linear_ring (new_wagyu false) crown' SUBJECT = Ok (true, after_ring crown') /\
  length (minima_of (after_ring crown)) = 3%nat /\
  Permutation [(crown, SUBJECT)] [(crown, SUBJECT)] /\
  Forall2 (fun x y => same_shape (fst x) (fst y) /\ snd x = snd y) [(crown, SUBJECT)] [(crown', SUBJECT)].
Proof.
  split; [exact crown_shape|]. split; [vm_compute; reflexivity|]. split; [vm_compute; reflexivity|]. split; [vm_compute; reflexivity|].
  split; [reflexivity|]. constructor; [split; [exact crown_shape|reflexivity]|constructor].
Qed.
