(** * C54: correcting touching rings keeps all rings whole

    Specification vocabulary: SpecTour ([two_at_most]), SpecRings (rings and their
    vertices), SpecNest (outlines and statistics). *)
From Coq Require Import ZArith List Bool Lia Permutation.
From Verif Require Import Py Monad Geometry LinearRingM BoundM LocalMinimumM
     StateM PointNodeM RingM SweepM TopologyM WagyuM HoareP CalmP OrderP SpecRing SpecHeap SpecRings SpecTree SpecTour
     CircleP RingedP RingedTopP NestP NestTreeP KeepOrderP TourP ReconnectP TouchingP SelfTreeP PropNest PropTour SpecNest.
Import ListNotations.
Open Scope Z_scope.

(** However many rings touch one another: if no three vertices meet at one place,
    correcting the touching rings keeps every ring one closed chain and every record
    about a ring right, moves no vertex, and loses or adds none. *)
Theorem C54_correcting_touching_rings_keeps_them_whole :
  forall fuel s s', well_ringed s -> up_to_date s -> two_at_most s ->
  correct_chained_rings fuel s = Ok (tt, s') ->
  well_ringed s' /\ up_to_date s' /\ two_at_most s' /\
  (forall i, npos (node_at s' i) = npos (node_at s i)) /\
  (forall i, (exists r, ring_of s' i = Some r) <-> (exists r, ring_of s i = Some r)).
Proof.
  intros fuel s s' W U T E. destruct (chained_order fuel s tt s' (conj W U) T E) as ((W' & U') & T' & P & L).
  do 3 (split; [assumption|]). split; [exact P|]. intros i. specialize (L i).
  destruct (ring_of s' i) as [a|], (ring_of s i) as [b|]; split; intros (x & X); try discriminate; eauto.
  - exfalso. apply (proj1 L); [discriminate|reflexivity].
  - exfalso. apply (proj2 L); [discriminate|reflexivity].
Qed.
Print Assumptions C54_correcting_touching_rings_keeps_them_whole.

(** The corrections of touching rings and of rings that touch themselves take turns
    until nothing is left to correct. *)
Definition rounds (fuel : nat) : prog unit :=
  loopM fuel (fun _ =>
     (correct_chained_rings fuel ;;
      again <- correct_self_intersections fuel true ;;
      ret (if (again : bool) then inl tt else inr tt)))%M tt.
Theorem C54_correcting_until_nothing_touches_keeps_rings_whole :
  forall fuel s s', well_ringed s -> up_to_date s -> two_at_most s ->
  rounds fuel s = Ok (tt, s') ->
  well_ringed s' /\ up_to_date s' /\
  (forall i, npos (node_at s' i) = npos (node_at s i)) /\
  (forall i r, ring_of s' i = Some r -> exists q, ring_of s i = Some q).
Proof.
  intros fuel s s' W U T E. destruct (rounds_order fuel s tt s' (conj W U) T E) as ((W' & U') & _ & P & L).
  do 2 (split; [assumption|]). split; [exact P|]. intros i r R. specialize (L i).
  destruct (ring_of s i) as [b|]; [eauto|]. exfalso. apply L; [congruence|reflexivity].
Qed.
Print Assumptions C54_correcting_until_nothing_touches_keeps_rings_whole.

(** The whole operation up to the writing of the result: whatever the polygons, if the
    rings that the tree is built of meet in twos only, the state from which the result
    is written has whole rings with right records. *)
Theorem C54_rings_are_whole_when_the_result_is_written :
  forall fuel op sfk cfk minimums bounds s',
  (build_hot_pixels fuel minimums ;; execute_vatti fuel op sfk cfk minimums ;; correct_topology fuel)%M (init_st bounds) = Ok (tt, s') ->
  (forall s, upto_tree fuel op sfk cfk minimums (init_st bounds) = Ok (tt, s) -> two_at_most s) ->
  well_ringed s' /\ up_to_date s'.
Proof.
  intros fuel op sfk cfk minimums bounds s' E H.
  inv_bind E u1 s1 E1. destruct u1. inv_bind E u2 s2 E2. destruct u2. unfold correct_topology in E.
  inv_bind E u3 s3 E3. inv_bind E u4 s4 E4. inv_bind E u5 s5 E5. inv_bind E u6 s6 E6. inv_bind E u7 s7 E7. destruct u7.
  assert (F : upto_tree fuel op sfk cfk minimums (init_st bounds) = Ok (tt, s7)).
  { unfold upto_tree. rewrite (bind_run _ _ _ _ _ E1), (bind_run _ _ _ _ _ E2), (bind_run _ _ _ _ _ E3), (bind_run _ _ _ _ _ E4), (bind_run _ _ _ _ _ E5), (bind_run _ _ _ _ _ E6). exact E7. }
  destruct (C47_rings_are_nested_after_the_sweep _ _ _ _ _ _ _ F) as (W & U & _).
  destruct (C54_correcting_until_nothing_touches_keeps_rings_whole fuel s7 s' W U (H s7 F) E) as (A & B & _). auto.
Qed.
Print Assumptions C54_rings_are_whole_when_the_result_is_written.

(** ** Example *)
(** the rings of [tt_state] meet in twos *)
Definition ids (s : st) : list nid := map Pos.of_nat (seq 1 (Pos.to_nat (s_nnext s))).
Definition live (s : st) : list nid := filter (fun i => match ring_of s i with Some _ => true | None => false end) (ids s).
Definition met (s : st) (i j : nid) : bool := point_eqb (npos (node_at s i)) (npos (node_at s j)).
Definition twos (s : st) : bool :=
  forallb (fun i => forallb (fun j => forallb (fun k =>
    negb (met s i j && met s j k) || Pos.eqb i j || Pos.eqb j k || Pos.eqb i k) (live s)) (live s)) (live s).
Lemma twos_right s : well_ringed s -> twos s = true -> two_at_most s.
Proof.
  intros W H. assert (L : forall i, ring_of s i <> None -> In i (live s)).
  { intros i Hi. unfold live. apply filter_In. split; [|destruct (ring_of s i); congruence].
    destruct (ring_of s i) as [r|] eqn:R; [|congruence]. destruct (wr_known s W i r R) as (K & _).
    unfold ids. apply in_map_iff. exists (Pos.to_nat i). split; [apply Pos2Nat.id|]. apply in_seq. lia. }
  intros i j k A B C D E. unfold twos in H. rewrite forallb_forall in H. specialize (H i (L i A)). rewrite forallb_forall in H.
  specialize (H j (L j B)). rewrite forallb_forall in H. specialize (H k (L k C)). unfold met in H.
  apply MiscP.point_eqb_eq in D, E. rewrite D, E in H. cbn in H.
  apply orb_true_iff in H as [H|H]; [apply orb_true_iff in H as [H|H]|]; apply Pos.eqb_eq in H; auto.
Qed.
Definition tt_chained (x : res (unit * st)) : res (unit * st) :=
  match x with Ok (_, s) => correct_chained_rings 100 s | Raise e => Raise e | NoFuel => NoFuel end.
Definition tt_rounds (x : res (unit * st)) : res (unit * st) :=
  match x with Ok (_, s) => rounds 100 s | Raise e => Raise e | NoFuel => NoFuel end.
(** correcting the touching rings of [tt_state] gives the two rings of C53's example,
    found by the code itself; after that nothing is left to correct *)
Example C54_example :
  match tt_state with Ok (_, s) => twos s | _ => false end = true /\
  shown (tt_chained tt_state) = shown (tt_after tt_state) /\ shown (tt_rounds tt_state) = shown (tt_after tt_state) /\
  shown (tt_after tt_state) <> shown tt_state.
Proof.
  split; [|split; [|split]].
  - vm_compute. reflexivity.
  - vm_compute. reflexivity.
  - vm_compute. reflexivity.
  - rewrite (proj1 C53_example), (proj2 C53_example). discriminate.
Qed.
(** the theorems apply to this state *)
Definition tt_twos (x : res (unit * st)) : Prop :=
  match x, tt_chained x, tt_rounds x with
  | Ok (_, s), Ok (_, s1), Ok (_, s2) =>
      well_ringed s /\ up_to_date s /\ two_at_most s /\
      correct_chained_rings 100 s = Ok (tt, s1) /\ rounds 100 s = Ok (tt, s2)
  | _, _, _ => False
  end.
Lemma C54_hypotheses x b : (forall s, x = Ok (tt, s) -> well_ringed s /\ up_to_date s) ->
  match x with Ok (_, s) => twos s | _ => false end = true ->
  shown (tt_chained x) = Some b -> shown (tt_rounds x) = Some b -> tt_twos x.
Proof.
  intros W X Y Z. unfold tt_twos. destruct x as [[[] s]|e|]; [|discriminate X..]. destruct (W s eq_refl) as (W1 & W2).
  unfold tt_chained, tt_rounds in *. destruct (correct_chained_rings 100 s) as [[[] s1]|e|]; [|discriminate Y..].
  destruct (rounds 100 s) as [[[] s2]|e|]; [|discriminate Z..]. do 2 (split; [assumption|]). split; [exact (twos_right s W1 X)|]. split; reflexivity.
Qed.
Example C54_example_hypotheses : tt_twos tt_state.
Proof.
  exact (C54_hypotheses tt_state _ tt_state_well (proj1 C54_example) (eq_trans (proj1 (proj2 C54_example)) (proj2 C53_example))
    (eq_trans (proj1 (proj2 (proj2 C54_example))) (proj2 C53_example))).
Qed.
