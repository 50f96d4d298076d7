(** * C55: no ring of the answer visits a point twice

    Specification vocabulary: SpecTour ([two_at_most]), SpecNest ([outline_of]). *)
From Coq Require Import ZArith List Bool Lia Permutation.
From Verif Require Import Py Monad Geometry LinearRingM BoundM LocalMinimumM
     StateM PointNodeM RingM SweepM TopologyM WagyuM HoareP CalmP OrderP SpecRing SpecHeap SpecRings SpecTree SpecTour
     CircleP RingedP RingedTopP NestP TourP ReconnectP TouchingP SelfTreeP MarkTourP PropTree PropNest PropSimple PropTour PropTouching SpecNest.
From Verif Require VatP PointersP.
Import ListNotations.
Open Scope Z_scope.

(** The repeated corrections at the end: from whole rings none of which visits a point
    twice they lead to whole rings none of which visits a point twice, although rings
    that touch were joined and cut in between. *)
Theorem C55_the_last_corrections_leave_no_repeated_point :
  forall fuel s s', well_ringed s -> up_to_date s -> two_at_most s ->
  (forall r vs, outline_of s r vs -> NoDup vs) ->
  rounds fuel s = Ok (tt, s') ->
  forall r vs, outline_of s' r vs -> NoDup vs.
Proof.
  intros fuel s s' W U T D E. destruct (rounds_simple fuel s tt s' (conj W U) T) as (_ & _ & S); [|exact E|exact S].
  intros r vs _ O. exact (D r vs O).
Qed.
Print Assumptions C55_the_last_corrections_leave_no_repeated_point.

(** the state from which the result is written *)
Lemma ready_to_write fuel op sfk cfk ms bounds s' :
  (build_hot_pixels fuel ms ;; execute_vatti fuel op sfk cfk ms ;; correct_topology fuel)%M (init_st bounds) = Ok (tt, s') ->
  (forall s, upto_tree fuel op sfk cfk ms (init_st bounds) = Ok (tt, s) -> two_at_most s) ->
  well_ringed s' /\ two_at_most s' /\ forall r vs, outline_of s' r vs -> NoDup vs.
Proof.
  intros E H.
  inv_bind E u1 s1 E1. destruct u1. inv_bind E u2 s2 E2. destruct u2. unfold correct_topology in E.
  inv_bind E u3 s3 E3. inv_bind E u4 s4 E4. inv_bind E u5 s5 E5. inv_bind E u6 s6 E6. inv_bind E u7 s7 E7. destruct u7.
  assert (F : upto_tree fuel op sfk cfk ms (init_st bounds) = Ok (tt, s7)).
  { unfold upto_tree. rewrite (bind_run _ _ _ _ _ E1), (bind_run _ _ _ _ _ E2), (bind_run _ _ _ _ _ E3), (bind_run _ _ _ _ _ E4), (bind_run _ _ _ _ _ E5), (bind_run _ _ _ _ _ E6). exact E7. }
  destruct (C47_rings_are_nested_after_the_sweep _ _ _ _ _ _ _ F) as (W & U & _).
  pose proof (C48_rings_are_simple_after_the_sweep _ _ _ _ _ _ _ F) as D.
  destruct (rounds_simple fuel s7 tt s' (conj W U) (H s7 F)) as ((W' & _) & T' & S); [intros r vs _ O; exact (D r vs O)|exact E|].
  auto.
Qed.

(** The answer of every operation: no ring visits a point twice (the last point of a
    ring repeats the first one), if no three ring vertices are in one place when the
    tree of the rings has been built. *)
Definition meet_in_twos (fuel : nat) (w : wagyu) (op : operation_kind) (sfk cfk : fill_kind) : Prop :=
  forall s, upto_tree fuel op sfk cfk (lml_values (w_minimums w)) (init_st (lml_bounds (w_minimums w))) = Ok (tt, s) -> two_at_most s.
Lemma answer_written fuel w op sfk cfk result w' :
  execute fuel w op sfk cfk = Ok (result, w') -> meet_in_twos fuel w op sfk cfk ->
  concat result = [] \/ exists s dir rs, well_ringed s /\ two_at_most s /\ (forall r vs, outline_of s r vs -> NoDup vs) /\
    (dir = n_next \/ dir = n_prev) /\ NoDup rs /\ Forall2 (written s dir) rs (concat result).
Proof.
  intros E H. destruct (lml_values (w_minimums w)) as [|m0 ms0] eqn:Em.
  { left. unfold execute in E. rewrite Em in E. injection E as <- _. reflexivity. }
  right. destruct (C33_output_lists_every_ring_once fuel w op sfk cfk result w') as (s & bs & Es & _ & ND & _ & _ & F); [rewrite Em; discriminate|exact E|].
  destruct (ready_to_write _ _ _ _ _ _ _ Es H) as (W & T & D).
  exists s, (if w_reverse w then n_next else n_prev), (written_rings s bs). do 3 (split; [assumption|]).
  split; [destruct (w_reverse w); auto|]. split; [exact ND|]. clear - F.
  induction F as [|b poly bs ps (border & holes & -> & A & B) F IH]; [constructor|]. cbn. constructor; [exact A|]. apply Forall2_app; assumption.
Qed.
Theorem C55_no_ring_of_the_answer_visits_a_point_twice :
  forall fuel w op sfk cfk result w',
  execute fuel w op sfk cfk = Ok (result, w') -> meet_in_twos fuel w op sfk cfk ->
  forall poly ring, In poly result -> In ring poly -> NoDup (tl ring).
Proof.
  intros fuel w op sfk cfk result w' E H poly ring Ip Ir.
  assert (I : In ring (concat result)) by (apply in_concat; eauto).
  destruct (answer_written _ _ _ _ _ _ _ E H) as [X|(s & dir & rs & W & T & D & HD & ND & F)]; [rewrite X in I; destruct I|].
  assert (G : exists r, written s dir r ring).
  { clear - F I. induction F as [|r p rs ps A F IH]; [destruct I|]. destruct I as [<-|I]; [eauto|exact (IH I)]. }
  destruct G as (r & Wr). destruct (written_lap s dir r ring W HD Wr) as (n & m & Fn & C & _ & P).
  apply (Permutation_NoDup (Permutation_sym P)). apply (D r). exists n, m. auto.
Qed.
Print Assumptions C55_no_ring_of_the_answer_visits_a_point_twice.
(** All rings of the answer together visit no point more than twice. *)
Theorem C55_no_point_is_visited_more_than_twice :
  forall fuel w op sfk cfk result w',
  execute fuel w op sfk cfk = Ok (result, w') -> meet_in_twos fuel w op sfk cfk ->
  forall p, (count_occ MiscP.point_eq_dec (flat_map (@tl point) (concat result)) p <= 2)%nat.
Proof.
  intros fuel w op sfk cfk result w' E H p.
  destruct (answer_written _ _ _ _ _ _ _ E H) as [X|(s & dir & rs & W & T & _ & HD & ND & F)]; [rewrite X; cbn; lia|].
  destruct (written_all s dir rs _ W HD ND F) as (ids & A & B & P).
  rewrite (proj1 (Permutation_count_occ MiscP.point_eq_dec _ _) P p). apply count_two; [exact T|exact A|].
  intros i Hi. destruct (B i Hi) as (r & _ & Rr). congruence.
Qed.
Print Assumptions C55_no_point_is_visited_more_than_twice.

(** ** Example *)
(** the two polygons of [tt_state]: the border and the hole of their symmetric difference
    touch and are reconnected; the point where the new rings touch is visited twice, by
    different rings *)
Definition tt_from (x : res wagyu) : res (unit * st) :=
  match x with
  | Ok w => upto_tree 100 XOR EVEN_ODD EVEN_ODD (lml_values (w_minimums w)) (init_st (lml_bounds (w_minimums w)))
  | Raise e => Raise e
  | NoFuel => NoFuel
  end.
Definition tt_answer (x : res wagyu) : option multipolygon :=
  match x with
  | Ok w => match execute 100 w XOR EVEN_ODD EVEN_ODD with Ok (r, _) => Some r | _ => None end
  | _ => None
  end.
Lemma tt_meet x w : match tt_from x with Ok (_, s) => twos s | _ => false end = true -> x = Ok w -> meet_in_twos 100 w XOR EVEN_ODD EVEN_ODD.
Proof.
  intros H -> s E. unfold tt_from in H. rewrite E in H.
  destruct (C47_rings_are_nested_after_the_sweep _ _ _ _ _ _ _ E) as (W & _). exact (twos_right s W H).
Qed.
Lemma tt_twos_hold : match tt_from tt_both with Ok (_, s) => twos s | _ => false end = true.
Proof. vm_compute. reflexivity. Qed.
Example C55_example_meets : forall w, tt_both = Ok w -> meet_in_twos 100 w XOR EVEN_ODD EVEN_ODD.
Proof. exact (fun w => tt_meet tt_both w tt_twos_hold). Qed.
Definition tt_visits (x : option multipolygon) (ps : list point) : option (nat * list nat) :=
  match x with
  | Some r => Some (length r, map (fun p => length (filter (point_eqb p) (flat_map (@tl point) (concat r)))) ps)
  | None => None
  end.
Example C55_example : tt_visits (tt_answer tt_both) [Pt 4 5; Pt 5 4; Pt 2 3] = Some (4, [2; 2; 1])%nat.
Proof. vm_compute. reflexivity. Qed.
