(** * C53: rings that touch are reconnected into whole rings

    Specification vocabulary: SpecTour (tours of touching rings), SpecRings (rings
    and their vertices), SpecNest (outlines and statistics). *)
From Coq Require Import ZArith List Bool Lia Permutation.
From Verif Require Import Py Monad Geometry LinearRingM BoundM LocalMinimumM
     StateM PointNodeM RingM SweepM TopologyM WagyuM SpecRing SpecHeap SpecRings SpecTree SpecTour
     CircleP RingedP RingedTopP NestP NestTreeP TourP ReconnectP PropNest SpecNest.
Import ListNotations.
Open Scope Z_scope.

(** Whatever rings make up a tour: once it is reconnected, exactly two rings - one of
    the tour and a new one - have vertices of the tour, namely all of them, each ring in
    one closed chain; the other rings of the tour have no points any more.  No vertex
    moves, the vertices of all other rings stay as they were linked, their outlines
    stay, and whatever is recorded about the area, the bounding box and the orientation
    of any ring is right. *)
Theorem C53_reconnection_makes_two_rings_of_a_tour :
  forall fuel parent r o1 o2 l s s', well_ringed s -> up_to_date s ->
  l <> [] -> tour s ((r, (o1, o2)) :: l) ->
  reconnect fuel parent r o1 o2 l s = Ok (tt, s') ->
  well_ringed s' /\ up_to_date s' /\
  exists keep new,
    In keep (map fst ((r, (o1, o2)) :: l)) /\ (forall i, ring_of s i <> Some new) /\ keep <> new /\
    (forall i, on_tour s ((r, (o1, o2)) :: l) i <-> ring_of s' i = Some keep \/ ring_of s' i = Some new) /\
    has_points s' keep /\ has_points s' new /\
    (forall q, q <> keep -> In q (map fst ((r, (o1, o2)) :: l)) -> ~ has_points s' q) /\
    (forall i, npos (node_at s' i) = npos (node_at s i)) /\
    (forall i, ~ on_tour s ((r, (o1, o2)) :: l) i -> node_at s' i = node_at s i) /\
    (forall q vs, q <> new -> ~ In q (map fst ((r, (o1, o2)) :: l)) -> outline_of s q vs <-> outline_of s' q vs).
Proof.
  intros fuel parent r o1 o2 l s s' W U NE T E. set (lf := (r, (o1, o2)) :: l) in *.
  destruct (reconnected fuel parent r o1 o2 l s tt s' (conj W U) NE T E) as ((W' & U') & keep & Hk & MM & OFF & PO & (n & m & Fn & Fm & On & Om) & GO & ST & RN).
  fold lf in Hk, MM, OFF, On, Om, GO, ST. split; [exact W'|]. split; [exact U'|]. exists keep, (s_rnext s).
  assert (NEW : forall i, ring_of s i <> Some (s_rnext s)).
  { intros i H. destruct (wr_known s W i _ H). lia. }
  assert (KN : keep <> s_rnext s).
  { intros ->. destruct T as (_ & e & L). unfold lf in Hk. apply in_map_iff in Hk as ((q & x & y) & Q & Hi). cbn in Q. subst q.
    apply (NEW x). exact (leads_exit s _ x y lf e e Hi L). }
  assert (HP : forall q k, first_of s' q = Some k -> has_points s' q).
  { intros q k F. destruct (well_at s' k q W' (wr_first s' W' q k F)) as (c & C & _). exists (vertices s' (k :: c)), k, c. auto. }
  split; [exact Hk|]. split; [exact NEW|]. split; [exact KN|]. split; [intros i; symmetry; apply MM|].
  split; [exact (HP _ _ Fn)|]. split; [exact (HP _ _ Fm)|].
  split; [intros q Q H (vs & k & c & F & _); rewrite (GO q Q H) in F; discriminate|].
  split; [exact PO|]. split; [exact OFF|].
  intros q vs Q H. assert (N1 : forall i, ring_of s i = Some q -> ~ on_tour s lf i).
  { intros i Hi (p & Hp & Rp). apply H. replace q with p by congruence. exact Hp. }
  assert (FO : forall vs, outline_of s q vs -> outline_of s' q vs).
  { intros us. apply outline_frame; [apply ST; assumption| |exact W]. intros i Hi. apply OFF, N1, Hi. }
  split; [apply FO|]. intros O. pose proof O as (k & c & F & C & Ev). rewrite (ST q Q H) in F.
  destruct (well_at s k q W (wr_first s W q k F)) as (d & D & _).
  assert (O2 : outline_of s q (vertices s (k :: d))) by (exists k, d; auto).
  rewrite (outline_fun s' q vs _ O (FO _ O2)). exact O2.
Qed.
Print Assumptions C53_reconnection_makes_two_rings_of_a_tour.

(** ** Example *)
Definition tt_subject : polygon := [[Pt 8 5; Pt 4 5; Pt 2 3; Pt 6 5; Pt 6 2; Pt 8 5]].
Definition tt_clip : polygon := [[Pt 3 7; Pt 1 3; Pt 2 1; Pt 9 1; Pt 7 0; Pt 3 7]].
Definition tt_both : res wagyu :=
  ('(_, w) <- add_polygon (new_wagyu false) tt_subject SUBJECT ;;
   '(_, w) <- add_polygon w tt_clip CLIP ;; Ok w)%res.
Definition tt_state : res (unit * st) :=
  match tt_both with
  | Ok w => upto_tree 100 XOR EVEN_ODD EVEN_ODD (lml_values (w_minimums w)) (init_st (lml_bounds (w_minimums w)))
  | Raise e => Raise e
  | NoFuel => NoFuel
  end.
Definition tt_after (x : res (unit * st)) : res (unit * st) :=
  match x with Ok (_, s) => reconnect 100 None 1%positive 8%positive 7%positive [(2, (2, 3))]%positive s | Raise e => Raise e | NoFuel => NoFuel end.

(** ring 1, the border, and ring 2, the hole in it, touch at (4,5) and (5,4): they
    make up a tour.  Reconnecting it gives ring 1, the outer part, and ring 6, the
    triangle between them; ring 2 is left without points *)
Example C53_example :
  shown tt_state = Some
    [(1%positive, None, [Pt 6 1; Pt 2 1; Pt 1 3; Pt 3 7; Pt 4 5; Pt 6 5; Pt 5 4; Pt 6 2]);
     (2%positive, Some 1%positive, [Pt 2 3; Pt 5 4; Pt 4 5]); (3%positive, Some 1%positive, []);
     (4%positive, None, [Pt 6 5; Pt 8 5; Pt 6 2]); (5%positive, None, [Pt 6 1; Pt 9 1; Pt 7 0])] /\
  shown (tt_after tt_state) = Some
    [(1%positive, None, [Pt 5 4; Pt 6 2; Pt 6 1; Pt 2 1; Pt 1 3; Pt 3 7; Pt 4 5; Pt 2 3]);
     (2%positive, Some 1%positive, []); (3%positive, Some 1%positive, []);
     (4%positive, None, [Pt 6 5; Pt 8 5; Pt 6 2]); (5%positive, None, [Pt 6 1; Pt 9 1; Pt 7 0]);
     (6%positive, None, [Pt 5 4; Pt 4 5; Pt 6 5])].
Proof. vm_compute. split; reflexivity. Qed.
Definition tt_rings (x : res (unit * st)) :=
  match x with Ok (_, s) => (ring_of s 3, ring_of s 8, ring_of s 7, ring_of s 2)%positive | _ => (None, None, None, None) end.
Example tt_rings_value : tt_rings tt_state = (Some 1, Some 1, Some 2, Some 2)%positive.
Proof. vm_compute. reflexivity. Qed.
(** the theorem applies to this state *)
Definition tt_applicable (x : res (unit * st)) : Prop :=
  match x, tt_after x with
  | Ok (_, s), Ok (_, s1) =>
      well_ringed s /\ up_to_date s /\ tour s [(1, (8, 7)); (2, (2, 3))]%positive /\
      reconnect 100 None 1%positive 8%positive 7%positive [(2, (2, 3))]%positive s = Ok (tt, s1)
  | _, _ => False
  end.
Lemma tt_hypotheses x b :
  (forall s, x = Ok (tt, s) -> well_ringed s /\ up_to_date s) ->
  tt_rings x = (Some 1, Some 1, Some 2, Some 2)%positive -> shown (tt_after x) = Some b -> tt_applicable x.
Proof.
  intros W X Y. unfold tt_applicable. destruct x as [[[] s]|e|]; [|discriminate X..]. specialize (W s eq_refl).
  unfold tt_after in *. destruct (reconnect 100 _ _ _ _ _ s) as [[[] s1]|e|] eqn:Eo; [|discriminate Y..].
  unfold tt_rings in X. injection X as X1 X2 X3 X4. split; [apply W|]. split; [apply W|]. split; [|reflexivity]. split.
  - cbn. repeat constructor; cbn; intuition discriminate.
  - exists 3%positive. cbn. repeat split; assumption || discriminate.
Qed.
Lemma tt_state_well s : tt_state = Ok (tt, s) -> well_ringed s /\ up_to_date s.
Proof.
  unfold tt_state. destruct tt_both as [w|e|]; [|discriminate..]. intros E.
  destruct (C47_rings_are_nested_after_the_sweep _ _ _ _ _ _ _ E) as (A & B & _). split; assumption.
Qed.
Example C53_example_hypotheses : tt_applicable tt_state.
Proof. exact (tt_hypotheses tt_state _ tt_state_well tt_rings_value (proj2 C53_example)). Qed.
