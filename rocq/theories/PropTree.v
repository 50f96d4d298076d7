(** * Property theorems C32 and C33: the ring tree and the result made from it *)
From Coq Require Import ZArith List Bool Lia FMapPositive.
From Verif Require Import Py Monad Utils Geometry LinearRingM BoundM LocalMinimumM StateM
     PointNodeM RingM SweepM TopologyM WagyuM Examples HoareP SweepFrameP CalmP VatP SpecTree TreeP OutputP.
Import ListNotations.
Local Open Scope Z_scope.

(** ** C32: the ring tree stays consistent *)

Lemma init_tree bs : tree_ok (init_st bs).
Proof.
  intros [o|] r L; unfold listed, kids, the_ring in L; cbn in L.
  - unfold hget in L. rewrite PositiveMap.gempty in L. destruct L.
  - destruct L.
Qed.

(** Whatever the minima, the operation and the fill rules: after the hot-pixel pass, after
    the sweep and after the topology correction, every ring recorded as a child of [o] has
    [o] as its parent, is recorded there once, and was created. *)
Theorem C32_ring_tree_is_consistent : forall fuel op sfk cfk ms bounds s1 s2 s3,
  build_hot_pixels fuel ms (init_st bounds) = Ok (tt, s1) ->
  execute_vatti fuel op sfk cfk ms s1 = Ok (tt, s2) ->
  correct_topology fuel s2 = Ok (tt, s3) ->
  tree_ok s1 /\ tree_ok s2 /\ tree_ok s3.
Proof.
  intros fuel op sfk cfk ms bounds s1 s2 s3 E1 E2 E3.
  assert (T1 : tree_ok s1).
  { destruct (us_build_hot_pixels treeR fuel ms _ _ _ E1 (init_tree bounds)) as (T & _); [intros ? []|exact T]. }
  assert (T2 : tree_ok s2).
  { destruct (us_execute_vatti fuel op sfk cfk ms _ _ _ E2 T1) as (T & _); [intros ? []|exact T]. }
  split; [exact T1|]. split; [exact T2|]. exact (kt_correct_topology fuel _ _ _ T2 E3).
Qed.
Print Assumptions C32_ring_tree_is_consistent.

(** ** C33: the result lists every ring once *)

(** all the rings written to the result: every border followed by its holes *)
Definition written_rings (s : st) (borders : list rid) : list rid :=
  flat_map (fun r => r :: present (kids s (Some r))) borders.

(** If [execute] on an object with at least one contributing ring returns [result], then
    it built a consistent ring tree (in a state [s]) and [result] has one polygon for every
    ring at an even depth: that ring as its border and the rings directly below it, in the
    order of its list of children, as holes.  Every ring of the tree is written exactly
    once.  [reverse_output] only decides in which direction each ring is written. *)
Theorem C33_output_lists_every_ring_once : forall fuel w op sfk cfk result w',
  lml_values (w_minimums w) <> [] ->
  execute fuel w op sfk cfk = Ok (result, w') ->
  exists s borders,
    (build_hot_pixels fuel (lml_values (w_minimums w)) ;;
     execute_vatti fuel op sfk cfk (lml_values (w_minimums w)) ;;
     correct_topology fuel)%M (init_st (lml_bounds (w_minimums w))) = Ok (tt, s) /\
    tree_ok s /\
    NoDup (written_rings s borders) /\
    (forall r, In r borders <-> exists k, rank s r (2 * k)) /\
    (forall r, In r (written_rings s borders) <-> exists n, rank s r n) /\
    Forall2 (polygon_of s (if w_reverse w then n_next else n_prev)) borders result.
Proof.
  intros fuel w op sfk cfk result w' NE E. unfold execute in E.
  destruct (lml_values (w_minimums w)) as [|m0 ms0] eqn:Em; [contradiction|]. clear NE.
  unfold rbind in E. destruct (run _ _ _ _ _ _ _) as [[r s]| |] eqn:Er; try discriminate. injection E as -> _.
  unfold run in Er. inv_bind Er u1 s1 E1. inv_bind Er u2 s2 E2. inv_bind Er u3 s3 E3.
  destruct u1, u2, u3.
  destruct (C32_ring_tree_is_consistent _ _ _ _ _ _ _ _ _ E1 E2 E3) as (_ & _ & T).
  destruct (build_result_spec fuel (w_reverse w) s3 result s T Er) as (-> & shells & N & I & F).
  assert (W : forall r, In r (written_rings s3 shells) <-> exists n, rank s3 r n).
  { intros r. unfold written_rings. rewrite in_flat_map. split.
    - intros (b & Hb & [->|H]).
      + apply I in Hb. destruct Hb as (k & Hb). eauto.
      + apply I in Hb. destruct Hb as (k & Hb). apply in_present in H. exists (S (2 * k)). eapply rank_child; eassumption.
    - intros (n & H). destruct (Nat.Even_or_Odd n) as [(k & ->)|(k & ->)].
      + exists r. split; [apply I; exists k; exact H|left; reflexivity].
      + rewrite Nat.add_1_r in H. inversion H as [|p ? ? Hp L]; subst. exists p. split; [apply I; exists k; exact Hp|].
        right. apply in_present. exact L. }
  exists s3, shells. split; [|split; [exact T|split; [|split; [exact I|split; [exact W|exact F]]]]].
  - unfold bind. rewrite E1, E2. exact E3.
  - apply NoDup_flat.
    + exact N.
    + intros b Hb. constructor; [|apply nodup_kids; exact T]. intros H. apply in_present in H.
      apply I in Hb. destruct Hb as (k & Hb). pose proof (rank_child s3 b b _ Hb H) as H'.
      pose proof (rank_unique s3 T _ _ Hb _ H'). lia.
    + assert (D : forall b x, In b shells -> In x (b :: present (kids s3 (Some b))) ->
                  (x = b /\ exists k, rank s3 x (2 * k)) \/ (parent_of s3 x = Some b /\ exists k, rank s3 x (2 * k + 1))).
      { intros b x Hb [->|H]; [left; split; [reflexivity|apply I; exact Hb]|]. right. apply in_present in H.
        split; [apply (T (Some b) x H)|]. apply I in Hb. destruct Hb as (k & Hb). exists k.
        rewrite Nat.add_1_r. eapply rank_child; eassumption. }
      intros a b x Ha Hb Ga Gb.
      destruct (D a x Ha Ga) as [(Ea & ka & Ra)|(Pa & ka & Ra)], (D b x Hb Gb) as [(Eb & kb & Rb)|(Pb & kb & Rb)].
      * congruence.
      * pose proof (rank_unique s3 T _ _ Ra _ Rb). lia.
      * pose proof (rank_unique s3 T _ _ Ra _ Rb). lia.
      * congruence.
Qed.
Print Assumptions C33_output_lists_every_ring_once.

(** Seen from the API alone: every polygon of the result has a border, and every ring is
    closed (its last point is its first) and has at least one point besides. *)
Theorem C33_result_rings_are_closed : forall fuel w op sfk cfk result w',
  execute fuel w op sfk cfk = Ok (result, w') ->
  forall poly, In poly result -> poly <> [] /\
  forall ring, In ring poly -> exists p l, ring = p :: l ++ [p].
Proof.
  intros fuel w op sfk cfk result w' E poly Hp.
  destruct (lml_values (w_minimums w)) as [|m0 ms0] eqn:Em.
  { unfold execute in E. rewrite Em in E. injection E as <- _. destruct Hp. }
  destruct (C33_output_lists_every_ring_once fuel w op sfk cfk result w') as (s & bs & _ & _ & _ & _ & _ & F);
    [rewrite Em; discriminate|exact E|].
  assert (G : exists b, polygon_of s (if w_reverse w then n_next else n_prev) b poly).
  { clear - F Hp. induction F as [|a x la lx H F IH]; [destruct Hp|]. destruct Hp as [->|Hp]; [exists a; exact H|exact (IH Hp)]. }
  destruct G as (b & border & holes & -> & W & WH). split; [discriminate|].
  assert (C : forall r pts, written s (if w_reverse w then n_next else n_prev) r pts -> exists p l, pts = p :: l ++ [p]).
  { intros r pts (n & l & _ & _ & ->). exists (place_of s n), (map (place_of s) l). reflexivity. }
  intros ring [->|H]; [eapply C; exact W|]. clear - WH H C. induction WH as [|a x la lx Hx F IH]; [destruct H|].
  destruct H as [->|H]; [eapply C; exact Hx|exact (IH H)].
Qed.
Print Assumptions C33_result_rings_are_closed.

(** ** A case with a border, a hole in it and an island in the hole *)
Definition square (a b : Z) : linear_ring := [Pt a a; Pt b a; Pt b b; Pt a b; Pt a a].
Definition ex_nested : res (bool * wagyu) :=
  add_polygon (new_wagyu false) [square 0 10; square 2 8; square 4 6] SUBJECT.
Example C33_example : match ex_nested with
  | Ok (b, w) => (b, length (lml_values (w_minimums w)),
                  match execute 100 w UNION EVEN_ODD EVEN_ODD with Ok (r, _) => r | _ => [] end)
  | _ => (false, 0%nat, []) end =
  (true, 3%nat,
   [[[Pt 10 0; Pt 10 10; Pt 0 10; Pt 0 0; Pt 10 0]; [Pt 8 2; Pt 2 2; Pt 2 8; Pt 8 8; Pt 8 2]];
    [[Pt 6 4; Pt 6 6; Pt 4 6; Pt 4 4; Pt 6 4]]]).
Proof. vm_compute. reflexivity. Qed.
(** the tree of that run: ring 1 is outermost, 2 is its child, 3 is the child of 2 *)
Example C32_example : match ex_nested with
  | Ok (_, w) =>
      match (build_hot_pixels 100 (lml_values (w_minimums w)) ;;
             execute_vatti 100 UNION EVEN_ODD EVEN_ODD (lml_values (w_minimums w)) ;;
             correct_topology 100)%M (init_st (lml_bounds (w_minimums w))) with
      | Ok (_, s) => map (kids s) [None; Some 1%positive; Some 2%positive; Some 3%positive]
      | _ => []
      end
  | _ => []
  end = [[Some 1%positive]; [Some 2%positive]; [Some 3%positive]; []].
Proof. vm_compute. reflexivity. Qed.
