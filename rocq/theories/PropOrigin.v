(** * Property theorem C36: where the vertices of a result come from *)
From Coq Require Import ZArith List Bool Lia FMapPositive.
From Verif Require Import Py Monad Utils Geometry LinearRingM BoundM LocalMinimumM StateM
     PointNodeM RingM SweepM TopologyM WagyuM Examples SpecRing SpecBounds SpecOrigin FloatP
     HistoryP CalmP PointersP VatP OriginP.
Import ListNotations.
Local Open Scope Z_scope.

(** the edges of the rings added to the object (a horizontal edge in either
    direction) *)
Definition input_edge (rs : list (linear_ring * polygon_kind)) (e : edge) : Prop :=
  exists pts kind es e', In (pts, kind) rs /\ linear_ring_edges pts = Ok es /\ In e' es /\ undirected e = undirected e'.

Lemma vertex_origin_mono (E E' : edge -> Prop) q : (forall e, E e -> E' e) -> vertex_origin E q -> vertex_origin E' q.
Proof.
  intros H [e He Hq|e f z He Hf Hz Hq|h e x Hh Hl Hp He Hx Hq].
  - exact (vo_end _ _ e (H _ He) Hq).
  - exact (vo_cross _ _ e f z (H _ He) (H _ Hf) Hz Hq).
  - exact (vo_level _ _ h e x (H _ Hh) Hl Hp (H _ He) Hx Hq).
Qed.
Lemma well_made_flat e : well_made e -> (is_horizontal e = true <-> py (etop e) = py (ebot e)).
Proof.
  intros (N & L & S). unfold is_horizontal. destruct (Z.eqb_spec (py (etop e)) (py (ebot e))) as [E|E].
  - rewrite S. split; [auto|reflexivity].
  - split; [|contradiction]. intros Hi. assert (D : py (etop e) - py (ebot e) <> 0) by lia.
    destruct (truediv_cases (px (etop e) - px (ebot e)) _ D) as [(f & F & G)|F]; rewrite S in F; [|discriminate].
    injection F as F. rewrite F in Hi. destruct G as (_ & G). destruct f; discriminate.
Qed.
Lemma ascends_nth : forall l a b k e f, ascends a l b -> nth_error l k = Some e -> nth_error l (S k) = Some f -> ebot f = etop e.
Proof.
  induction l as [|x l IH]; intros a b k e f H He Hf; [destruct k; discriminate|]. destruct H as (_ & _ & H).
  destruct k as [|k]; cbn in He, Hf.
  - injection He as ->. destruct l as [|z l]; [discriminate|]. injection Hf as ->. apply H.
  - eapply IH; eassumption.
Qed.
Lemma nth_two : forall (l : list edge) k e f, nth_error l k = Some e -> nth_error l (S k) = Some f -> exists l1 l2, l = l1 ++ e :: f :: l2.
Proof.
  induction l as [|x l IH]; intros k e f He Hf; [destruct k; discriminate|]. destruct k as [|k]; cbn in He, Hf.
  - injection He as ->. destruct l as [|z l]; [discriminate|]. injection Hf as ->. exists [], l. reflexivity.
  - destruct (IH k e f He Hf) as (l1 & l2 & ->). exists (x :: l1), l2. reflexivity.
Qed.

Section Built.
Context (w : wagyu) (rs : list (linear_ring * polygon_kind)) (R : well_recorded w rs).
Let eds (i : bid) : list edge := b_edges (bget (lml_bounds (w_minimums w)) i).
Lemma eds_hor i e : recorded w i -> In e (eds i) -> (is_horizontal e = true <-> py (etop e) = py (ebot e)).
Proof. intros Ri I. apply well_made_flat. eapply recorded_edge_well_made; eassumption. Qed.
Lemma eds_shape i : recorded w i -> (exists a b, ascends a (eds i) b) /\ flats_apart (eds i).
Proof.
  intros (lm & I & Hi). pose proof (wr_shape _ _ R) as S. rewrite Forall_forall in S.
  destruct (S lm I) as ((c & tl & tr & A1 & A2 & _) & _ & _ & _ & _ & _ & _ & _ & F1 & F2 & _). unfold eds.
  destruct Hi as [->| ->]; split; eauto.
Qed.
Lemma eds_chain i k e f : recorded w i -> nth_error (eds i) k = Some e -> nth_error (eds i) (S k) = Some f ->
  ebot f = etop e /\ (is_horizontal e = true -> is_horizontal f = false).
Proof.
  intros Ri He Hf. destruct (eds_shape i Ri) as ((a & b & A) & F). split; [eapply ascends_nth; eassumption|].
  intros Hh. destruct (is_horizontal f) eqn:Hg; [|reflexivity]. exfalso.
  apply (eds_hor i e Ri) in Hh; [|eapply nth_error_In, He]. apply (eds_hor i f Ri) in Hg; [|eapply nth_error_In, Hf].
  destruct (nth_two _ _ _ _ He Hf) as (l1 & l2 & El). eapply F; eassumption.
Qed.
Lemma minima_ok : Forall (min_ok eds (recorded w)) (lml_values (w_minimums w)).
Proof.
  pose proof (wr_shape _ _ R) as S. rewrite Forall_forall in *. intros lm I.
  assert (Rl : recorded w (lm_left lm)) by (exists lm; auto). assert (Rr : recorded w (lm_right lm)) by (exists lm; auto).
  destruct (S lm I) as ((c & tl & tr & A1 & A2 & Y) & N1 & N2 & _ & Fl & Fr & _). fold (eds (lm_left lm)) in *. fold (eds (lm_right lm)) in *.
  split; [exact Rl|]. split; [exact Rr|]. split; [|split; [|split; assumption]].
  - intros e He. destruct (eds (lm_left lm)) as [|x l] eqn:El; [discriminate|]. injection He as ->. destruct A1 as (<- & _). split; [congruence|].
    destruct (is_horizontal e) eqn:Hh; [|reflexivity]. destruct Fl. exists e, l. split; [reflexivity|].
    apply (eds_hor (lm_left lm)); [exact Rl|rewrite El; left; reflexivity|exact Hh].
  - intros e He. destruct (eds (lm_right lm)) as [|x l] eqn:El; [discriminate|]. injection He as ->. destruct A2 as (<- & _). split; [congruence|].
    intros Hh. apply Fr. exists e, l. split; [reflexivity|].
    apply (eds_hor (lm_right lm)); [exact Rr|rewrite El; left; reflexivity|exact Hh].
Qed.
Lemma run_origin fuel op sfk cfk rv r s : run fuel op sfk cfk rv (lml_values (w_minimums w)) (init_st (lml_bounds (w_minimums w))) = Ok (r, s) ->
  Forall (Forall (Forall (vertex_origin (isrec eds (recorded w))))) r.
Proof.
  intros E. unfold run in E. inv_bind E u1 s1 E1.
  assert (I0 : inv eds (recorded w) (fun _ => True) (init_st (lml_bounds (w_minimums w)))).
  { split; [|split; [intros i; reflexivity|exact I]]. split; [|constructor]. constructor; cbn.
    - intros i. unfold hget. rewrite PositiveMap.gempty. split; intros j Hj; discriminate.
    - intros i. unfold hget. rewrite PositiveMap.gempty. intros j Hj. discriminate.
    - constructor.
    - intros i. unfold hget. rewrite PositiveMap.gempty. constructor.
    - reflexivity. }
  eapply (tri_build_hot eds (recorded w)) in E1; [|exact eds_chain|exact eds_hor|exact minima_ok|exact I0].
  inv_bind E u2 s2 E2. eapply (tri_vatti eds (recorded w)) in E2; [|exact eds_chain|exact eds_hor|exact minima_ok|exact E1].
  destruct E2 as ((Pt & _) & _ & _). inv_bind E u3 s3 E3.
  destruct (kp_correct_topology _ _ fuel _ _ _ Pt E3) as (Pt3 & _).
  destruct (kp_build_result _ _ fuel rv _ _ _ Pt3 E) as (_ & H).
  eapply Forall_impl; [|exact H]. intros p Hp. eapply Forall_impl; [|exact Hp]. intros l Hl. eapply Forall_impl; [|exact Hl].
  intros q (i & Gi & ->). exact Gi.
Qed.
End Built.

(** ** C36: every vertex of every ring of a result is an end of an edge of the added
    rings, or the rounded crossing point of two of them, or lies on the level of a
    horizontal one at the rounded position of an edge. *)
Theorem C36_vertices_come_from_the_input : forall rv w rs fuel op sfk cfk result w',
  built rv w rs -> execute fuel w op sfk cfk = Ok (result, w') ->
  forall poly ring q, In poly result -> In ring poly -> In q ring -> vertex_origin (input_edge rs) q.
Proof.
  intros rv w rs fuel op sfk cfk result w' Bw E poly ring q I1 I2 I3. pose proof (built_well_recorded _ _ _ Bw) as R.
  unfold execute in E. destruct (lml_values (w_minimums w)) as [|m ms] eqn:Em; [injection E as <- _; destruct I1|].
  unfold rbind in E. destruct (run _ _ _ _ _ _ _) as [[r s]| |] eqn:Er; try discriminate. injection E as -> _.
  rewrite <- Em in Er. apply (run_origin w rs R) in Er. rewrite Forall_forall in Er. specialize (Er _ I1).
  rewrite Forall_forall in Er. specialize (Er _ I2). rewrite Forall_forall in Er. specialize (Er _ I3).
  eapply vertex_origin_mono; [|exact Er]. intros e (i & Ri & Ie).
  destruct (recorded_edge _ _ _ _ R Ri Ie) as (pts & es & e' & Ip & El & Ie' & U). eexists pts, _, es, e'. eauto.
Qed.
Print Assumptions C36_vertices_come_from_the_input.

(** In particular the level (y) of a vertex that is no crossing point is the level of
    an input vertex. *)
Lemma ex_union : match ex_wagyu with
  | Ok (_, _, w) => match execute 100 w UNION EVEN_ODD EVEN_ODD with Ok (r, _) => r | _ => [] end
  | _ => [] end = [[[Pt 6 0; Pt 4 2; Pt 6 4; Pt 0 4; Pt 2 2; Pt 0 0; Pt 6 0]]].
Proof. vm_compute. reflexivity. Qed.
Example C36_example : exists b1 b2 w r w', ex_wagyu = Ok (b1, b2, w) /\
  built false w [(hd [] lower_triangle, SUBJECT); (hd [] upper_triangle, CLIP)] /\
  execute 100 w UNION EVEN_ODD EVEN_ODD = Ok (r, w') /\ exists ring, In [ring] r /\ In (Pt 4 2) ring /\ In (Pt 6 4) ring.
Proof.
  pose proof ex_union as X. destruct ex_wagyu as [[[b1 b2] w]|x|] eqn:E; [|discriminate X|discriminate X].
  destruct (execute 100 w UNION EVEN_ODD EVEN_ODD) as [[r w']|x|] eqn:Ex; [|discriminate X|discriminate X].
  exists b1, b2, w, r, w'. split; [reflexivity|]. split; [|split; [exact Ex|]].
  - unfold ex_wagyu, rbind in E. destruct (add_polygon (new_wagyu false) lower_triangle SUBJECT) as [[c1 w1]|x|] eqn:E1; [|discriminate E|discriminate E].
    destruct (add_polygon w1 upper_triangle CLIP) as [[c2 w2]|x|] eqn:E2; [|discriminate E|discriminate E]. injection E as _ _ <-.
    exact (built_polygon false w1 _ upper_triangle CLIP c2 w2 (built_polygon false _ _ lower_triangle SUBJECT c1 w1 (built_new false) E1) E2).
  - rewrite X. eexists. split; [left; reflexivity|]. split; cbn; auto.
Qed.

(** ** The third case cannot be dropped: for these two polygons the intersection has
    the vertex (-1, 49), which is no vertex of either polygon and not the rounded
    crossing point of any two edges: the position of the slanted edge on the level of
    the horizontal one is computed as slightly less than -1/2, while their crossing
    point is computed as -1/2 and rounded up. *)
Definition slanted : polygon := [[Pt (-1) 98; Pt 0 0; Pt 50 98; Pt (-1) 98]].
Definition level_box : polygon := [[Pt (-60) 49; Pt 60 49; Pt 60 (-10); Pt (-60) (-10)]].
Definition edges_of_polygon (p : polygon) : list edge :=
  flat_map (fun pts => match linear_ring_edges pts with Ok es => es | _ => [] end) p.
Definition crossing_point (e f : edge) : option point :=
  match edge_and e f with
  | Ok (Some z) => match round_point z with Ok q => Some q | _ => None end
  | _ => None
  end.
Theorem C36_crossings_and_ends_alone_refuted :
  exists w1 w2 result w' q,
    add_polygon (new_wagyu false) slanted SUBJECT = Ok (true, w1) /\
    add_polygon w1 level_box CLIP = Ok (true, w2) /\
    execute 100 w2 INTERSECTION EVEN_ODD EVEN_ODD = Ok (result, w') /\
    In q (concat (concat result)) /\
    ~ In q (concat (slanted ++ level_box)) /\
    (forall e f, In e (edges_of_polygon (slanted ++ level_box)) -> In f (edges_of_polygon (slanted ++ level_box)) ->
       crossing_point e f <> Some q).
Proof.
  do 5 eexists. split; [vm_compute; reflexivity|]. split; [vm_compute; reflexivity|]. split; [vm_compute; reflexivity|].
  split; [right; left; reflexivity|]. split.
  - intros H. vm_compute in H. repeat destruct H as [H|H]; try discriminate. exact H.
  - assert (K : forallb (fun e => forallb (fun f => match crossing_point e f with Some z => negb (point_eqb z (Pt (-1) 49)) | None => true end)
      (edges_of_polygon (slanted ++ level_box))) (edges_of_polygon (slanted ++ level_box)) = true) by (vm_compute; reflexivity).
    intros e f He Hf C. rewrite forallb_forall in K. specialize (K e He). rewrite forallb_forall in K. specialize (K f Hf).
    rewrite C in K. vm_compute in K. discriminate.
Qed.
Print Assumptions C36_crossings_and_ends_alone_refuted.
