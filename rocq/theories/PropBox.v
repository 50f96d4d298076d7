(** * Property theorem C34: [Wagyu.bounds] *)
From Coq Require Import ZArith List Bool Lia.
From Verif Require Import Py Geometry LinearRingM BoundM LocalMinimumM WagyuM BoundsM.
Import ListNotations.
Local Open Scope Z_scope.

(** On an object with nothing to do it answers with the zero box and touches nothing. *)
Theorem C34_bounds_of_nothing : forall w mn0 mx0 ms h mn mx h',
  lml_values (w_minimums w) = [] -> holds_edges w mn0 mx0 ms h ->
  wagyu_bounds mn0 mx0 ms h = (mn, mx, h') ->
  h' mn = Pt 0 0 /\ h' mx = Pt 0 0 /\ h' = h.
Proof.
  intros w mn0 mx0 ms h mn mx h' E (A & B & _ & F) R. rewrite E in F. inversion F; subst. injection R as <- <- <-. auto.
Qed.
Print Assumptions C34_bounds_of_nothing.

(** a square standing on its corner: [0, 4] x [0, 4] *)
Definition diamond : linear_ring := [Pt 2 0; Pt 4 2; Pt 2 4; Pt 0 2; Pt 2 0].
Definition ex_diamond : wagyu := match add_polygon (new_wagyu false) [diamond] SUBJECT with Ok (_, w) => w | _ => new_wagyu false end.
Lemma ex_diamond_edges :
  map (fun lm => (map (fun e => (etop e, ebot e)) (b_edges (bget (lml_bounds (w_minimums ex_diamond)) (lm_left lm))),
                  map (fun e => (etop e, ebot e)) (b_edges (bget (lml_bounds (w_minimums ex_diamond)) (lm_right lm)))))
      (lml_values (w_minimums ex_diamond)) =
  [([(Pt 0 2, Pt 2 4); (Pt 2 0, Pt 0 2)], [(Pt 4 2, Pt 2 4); (Pt 2 0, Pt 4 2)])].
Proof. vm_compute. reflexivity. Qed.
Lemma diamond_held mn0 mx0 ms h : holds_edges ex_diamond mn0 mx0 ms h ->
  exists t1 b1 t2 b2 t3 b3 t4 b4,
    ms = [([REdge t1 b1; REdge t2 b2], [REdge t3 b3; REdge t4 b4])] /\
    h t1 = Pt 0 2 /\ h b1 = Pt 2 4 /\ h t2 = Pt 2 0 /\ h b2 = Pt 0 2 /\
    h t3 = Pt 4 2 /\ h b3 = Pt 2 4 /\ h t4 = Pt 2 0 /\ h b4 = Pt 4 2.
Proof.
  intros (_ & _ & _ & F). pose proof ex_diamond_edges as D.
  destruct F as [|[l r] lm ms lms (L & R) F]; [discriminate|].
  destruct F as [|? ? ? ? ? F]; [|discriminate]. cbn [map] in D. injection D as Dl Dr.
  assert (G : forall rs es a b c d, Forall2 (edge_held h) rs es -> map (fun e => (etop e, ebot e)) es = [(a, b); (c, d)] ->
    exists t b' t' b'', rs = [REdge t b'; REdge t' b''] /\ h t = a /\ h b' = b /\ h t' = c /\ h b'' = d).
  { clear. intros rs es a b c d F E. destruct F as [|r1 e1 rs es (A1 & B1) F]; [discriminate|].
    destruct F as [|r2 e2 rs es (A2 & B2) F]; [discriminate|]. destruct F; [|discriminate].
    destruct r1 as [x1 y1], r2 as [x2 y2]. cbn in *. exists x1, y1, x2, y2. injection E as <- <- <- <-. auto. }
  destruct (G _ _ _ _ _ _ L Dl) as (t1 & b1 & t2 & b2 & -> & H1 & H2 & H3 & H4).
  destruct (G _ _ _ _ _ _ R Dr) as (t3 & b3 & t4 & b4 & -> & H5 & H6 & H7 & H8).
  exists t1, b1, t2, b2, t3, b3, t4, b4. repeat split; assumption.
Qed.


(** a store that differs from [h] at the objects [a] and [b] at most *)
Definition two (h : store) (a b : pref) (p q : point) (h' : store) : Prop :=
  h' a = p /\ h' b = q /\ forall j, j <> a -> j <> b -> h' j = h j.
Definition both (a b : pref) (g : point -> point) (p q : point) : point := if Pos.eqb a b then g p else q.
Lemma two_fst h a b p q h' g : two h a b p q h' -> two h a b (g p) (both a b g p q) (assign h' a (g (h' a))).
Proof.
  intros (A & B & C). unfold assign, both. split; [|split].
  - rewrite Pos.eqb_refl, A. reflexivity.
  - rewrite (Pos.eqb_sym b a). destruct (Pos.eqb_spec a b); congruence.
  - intros j J1 J2. destruct (Pos.eqb_spec j a); [congruence|]. auto.
Qed.
Lemma two_snd h a b p q h' g : two h a b p q h' -> two h a b (both a b g q p) (g q) (assign h' b (g (h' b))).
Proof.
  intros (A & B & C). unfold assign, both. split; [|split].
  - destruct (Pos.eqb_spec a b); congruence.
  - rewrite Pos.eqb_refl, B. reflexivity.
  - intros j J1 J2. destruct (Pos.eqb_spec j b); [congruence|]. auto.
Qed.
Definition fx (f : Z -> Z -> Z) (v : Z) (p : point) : point := Pt (f (px p) v) (py p).
Definition fy (f : Z -> Z -> Z) (v : Z) (p : point) : point := Pt (px p) (f (py p) v).
Lemma fst_x h a b p q h' f v : two h a b p q h' -> two h a b (fx f v p) (both a b (fx f v) p q) (set_x f a v h').
Proof. apply (two_fst h a b p q h' (fx f v)). Qed.
Lemma fst_y h a b p q h' f v : two h a b p q h' -> two h a b (fy f v p) (both a b (fy f v) p q) (set_y f a v h').
Proof. apply (two_fst h a b p q h' (fy f v)). Qed.
Lemma snd_x h a b p q h' f v : two h a b p q h' -> two h a b (both a b (fx f v) q p) (fx f v q) (set_x f b v h').
Proof. apply (two_snd h a b p q h' (fx f v)). Qed.
Lemma snd_y h a b p q h' f v : two h a b p q h' -> two h a b (both a b (fy f v) q p) (fy f v q) (set_y f b v h').
Proof. apply (two_snd h a b p q h' (fy f v)). Qed.
Lemma widen_cons mn mx e es h : exists h1 h2,
  h1 = set_x Z.min mn (px (h (re_bottom e))) h /\
  h2 = set_x Z.max mx (px (h1 (re_bottom e))) h1 /\
  widen_x mn mx (e :: es) h = widen_x mn mx es h2.
Proof. do 2 eexists. split; [reflexivity|]. split; reflexivity. Qed.
Lemma bounds_later e0 es mn mx h : exists h1 h2 h3 h4,
  h1 = set_x Z.min mn (px (h (re_top (List.last (e0 :: es) e0)))) h /\
  h2 = set_y Z.min mn (py (h1 (re_top e0))) h1 /\
  h3 = set_x Z.max mx (px (h2 (re_top (List.last (e0 :: es) e0)))) h2 /\
  h4 = set_y Z.max mx (py (h3 (re_bottom (List.last (e0 :: es) e0)))) h3 /\
  bounds_bound (e0 :: es) ((mn, mx, true), h) = ((mn, mx, true), widen_x mn mx (e0 :: es) h4).
Proof. do 4 eexists. split; [reflexivity|]. split; [reflexivity|]. split; [reflexivity|]. split; reflexivity. Qed.

Lemma diamond_bounds mn0 mx0 ms h mn mx h' : holds_edges ex_diamond mn0 mx0 ms h ->
  wagyu_bounds mn0 mx0 ms h = (mn, mx, h') ->
  py (h' mn) = 2 /\ py (h' mx) = 2 /\ h mx = Pt 0 2 /\ px (h' mx) = 4 /\
  exists t1 b1 t2 l r, ms = ([REdge t1 b1; REdge t2 mx], l) :: r.
Proof.
  intros H. destruct (diamond_held _ _ _ _ H) as (t1 & b1 & t2 & b2 & t3 & b3 & t4 & b4 & -> & H1 & H2 & H3 & H4 & H5 & H6 & H7 & H8).
  clear H. unfold wagyu_bounds. cbn [fold_left]. cbv beta iota.
  assert (V : forall i, h i <> Pt 0 2 -> i <> t1 /\ i <> b2) by (intros i K; split; congruence).
  destruct (V b1) as (V1 & V1'); [congruence|].
  destruct (V t3) as (V3 & V3'); [congruence|]. destruct (V b3) as (V4 & V4'); [congruence|].
  destruct (V t4) as (V5 & V5'); [congruence|]. destruct (V b4) as (V6 & V6'); [congruence|]. clear V.
  change (bounds_bound [REdge t1 b1; REdge t2 b2] (mn0, mx0, false, h)) with ((t1, b2, true) : bst, widen_x t1 b2 [REdge t1 b1; REdge t2 b2] h).
  assert (T : two h t1 b2 (Pt 0 2) (Pt 0 2) h) by (split; [assumption|split; [assumption|reflexivity]]).
  assert (Rd : forall p q h', two h t1 b2 p q h' -> h' b1 = Pt 2 4 /\ h' t3 = Pt 4 2 /\ h' b3 = Pt 2 4 /\ h' t4 = Pt 2 0 /\ h' b4 = Pt 4 2 /\ h' t1 = p /\ h' b2 = q).
  { intros p q k (A & B & C). rewrite !C by assumption. auto 10. }
  destruct (widen_cons t1 b2 (REdge t1 b1) [REdge t2 b2] h) as (h1 & h2 & E1 & E2 & ->). cbn [re_top re_bottom] in *.
  destruct (widen_cons t1 b2 (REdge t2 b2) [] h2) as (h3 & h4 & E3 & E4 & ->). cbn [re_top re_bottom widen_x] in *.
  destruct (bounds_later (REdge t3 b3) [REdge t4 b4] t1 b2 h4) as (h5 & h6 & h7 & h8 & E5 & E6 & E7 & E8 & E0).
  match goal with |- context [bounds_bound ?l ?x] =>
    replace (bounds_bound l x) with ((t1, b2, true) : bst, widen_x t1 b2 [REdge t3 b3; REdge t4 b4] h8) by (symmetry; exact E0) end.
  clear E0. cbn [List.last re_top re_bottom] in *.
  destruct (widen_cons t1 b2 (REdge t3 b3) [REdge t4 b4] h8) as (h9 & h10 & E9 & E10 & ->). cbn [re_top re_bottom] in *.
  destruct (widen_cons t1 b2 (REdge t4 b4) [] h10) as (h11 & h12 & E11 & E12 & ->). cbn [re_top re_bottom widen_x] in *.
  intros E. injection E as <- <- <-.
  cut (py (h12 t1) = 2 /\ py (h12 b2) = 2 /\ px (h12 b2) = 4).
  { intros (A & B & C). split; [exact A|]. split; [exact B|]. split; [exact H4|]. split; [exact C|].
    exists t1, b1, t2, [REdge t3 b3; REdge t4 b4], []. reflexivity. }
  unfold both in *. clear H1 H2 H3 H4 H5 H6 H7 H8.
  Ltac go L T E Rd :=
    match type of E with ?k = _ _ _ _ ?k0 =>
      let T' := fresh "T" in
      destruct (Rd _ _ _ T) as (?R1 & ?R2 & ?R3 & ?R4 & ?R5 & ?R6 & ?R7);
      repeat match goal with H : k0 _ = _ |- _ => rewrite H in E end;
      repeat match goal with H : k0 _ = _ |- _ => clear H end;
      match type of E with ?k = _ ?f _ ?v ?k0 =>
      pose proof (L _ _ _ _ _ _ f v T) as T'; rewrite <- E in T'; clear E end;
      clear T; rename T' into T; unfold both in T;
      match goal with Q : (_ =? _)%positive = _ |- _ => rewrite Q in T end;
      cbn in T
    end.
  destruct (Pos.eqb t1 b2) eqn:Q.
  all: go fst_x T E1 Rd; go snd_x T E2 Rd; go fst_x T E3 Rd; go snd_x T E4 Rd;
    go fst_x T E5 Rd; go fst_y T E6 Rd; go snd_x T E7 Rd; go snd_y T E8 Rd;
    go fst_x T E9 Rd; go snd_x T E10 Rd; go fst_x T E11 Rd; go snd_x T E12 Rd;
    destruct T as (A & B & _); rewrite A, B; cbn; auto.
Qed.

(** C34 is false of the code in both its parts.  However the point objects are shared:
    the box reported for the square [0, 4] x [0, 4] has no height, so it is not the
    bounding box (there are vertices at heights 0 and 4); *)
Theorem C34_bounds_is_the_bounding_box_refuted : forall mn0 mx0 ms h mn mx h',
  holds_edges ex_diamond mn0 mx0 ms h -> wagyu_bounds mn0 mx0 ms h = (mn, mx, h') ->
  py (h' mn) = 2 /\ py (h' mx) = 2 /\ In (Pt 2 0) diamond /\ In (Pt 2 4) diamond.
Proof.
  intros mn0 mx0 ms h mn mx h' H E. destruct (diamond_bounds _ _ _ _ _ _ _ H E) as (A & B & _).
  split; [exact A|]. split; [exact B|]. cbn. auto 10.
Qed.
Print Assumptions C34_bounds_is_the_bounding_box_refuted.
(** and the call moves an end of a recorded edge (a point object of the caller), so the
    object no longer holds the rings that were added. *)
Theorem C34_bounds_is_a_query_refuted : forall mn0 mx0 ms h mn mx h',
  holds_edges ex_diamond mn0 mx0 ms h -> wagyu_bounds mn0 mx0 ms h = (mn, mx, h') ->
  h mx <> h' mx /\ ~ holds_edges ex_diamond mn0 mx0 ms h'.
Proof.
  intros mn0 mx0 ms h mn mx h' H E. destruct (diamond_bounds _ _ _ _ _ _ _ H E) as (_ & _ & A & B & t1 & b1 & t2 & l & r & Em).
  split; [intros K; rewrite <- K, A in B; discriminate|]. intros G.
  destruct (diamond_held _ _ _ _ G) as (t1' & b1' & t2' & b2' & t3' & b3' & t4' & b4' & Em' & _ & _ & _ & K & _).
  rewrite Em in Em'. injection Em' as _ _ _ <- _ _. rewrite K in B. discriminate.
Qed.
Print Assumptions C34_bounds_is_a_query_refuted.
(** the hypotheses are met, with and without sharing of the middle points *)
Definition ex_store (i : pref) : point :=
  match i with
  | 1%positive | 4%positive => Pt 0 2 | 2%positive | 6%positive => Pt 2 4
  | 3%positive | 7%positive => Pt 2 0 | 5%positive | 8%positive => Pt 4 2
  | _ => Pt 0 0
  end.
Example C34_example :
  holds_edges ex_diamond 9%positive 10%positive [([REdge 1 2; REdge 3 4], [REdge 5 6; REdge 7 8])]%positive ex_store /\
  holds_edges ex_diamond 9%positive 10%positive [([REdge 1 2; REdge 3 1], [REdge 5 2; REdge 3 5])]%positive ex_store.
Proof.
  unfold holds_edges. remember ex_diamond as w eqn:Ew. vm_compute in Ew. subst w.
  split; (split; [reflexivity|]); (split; [reflexivity|]); (split; [discriminate|]);
    vm_compute; repeat constructor.
Qed.
