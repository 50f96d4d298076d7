(** * What a [Wagyu] object has recorded after any history *)
From Coq Require Import ZArith List Bool Lia Permutation FMapPositive.
From RecordUpdate Require Import RecordSet.
From Verif Require Import Py Monad Utils Geometry LinearRingM BoundM LocalMinimumM StateM WagyuM SpecRing SpecBounds
     MiscP ListP ScanP SweepFrameP LinearRingP LinearRing2P RingEdgesP MinimaP AddRingP ApiP.
From Verif Require Export SpecHistory.
Import ListNotations RecordSetNotations.
Open Scope Z_scope.

Definition recorded (w : wagyu) (i : bid) : Prop :=
  exists lm, In lm (lml_values (w_minimums w)) /\ (i = lm_left lm \/ i = lm_right lm).
Definition shape_ok (bs : heap bound) (lm : local_minimum) : Prop :=
  let l := bget bs (lm_left lm) in
  let r := bget bs (lm_right lm) in
  (exists c tl tr, ascends c (b_edges l) tl /\ ascends c (b_edges r) tr /\ lm_y lm = py c) /\
  b_edges l <> [] /\ b_edges r <> [] /\
  opens_left_of (b_edges l) (b_edges r) /\
  ~ starts_flat (b_edges l) /\ (lm_hor lm = true <-> starts_flat (b_edges r)) /\
  b_kind l = b_kind r /\ (b_wd l = 1 /\ b_wd r = -1 \/ b_wd l = -1 /\ b_wd r = 1) /\
  flats_apart (b_edges l) /\ flats_apart (b_edges r) /\
  (b_wd l = -1 -> ends_sloped (b_edges l)) /\ (b_wd r = -1 -> ends_sloped (b_edges r)).
Definition ring_edges (pts : linear_ring) : list edge :=
  match linear_ring_edges pts with Ok es => es | _ => [] end.
Definition edges_of_kind (k : polygon_kind) (bs : heap bound) (lm : local_minimum) : list edge :=
  if kind_eqb (b_kind (bget bs (lm_left lm))) k then edges_of bs lm else [].
Definition ring_edges_of_kind (k : polygon_kind) (r : linear_ring * polygon_kind) : list edge :=
  if kind_eqb (snd r) k then ring_edges (fst r) else [].

Record well_recorded (w : wagyu) (rs : list (linear_ring * polygon_kind)) : Prop := {
  wr_ids : forall i, recorded w i -> (i < lml_next (w_minimums w))%positive;
  wr_nodup : NoDup (flat_map ids_of (lml_values (w_minimums w)));
  wr_shape : Forall (shape_ok (lml_bounds (w_minimums w))) (lml_values (w_minimums w));
  wr_pair : forall i, recorded w i -> exists j, recorded w j /\ paired (lml_bounds (w_minimums w)) i j;
  wr_edges : forall k, Permutation
      (map undirected (flat_map (edges_of_kind k (lml_bounds (w_minimums w))) (lml_values (w_minimums w))))
      (map undirected (flat_map (ring_edges_of_kind k) rs));
  wr_total : Forall (fun r => exists es, linear_ring_edges (fst r) = Ok es) rs
}.

Lemma shape_same bs bs' lm :
  (forall i, i = lm_left lm \/ i = lm_right lm -> static_of (bget bs' i) = static_of (bget bs i)) ->
  shape_ok bs lm -> shape_ok bs' lm.
Proof.
  intros H. pose proof (H _ (or_introl eq_refl)) as E1. pose proof (H _ (or_intror eq_refl)) as E2.
  unfold static_of in *. injection E1 as E1 E2' E3 E4. injection E2 as F1 F2 F3 F4.
  unfold shape_ok. cbv zeta. rewrite E1, E2', E3, F1, F2, F3. auto.
Qed.
Lemma paired_same bs bs' i j : static_of (bget bs' i) = static_of (bget bs i) ->
  static_of (bget bs' j) = static_of (bget bs j) -> paired bs i j -> paired bs' i j.
Proof.
  unfold static_of. intros E F. injection E as E1 E2 E3 E4. injection F as F1 F2 F3 F4.
  unfold paired. rewrite E1, E2, E3, E4, F1, F2, F3, F4. auto.
Qed.
Lemma edges_of_kind_same k bs bs' lm :
  (forall i, i = lm_left lm \/ i = lm_right lm -> static_of (bget bs' i) = static_of (bget bs i)) ->
  edges_of_kind k bs' lm = edges_of_kind k bs lm.
Proof.
  intros H. pose proof (H _ (or_introl eq_refl)) as E1. pose proof (H _ (or_intror eq_refl)) as E2.
  unfold static_of in *. injection E1 as E1 E2' E3 E4. injection E2 as F1 F2 F3 F4.
  unfold edges_of_kind, edges_of. rewrite E1, E3, F1. reflexivity.
Qed.
Lemma kind_eqb_eq a b : kind_eqb a b = true <-> a = b.
Proof. destruct a, b; cbn; split; congruence. Qed.

Lemma well_recorded_static w w' rs : lml_values (w_minimums w') = lml_values (w_minimums w) ->
  lml_next (w_minimums w') = lml_next (w_minimums w) ->
  (forall i, static_of (bget (lml_bounds (w_minimums w')) i) = static_of (bget (lml_bounds (w_minimums w)) i)) ->
  well_recorded w rs -> well_recorded w' rs.
Proof.
  intros V N S [H1 H2 H3 H4 H5 H6]. unfold recorded in *. constructor; unfold recorded; rewrite ?V, ?N; auto.
  - rewrite Forall_forall in *. intros lm I. eapply shape_same; [|apply H3, I]. auto.
  - intros i Hi. destruct (H4 i Hi) as (j & Hj & P). exists j. split; [exact Hj|]. eapply paired_same; eauto.
  - intros k. erewrite flat_map_ext_in; [apply H5|]. intros lm _. apply edges_of_kind_same. auto.
Qed.

Lemma flat_map_true {A B} (p : A -> bool) (f : A -> list B) l : (forall x, In x l -> p x = true) ->
  flat_map (fun x => if p x then f x else []) l = flat_map f l.
Proof. intros H. apply flat_map_ext_in. intros x I. rewrite H by exact I. reflexivity. Qed.
Lemma flat_map_false {A B} (p : A -> bool) (f : A -> list B) l : (forall x, In x l -> p x = false) ->
  flat_map (fun x => if p x then f x else []) l = [].
Proof.
  induction l as [|x l IH]; intros H; [reflexivity|]. cbn. rewrite (H x) by (left; reflexivity). apply IH.
  intros y I. apply H. right. exact I.
Qed.

Lemma well_recorded_ring w rs pts kind b w' : well_recorded w rs ->
  w_add_linear_ring w pts kind = Ok (b, w') -> well_recorded w' (rs ++ [(pts, kind)]).
Proof.
  intros [H1 H2 H3 H4 H5 H6] E. unfold w_add_linear_ring, rbind in E.
  pose proof (add_linear_ring_spec (w_minimums w) pts kind) as S.
  destruct (linear_ring_edges pts) as [es|x|] eqn:El; [|destruct S as (_ & S); rewrite S in E; discriminate|contradiction].
  assert (Tot : Forall (fun r => exists es, linear_ring_edges (fst r) = Ok es) (rs ++ [(pts, kind)])).
  { apply Forall_app. split; [exact H6|]. constructor; [|constructor]. eauto. }
  destruct es as [|e es].
  { rewrite S in E. injection E as <- <-. constructor; auto. intros k. cbn [w_minimums lml_bounds lml_values].
    rewrite flat_map_app. cbn [flat_map]. unfold ring_edges_of_kind at 2. cbn [fst snd]. unfold ring_edges. rewrite El.
    destruct (kind_eqb kind k); cbn; rewrite app_nil_r; apply H5. }
  destruct S as (L' & new & S & Nn & V & Old & Nx & Ok_ & Ids & All & Nd & Pr & Pm). rewrite S in E. injection E as <- <-.
  assert (Rin : forall i, recorded (Wagyu L' (w_reverse w)) i <->
    recorded w i \/ inside (lml_next (w_minimums w)) (lml_next L') i).
  { intros i. unfold recorded. cbn [w_minimums]. rewrite V. split.
    - intros (lm & I & Hi). apply in_app_or in I. destruct I as [I|I]; [left; eauto|right].
      rewrite Forall_forall in Ids. destruct (Ids lm I). destruct Hi; subst; assumption.
    - intros [(lm & I & Hi)|H]; [exists lm; split; [apply in_or_app; auto|exact Hi]|].
      destruct (All i H) as (lm & I & Hi). exists lm. split; [apply in_or_app; auto|exact Hi]. }
  assert (Os : forall lm, In lm (lml_values (w_minimums w)) -> forall i, i = lm_left lm \/ i = lm_right lm ->
    static_of (bget (lml_bounds L') i) = static_of (bget (lml_bounds (w_minimums w)) i)).
  { intros lm I i Hi. rewrite Old; [reflexivity|]. apply H1. exists lm. auto. }
  assert (Ns : forall lm, In lm new -> b_kind (bget (lml_bounds L') (lm_left lm)) = kind).
  { intros lm I. rewrite Forall_forall in Ok_. destruct (Ok_ lm I) as (_ & _ & _ & _ & _ & _ & K & _). exact K. }
  constructor.
  - intros i Hi. apply Rin in Hi. cbn [w_minimums]. destruct Hi as [Hi|(_ & Hi)]; [|exact Hi]. specialize (H1 i Hi). lia.
  - cbn [w_minimums]. rewrite V, flat_map_app. apply NoDup_app_disjoint; auto.
    intros i I1 I2. apply in_flat_map in I1, I2. destruct I1 as (x & Ix & Hx), I2 as (y & Iy & Hy).
    rewrite Forall_forall in Ids. destruct (Ids y Iy) as ((A1 & _) & (A2 & _)).
    assert (i < lml_next (w_minimums w))%positive.
    { apply H1. exists x. split; [exact Ix|]. cbn in Hx. destruct Hx as [<-|[<-|[]]]; auto. }
    cbn in Hy. destruct Hy as [<-|[<-|[]]]; lia.
  - cbn [w_minimums]. rewrite V. apply Forall_app. split.
    + rewrite Forall_forall in *. intros lm I. eapply shape_same; [|apply H3, I]. apply Os, I.
    + eapply Forall_impl; [|exact Ok_]. intros lm (A1 & A2 & A3 & A4 & A5 & A6 & A7 & A8 & A9 & A10 & A11 & A12 & A13).
      unfold shape_ok. cbv zeta. rewrite A7, A8. repeat (split; [solve [auto]|]). assumption.
  - intros i Hi. apply Rin in Hi. cbn [w_minimums]. destruct Hi as [Hi|Hi].
    + destruct (H4 i Hi) as (j & Hj & P). exists j. split; [apply Rin; auto|].
      eapply paired_same; [| |exact P]; rewrite Old; auto.
    + destruct (Pr i Hi) as (j & Hj & P). exists j. split; [apply Rin; auto|exact P].
  - intros k. cbn [w_minimums]. rewrite V, !flat_map_app, !map_app. apply Permutation_app.
    + erewrite flat_map_ext_in; [apply H5|]. intros lm I. apply edges_of_kind_same, Os, I.
    + cbn [flat_map]. unfold ring_edges_of_kind. cbn [fst snd]. unfold ring_edges. rewrite El.
      unfold edges_of_kind. destruct (kind_eqb kind k) eqn:K.
      * rewrite flat_map_true; [|intros lm I; rewrite (Ns lm I); exact K]. rewrite app_nil_r. exact Pm.
      * rewrite flat_map_false; [constructor|]. intros lm I. rewrite (Ns lm I). exact K.
  - exact Tot.
Qed.

Lemma well_recorded_rings p kind : forall w rs bs w', well_recorded w rs ->
  add_rings w p kind = Ok (bs, w') -> well_recorded w' (rs ++ map (fun pts => (pts, kind)) p).
Proof.
  induction p as [|lr p IH]; intros w rs bs w' H; cbn [add_rings map].
  { intros E. injection E as <- <-. rewrite app_nil_r. exact H. }
  destruct (w_add_linear_ring w lr kind) as [[b w1]| |] eqn:E1; try discriminate.
  destruct (add_rings w1 p kind) as [[bs1 w2]| |] eqn:E2; try discriminate.
  intros E. injection E as <- <-. pose proof (well_recorded_ring _ _ _ _ _ _ H E1) as H1.
  pose proof (IH _ _ _ _ H1 E2) as H2. rewrite <- app_assoc in H2. exact H2.
Qed.

Theorem built_well_recorded rv w rs : built rv w rs -> well_recorded w rs.
Proof.
  induction 1 as [| w rs pts kind b w' H IH E | w rs p kind b w' H IH E | w rs H IH
                  | w rs fuel op sfk cfk r w' H IH E].
  - constructor; cbn; try constructor; try (intros ? (? & [] & _)).
  - eapply well_recorded_ring; eassumption.
  - rewrite add_polygon_rings in E. destruct (add_rings w p kind) as [[bs w1]| |] eqn:Ea; try discriminate.
    injection E as _ <-. eapply well_recorded_rings; eassumption.
  - constructor; cbn; try constructor; try (intros ? (? & [] & _)).
  - apply execute_frame in E. destruct E as (_ & V & N & S). eapply well_recorded_static; eassumption.
Qed.
(** the ring has edges after simplification *)
Definition contributes (r : linear_ring * polygon_kind) : bool :=
  match linear_ring_edges (fst r) with Ok (_ :: _) => true | _ => false end.
Lemma history_built rv w c : history rv w c <-> exists rs, built rv w rs /\
  c = existsb contributes rs.
Proof.
  assert (R : forall w pts kind b w', w_add_linear_ring w pts kind = Ok (b, w') ->
    b = contributes (pts, kind)).
  { intros w0 pts kind b w' E. unfold contributes; cbn [fst]; unfold w_add_linear_ring, rbind in E.
    pose proof (add_linear_ring_spec (w_minimums w0) pts kind) as S.
    destruct (linear_ring_edges pts) as [[|e es]|x|].
    - rewrite S in E. injection E as <- _. reflexivity.
    - destruct S as (L' & new & S & _). rewrite S in E. injection E as <- _. reflexivity.
    - destruct S as (_ & S). rewrite S in E. discriminate.
    - contradiction. }
  assert (Rs : forall p kind w bs w', add_rings w p kind = Ok (bs, w') ->
    existsb (fun b => b) bs = existsb contributes
      (map (fun pts => (pts, kind)) p)).
  { induction p as [|lr p IH]; intros kind w0 bs w'; cbn [add_rings map existsb].
    { intros E. injection E as <- <-. reflexivity. }
    destruct (w_add_linear_ring w0 lr kind) as [[b w1]| |] eqn:E1; try discriminate.
    destruct (add_rings w1 p kind) as [[bs1 w2]| |] eqn:E2; try discriminate.
    intros E. injection E as <- <-. cbn [existsb]. rewrite (IH _ _ _ _ E2), (R _ _ _ _ _ E1). reflexivity. }
  split.
  - induction 1 as [| w c pts kind b w' H (rs & IH & Hc) E | w c p kind b w' H (rs & IH & Hc) E | w c H (rs & IH & Hc)
                  | w c fuel op sfk cfk r w' H (rs & IH & Hc) E].
    + exists []. split; [constructor|reflexivity].
    + exists (rs ++ [(pts, kind)]). split; [econstructor; eassumption|].
      rewrite existsb_app. cbn [existsb]. rewrite <- Hc, orb_false_r, (R _ _ _ _ _ E). reflexivity.
    + exists (rs ++ map (fun pts => (pts, kind)) p). split; [econstructor; eassumption|].
      rewrite existsb_app, <- Hc. f_equal. rewrite add_polygon_rings in E.
      destruct (add_rings w p kind) as [[bs w1]| |] eqn:Ea; try discriminate. injection E as <- _. eapply Rs; eassumption.
    + exists []. split; [econstructor; eassumption|reflexivity].
    + exists rs. split; [econstructor; eassumption|exact Hc].
  - intros (rs & H & ->).
    induction H as [| w rs pts kind b w' H IH E | w rs p kind b w' H IH E | w rs H IH
                  | w rs fuel op sfk cfk r w' H IH E].
    + constructor.
    + rewrite existsb_app. cbn [existsb]. rewrite orb_false_r, <- (R _ _ _ _ _ E). econstructor; eassumption.
    + rewrite existsb_app. assert (Eb : b = existsb contributes
        (map (fun pts => (pts, kind)) p)).
      { pose proof E as E'. rewrite add_polygon_rings in E'.
        destruct (add_rings w p kind) as [[bs w1]| |] eqn:Ea; try discriminate. injection E' as <- _. eapply Rs; eassumption. }
      rewrite <- Eb. econstructor; eassumption.
    + cbn. econstructor; eassumption.
    + econstructor; eassumption.
Qed.

(** ** The recorded edges *)
Lemma mk_edge_well_made a b e : mk_edge a b = Ok e -> a <> b -> well_made e.
Proof.
  intros H N. unfold mk_edge in H. unfold well_made.
  destruct (Z.ltb_spec (py a) (py b)) as [L|L]; cbv beta iota zeta in H.
  - destruct (Z.eqb_spec (py a - py b) 0); [lia|]. unfold rbind in H. destruct (int_truediv _ _) eqn:T; try discriminate. injection H as <-.
    cbn. split; [congruence|]. split; [lia|]. destruct (Z.eqb_spec (py a) (py b)); [lia|]. exact T.
  - destruct (Z.eqb_spec (py b - py a) 0) as [Z0|Z0].
    + injection H as <-. cbn. split; [congruence|]. split; [lia|]. destruct (Z.eqb_spec (py b) (py a)); [reflexivity|lia].
    + unfold rbind in H. destruct (int_truediv _ _) eqn:T; try discriminate. injection H as <-.
      cbn. split; [congruence|]. split; [lia|]. destruct (Z.eqb_spec (py b) (py a)); [lia|]. exact T.
Qed.
Lemma ring_edges_well_made pts es e : linear_ring_edges pts = Ok es -> In e es -> well_made e.
Proof.
  intros E I. pose proof (linear_ring_edges_spec pts) as H. rewrite E in H. destruct H as [(-> & _)|(vs & _ & F & N & _)]; [destruct I|].
  revert F N I. clear E. generalize (cyclic_pairs vs). intros ps F. induction F as [|p x ps es0 Hp F IH]; intros N; [intros []|].
  pose proof (Forall_inv N) as N1. pose proof (Forall_inv_tail N) as N2. intros [<-|I]; [eapply mk_edge_well_made; eassumption|].
  apply IH; auto.
Qed.
Lemma undirected_well_made e : well_made (undirected e) <-> well_made e.
Proof.
  unfold undirected. destruct (Z.eqb_spec (py (etop e)) (py (ebot e))) as [E|E]; cbn [andb]; [|tauto].
  destruct (Z.ltb _ _); [|tauto]. unfold well_made. cbn. rewrite E, Z.eqb_refl. intuition congruence.
Qed.
Lemma undirected_ends e : (etop (undirected e) = etop e /\ ebot (undirected e) = ebot e) \/
  (etop (undirected e) = ebot e /\ ebot (undirected e) = etop e).
Proof. unfold undirected. destruct (_ && _); cbn; auto. Qed.

Lemma recorded_edge w rs i e : well_recorded w rs -> recorded w i -> In e (b_edges (bget (lml_bounds (w_minimums w)) i)) ->
  exists pts es e', In (pts, b_kind (bget (lml_bounds (w_minimums w)) i)) rs /\ linear_ring_edges pts = Ok es /\ In e' es /\
    undirected e = undirected e'.
Proof.
  intros H (lm & I & Hi) Ie. pose proof (wr_shape _ _ H) as S. rewrite Forall_forall in S.
  destruct (S lm I) as (_ & _ & _ & _ & _ & _ & K & _). set (bs := lml_bounds (w_minimums w)) in *.
  set (k := b_kind (bget bs i)) in *.
  assert (K' : b_kind (bget bs (lm_left lm)) = k) by (unfold k; destruct Hi as [->| ->]; congruence).
  assert (Iu : In (undirected e) (map undirected (flat_map (edges_of_kind k bs) (lml_values (w_minimums w))))).
  { apply in_map. apply in_flat_map. exists lm. split; [exact I|]. unfold edges_of_kind. rewrite K'.
    assert (kind_eqb k k = true) as -> by (apply kind_eqb_eq; reflexivity). apply in_or_app.
    destruct Hi as [->| ->]; auto. }
  apply (Permutation_in _ (wr_edges _ _ H k)) in Iu. apply in_map_iff in Iu. destruct Iu as (e' & Ue & Ie').
  apply in_flat_map in Ie'. destruct Ie' as ((pts & k') & Ir & Ie'). unfold ring_edges_of_kind in Ie'. cbn [fst snd] in Ie'.
  destruct (kind_eqb k' k) eqn:Kk; [|destruct Ie']. apply kind_eqb_eq in Kk. subst k'. unfold ring_edges in Ie'.
  destruct (linear_ring_edges pts) as [es| |] eqn:El; [|destruct Ie'..]. exists pts, es, e'. auto.
Qed.
Lemma recorded_edge_well_made w rs i e : well_recorded w rs -> recorded w i ->
  In e (b_edges (bget (lml_bounds (w_minimums w)) i)) -> well_made e.
Proof.
  intros H R I. destruct (recorded_edge _ _ _ _ H R I) as (pts & es & e' & _ & El & Ie & U).
  apply undirected_well_made. rewrite U. apply undirected_well_made. eapply ring_edges_well_made; eassumption.
Qed.
Lemma recorded_edge_ends w rs i e : well_recorded w rs -> recorded w i ->
  In e (b_edges (bget (lml_bounds (w_minimums w)) i)) ->
  exists pts, In (pts, b_kind (bget (lml_bounds (w_minimums w)) i)) rs /\ In (etop e) pts /\ In (ebot e) pts.
Proof.
  intros H R I. destruct (recorded_edge _ _ _ _ H R I) as (pts & es & e' & Ir & El & Ie & U). exists pts. split; [exact Ir|].
  pose proof (edges_result pts) as Er. rewrite El in Er. destruct Er as (vs & O & S & _).
  destruct (outline_points vs es e' pts O S Ie) as (I1 & I2).
  pose proof (undirected_ends e) as U1. pose proof (undirected_ends e') as U2. rewrite U in U1.
  destruct U1 as [(A & B)|(A & B)], U2 as [(C & D)|(C & D)]; rewrite <- ?A, <- ?B, ?C, ?D; auto.
Qed.
