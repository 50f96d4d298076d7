(** * What the sweep puts into the output: every node it creates is at a point
      of a given set, provided the points handed to the output functions are *)
From Coq Require Import ZArith List Bool Lia FMapPositive.
From Coq Require Import Floats.SpecFloat.
From RecordUpdate Require Import RecordSet.
From Verif Require Import Py Monad Utils Geometry LinearRingM BoundM LocalMinimumM
     StateM PointNodeM RingM SweepM HoareP SweepFrameP SpecSweep SpecActive WindingP CalmP WindingInvP PointersP.
Import ListNotations RecordSetNotations.
Open Scope Z_scope.
Local Open Scope m_scope.

(** ** The output code keeps the sweep structures *)
#[export] Instance quiet_pre : PreOrd quiet.
Proof. split; [apply quiet_refl|apply quiet_trans]. Qed.
#[export] Instance quiet_sweep : SweepRel quiet.
Proof.
  split; [apply quiet_pre|]. intros s s' (E&E1&E2&E3&E4). repeat (split; [congruence|]).
  intros i. rewrite E. reflexivity.
Qed.
#[export] Hint Resolve quiet_pre quiet_sweep : pres.
Lemma qt_upd_bound i f : (forall b, qcore (f b) = qcore b) -> pres quiet (upd_bound i f).
Proof.
  intros H. apply pres_modify. intros s. repeat split; try reflexivity. intros j. cbn. rewrite bget_hset.
  destruct (Pos.eqb_spec i j) as [->|_]; [apply H|reflexivity].
Qed.
Ltac qt_prim := apply qt_upd_bound; intros; reflexivity.
Ltac qt_auto := repeat first [progress pres_step | qt_prim].
Ltac qt f := intros; unfold f; qt_auto.
Lemma qt_of_ring {A} (m : prog A) : pres calm_ring m -> pres quiet m.
Proof. intros H. eapply pres_mono; [|exact H]. intros s s' (C & _). apply calm_quiet, C. Qed.
Lemma qt_bd i : pres quiet (bd i). Proof. qt bd. Qed.
Lemma qt_abl_get k : pres quiet (abl_get k). Proof. apply qt_of_ring, cr_abl_get. Qed.
Lemma qt_abl_bound k : pres quiet (abl_bound k). Proof. apply qt_of_ring, cr_abl_bound. Qed.
Lemma qt_current_edge i : pres quiet (current_edge i). Proof. apply qt_of_ring, cr_current_edge. Qed.
Lemma qt_next_edge i : pres quiet (next_edge i). Proof. apply qt_of_ring, cr_next_edge. Qed.
Lemma qt_is_intermediate i y : pres quiet (is_intermediate i y). Proof. apply qt_of_ring, cr_is_intermediate. Qed.
Lemma qt_is_maxima i y : pres quiet (is_maxima i y). Proof. apply qt_of_ring, cr_is_maxima. Qed.
#[export] Hint Resolve qt_bd qt_abl_get qt_abl_bound qt_current_edge qt_next_edge qt_is_intermediate qt_is_maxima : pres.
Lemma qt_set_hole_state i : pres quiet (set_hole_state i). Proof. apply qt_of_ring, cr_set_hole_state. Qed.
Lemma qt_put_point i p : pres quiet (put_point i p). Proof. apply qt_of_ring, cr_put_point. Qed.
Lemma qt_insert_hp i p e : pres quiet (insert_hot_pixels_in_path i p e). Proof. apply qt_of_ring, cr_insert_hp. Qed.
Lemma qt_add_point_to_ring i p : pres quiet (add_point_to_ring i p). Proof. apply qt_of_ring, cr_add_point_to_ring. Qed.
Lemma qt_swap_sides i j : pres quiet (swap_sides i j). Proof. apply qt_of_ring, cr_swap_sides. Qed.
Lemma qt_join fuel a b c d : pres quiet (join_chains fuel a b c d). Proof. apply qt_of_ring, cr_join. Qed.
Lemma qt_add_hp_ltr i stop n k : pres quiet (add_hot_pixels_ltr n stop i k). Proof. apply qt_of_ring, cr_add_hp_ltr. Qed.
Lemma qt_add_hp_rtl i stop k : pres quiet (add_hot_pixels_rtl stop i k). Proof. apply qt_of_ring, cr_add_hp_rtl. Qed.
#[export] Hint Resolve qt_set_hole_state qt_put_point qt_insert_hp qt_add_point_to_ring qt_swap_sides qt_join
  qt_add_hp_ltr qt_add_hp_rtl : pres.
Lemma qt_add_first_point i p : pres quiet (add_first_point i p). Proof. qt add_first_point. Qed.
#[export] Hint Resolve qt_add_first_point : pres.
Lemma qt_add_point i p : pres quiet (add_point i p). Proof. qt add_point. Qed.
#[export] Hint Resolve qt_add_point : pres.
Lemma qt_add_lmin p i j : pres quiet (add_local_minimum_point p i j). Proof. qt add_local_minimum_point. Qed.
Lemma qt_append_ring fuel i j : pres quiet (append_ring fuel i j). Proof. qt append_ring. Qed.
#[export] Hint Resolve qt_add_lmin qt_append_ring : pres.
Lemma qt_add_lmax fuel p i j : pres quiet (add_local_maximum_point fuel p i j). Proof. qt add_local_maximum_point. Qed.
Lemma qt_swap_rings i j : pres quiet (swap_rings i j). Proof. qt swap_rings. Qed.
#[export] Hint Resolve qt_add_lmax qt_swap_rings : pres.
Lemma qt_intersect_bounds fuel op a b p i j : pres quiet (intersect_bounds fuel op a b p i j).
Proof. qt intersect_bounds. Qed.
#[export] Hint Resolve qt_intersect_bounds : pres.

(** ** Triples *)
Definition tri {A} (I : st -> Prop) (m : prog A) (Q : A -> st -> Prop) : Prop :=
  forall s a s', I s -> m s = Ok (a, s') -> Q a s'.
Lemma tri_ret {A} (a : A) (I : st -> Prop) (Q : A -> st -> Prop) : (forall s, I s -> Q a s) -> tri I (ret a) Q.
Proof. intros H s b s' P E. injection E as <- <-. auto. Qed.
Lemma tri_raise {A} e (I : st -> Prop) (Q : A -> st -> Prop) : tri I (raise e) Q. Proof. intros s b s' P E. discriminate. Qed.
Lemma tri_nofuel {A} (I : st -> Prop) (Q : A -> st -> Prop) : tri I nofuel Q. Proof. intros s b s' P E. discriminate. Qed.
Lemma tri_lift {A} (r : res A) (I : st -> Prop) (Q : A -> st -> Prop) : (forall a s, r = Ok a -> I s -> Q a s) -> tri I (lift r) Q.
Proof. intros H s b s' P E. destruct r; try discriminate. injection E as <- <-. auto. Qed.
Lemma tri_deref {A} (r : option A) (I : st -> Prop) (Q : A -> st -> Prop) : (forall a s, r = Some a -> I s -> Q a s) -> tri I (deref r) Q.
Proof. intros H s b s' P E. destruct r; try discriminate. injection E as <- <-. auto. Qed.
Lemma tri_gets {A} (f : st -> A) (I : st -> Prop) (Q : A -> st -> Prop) : (forall s, I s -> Q (f s) s) -> tri I (gets f) Q.
Proof. intros H s b s' P E. injection E as <- <-. auto. Qed.
Lemma tri_get (I : st -> Prop) (Q : st -> st -> Prop) : (forall s, I s -> Q s s) -> tri I get Q.
Proof. intros H s b s' P E. injection E as <- <-. auto. Qed.
Lemma tri_modify f (I : st -> Prop) (Q : unit -> st -> Prop) : (forall s, I s -> Q tt (f s)) -> tri I (modify f) Q.
Proof. intros H s b s' P E. injection E as <- <-. auto. Qed.
Lemma tri_bind {A B} (m : prog A) (k : A -> prog B) (I : st -> Prop) (Q : A -> st -> Prop) (R : B -> st -> Prop) : tri I m Q -> (forall a, tri (Q a) (k a) R) -> tri I (bind m k) R.
Proof.
  intros Hm Hk s b s' P E. unfold bind in E. destruct (m s) as [[a s1]| |] eqn:Em; try discriminate.
  exact (Hk _ _ _ _ (Hm _ _ _ P Em) E).
Qed.
Lemma tri_weak {A} (m : prog A) (I I' : st -> Prop) (Q Q' : A -> st -> Prop) : tri I' m Q' -> (forall s, I s -> I' s) ->
  (forall a s, Q' a s -> Q a s) -> tri I m Q.
Proof. intros H H1 H2 s a s' P E. apply H2. eapply H; eauto. Qed.
Lemma tri_pre {A} (m : prog A) (I I' : st -> Prop) (Q : A -> st -> Prop) : tri I' m Q -> (forall s, I s -> I' s) -> tri I m Q.
Proof. intros H H1. eapply tri_weak; eauto. Qed.
Lemma tri_post {A} (m : prog A) (I : st -> Prop) (Q Q' : A -> st -> Prop) : tri I m Q' -> (forall a s, Q' a s -> Q a s) -> tri I m Q.
Proof. intros H H1. eapply tri_weak; eauto. Qed.
Lemma tri_fact {A} (m : prog A) (F : Prop) (I : st -> Prop) (Q : A -> st -> Prop) : (F -> tri I m Q) -> tri (fun s => F /\ I s) m Q.
Proof. intros H s a s' (HF & P) E. exact (H HF _ _ _ P E). Qed.
Lemma tri_and {A} (m : prog A) (I1 I2 : st -> Prop) (Q1 Q2 : A -> st -> Prop) : tri I1 m Q1 -> tri I2 m Q2 ->
  tri (fun s => I1 s /\ I2 s) m (fun a s => Q1 a s /\ Q2 a s).
Proof. intros H1 H2 s a s' (P1 & P2) E. split; eauto. Qed.
Lemma tri_loop {X T} f (b : X -> prog (X + T)) (Inv : X -> st -> Prop) (Q : T -> st -> Prop) x :
  (forall x, tri (Inv x) (b x) (fun r s => match r with inl x' => Inv x' s | inr v => Q v s end)) ->
  tri (Inv x) (loopM f b x) Q.
Proof.
  intros H. revert x. induction f as [|f IH]; intros x; cbn [loopM]; [apply tri_nofuel|].
  eapply tri_bind; [apply H|]. intros [x'|v]; [apply IH|apply tri_ret; auto].
Qed.
Lemma tri_for {A} (l : list A) b (I : st -> Prop) : (forall a, In a l -> tri I (b a) (fun _ => I)) -> tri I (forM l b) (fun _ => I).
Proof.
  induction l as [|a l IH]; intros H; cbn [forM]; [apply tri_ret; auto|].
  eapply tri_bind; [apply H; left; reflexivity|]. intros ?. apply IH. intros; apply H; right; assumption.
Qed.
(** a program that only moves along a relation under which [J] is stable *)
Lemma tri_pres {A} (m : prog A) (R : st -> st -> Prop) (J : st -> Prop) : pres R m -> (forall s s', R s s' -> J s -> J s') -> tri J m (fun _ => J).
Proof. intros H S s a s' P E. eapply S; [eapply H; exact E|exact P]. Qed.

(** ** Nodes at points of [P] *)
Section Vat.
Context (P : point -> Prop).
Definition good (s : st) (i : nid) : Prop := P (place s i).
Definition vat (s : st) : Prop := ptrs (good s) (place s) s /\ Forall P (s_hp s).
Definition vk {A} (m : prog A) : Prop := tri vat m (fun _ => vat).

Lemma ptrs_mono (G G' : nid -> Prop) W W' s : (forall i, G i -> G' i) -> (forall i, place s i = W' i) ->
  ptrs G W s -> ptrs G' W' s.
Proof.
  intros HG HW [P1 P2 P3 P4 P5]. constructor; auto.
  - intros i. destruct (P1 i) as (A & B). split; intros j E; apply HG; auto.
  - intros r j E. apply HG. eapply P2, E.
  - eapply Forall_impl; [|exact P3]. auto.
  - intros r. eapply Forall_impl; [|apply P4]. intros p (A & B). split; auto.
Qed.
Lemma vat_keeps {A} (m : prog A) (p : A -> Prop) I : (forall s, I s -> vat s) ->
  (forall s, I s -> keeps (good s) (place s) m p) -> pres quiet m ->
  forall s a s', I s -> m s = Ok (a, s') ->
  vat s' /\ p a /\ (forall i, place s' i = place s i).
Proof.
  intros HI K Q s a s' H E. destruct (HI s H) as (Pt & Hp). destruct (K s H s a s' Pt E) as (Pt' & Hpost).
  assert (W : forall i, place s' i = place s i) by apply Pt'.
  split; [|auto]. split.
  - eapply ptrs_mono; [|reflexivity|exact Pt']. intros i. unfold good. rewrite W. auto.
  - pose proof (Q _ _ _ E) as (_&_&E1&_). rewrite E1. exact Hp.
Qed.
Lemma vk_keeps {A} (m : prog A) p : (forall G W, keeps G W m p) -> pres quiet m -> vk m.
Proof. intros K Q s a s' H E. eapply (vat_keeps m p vat); eauto. Qed.

Lemma vk_ret {A} (a : A) : vk (ret a). Proof. apply tri_ret; auto. Qed.
Lemma vk_raise {A} e : vk (raise (A := A) e). Proof. apply tri_raise. Qed.
Lemma vk_lift {A} (r : res A) : vk (lift r). Proof. apply tri_lift; auto. Qed.
Lemma vk_gets {A} (f : st -> A) : vk (gets f). Proof. apply tri_gets; auto. Qed.
Lemma vk_bd i : vk (bd i). Proof. apply tri_gets; auto. Qed.
Lemma vk_deref {A} (r : option A) : vk (deref r). Proof. apply tri_deref; auto. Qed.
Lemma vk_bind {A B} (m : prog A) (k : A -> prog B) : vk m -> (forall a, vk (k a)) -> vk (bind m k).
Proof. intros H K. eapply tri_bind; [exact H|]. exact K. Qed.
Lemma vk_upd_bound i f : vk (upd_bound i f).
Proof.
  apply tri_modify. intros s ([P1 P2 P3 P4 P5] & H). split; [constructor|exact H]; cbn; auto.
Qed.
Lemma vk_current_edge i : vk (current_edge i).
Proof. apply vk_bind; [apply vk_bd|intros; apply vk_lift]. Qed.

Lemma kp_place_before (G : nid -> Prop) W i o : G i -> G o -> keeps G W (place_before i o) T.
Proof.
  intros Hi Ho. unfold place_before.
  eapply kp_bind; [apply kp_nd|]. intros n (Hn & _). apply kp_bindT; [apply kp_set_next, oG_Some; exact Ho|]. intros _.
  apply kp_bindT; [apply kp_set_prev, Hn|]. intros ?. eapply kp_bind; [apply kp_prev_of|]. intros p Hp.
  apply kp_bindT; [apply kp_set_next, oG_Some; exact Hi|]. intros ?. apply kp_set_prev, oG_Some; exact Hi.
Qed.
Lemma create_vat r p before s i s' : P p -> vat s -> oG (good s) before ->
  create_point_node r p before s = Ok (i, s') -> vat s' /\ good s' i.
Proof.
  intros Hp (Pt & Hh) Hb E. unfold create_point_node in E. inv_bind E sx s0 E0. apply get_Ok in E0. destruct E0 as (-> & ->).
  cbv zeta in E. inv_bind E u s1 E1. apply modify_Ok in E1.
  set (n := s_nnext s) in *.
  assert (Pl : forall j, place s1 j = if Pos.eqb n j then p else place s j).
  { intros j. subst s1. unfold place. cbn. rewrite hget_hset. destruct (Pos.eqb n j); [|reflexivity].
    destruct p; reflexivity. }
  assert (Gn : good s1 n) by (unfold good; rewrite Pl, Pos.eqb_refl; exact Hp).
  assert (Mono : forall j, good s j -> good s1 j).
  { intros j Hj. unfold good. rewrite Pl. destruct (Pos.eqb n j); [exact Hp|exact Hj]. }
  assert (Pt1 : ptrs (good s1) (place s1) s1).
  { destruct Pt as [P1 P2 P3 P4 P5]. constructor; [| | | |reflexivity].
    - intros j. subst s1. cbn. rewrite hget_hset. destruct (Pos.eqb n j).
      + cbn. split; apply oG_Some; exact Gn.
      + destruct (P1 j) as (A & B). split; intros x Hx; apply Mono; auto.
    - intros x j Hj. apply Mono. subst s1. cbn in Hj. eapply P2, Hj.
    - subst s1. cbn. eapply Forall_impl; [|exact P3]. exact Mono.
    - intros x. subst s1. cbn. eapply Forall_impl; [|apply P4]. intros q (A & B). split; apply Mono; assumption. }
  assert (H1 : s_hp s1 = s_hp s) by (subst s1; reflexivity).
  inv_bind E u2 s2 E2. inv_bind E u3 s3 E3. apply ret_Ok in E. destruct E as (-> & ->). apply modify_Ok in E3.
  assert (K : keeps (good s1) (place s1) (match before with None => ret tt | Some o => place_before n o end) T).
  { destruct before as [o|]; [|apply kp_ret; exact I]. apply kp_place_before; [exact Gn|]. apply Mono, Hb. reflexivity. }
  destruct (K _ _ _ Pt1 E2) as ([P1 P2 P3 P4 P5] & _).
  assert (Q2 : s_hp s2 = s_hp s1).
  { assert (Pr : pres quiet (match before with None => ret tt | Some o => place_before n o end)) by (destruct before; qt_auto).
    destruct (Pr _ _ _ E2) as (_&_&A&_). exact A. }
  assert (Pl3 : forall j, place s3 j = place s1 j) by (intros j; rewrite <- P5; subst s3; reflexivity).
  assert (M3 : forall j, good s1 j -> good s3 j) by (intros j; unfold good; rewrite Pl3; auto).
  split; [|apply M3; exact Gn]. split; [|subst s3; cbn; rewrite Q2, H1; exact Hh].
  constructor; [| | | |reflexivity]; subst s3; cbn.
  - intros j. destruct (P1 j) as (A & B). split; intros x Hx; apply M3; auto.
  - intros x j Hj. apply M3. eapply P2, Hj.
  - apply Forall_app. split; [eapply Forall_impl; [|exact P3]; exact M3|]. constructor; [apply M3; exact Gn|constructor].
  - intros x. eapply Forall_impl; [|apply P4]. intros q (A & B). split; apply M3; assumption.
Qed.
Lemma set_r_node_vat r n : tri (fun s => vat s /\ good s n) (upd_ring r (fun x => x <| r_node := Some n |>)) (fun _ => vat).
Proof.
  intros s a s' (V & Hn) E.
  apply (vat_keeps (upd_ring r (fun x => x <| r_node := Some n |>)) T (fun s => vat s /\ good s n)) in E; try tauto.
  - intros s0 (_ & H). apply kp_upd_ring. intros x _. apply oG_Some. exact H.
  - apply (pr_upd_ring quiet).
Qed.

Lemma vk_put_point i p : P p -> vk (put_point i p).
Proof.
  intros Hp. unfold put_point. apply vk_bind; [apply vk_bd|]. intros b. apply vk_bind; [apply vk_deref|]. intros r.
  eapply tri_bind with (Q := fun x s => vat s /\ oG (good s) (r_node x)).
  { apply tri_gets. intros s V. split; [exact V|]. apply V. }
  intros x. eapply tri_bind with (Q := fun o s => vat s /\ good s o).
  { apply tri_deref. intros o s E (V & H). split; [exact V|]. apply H. exact E. }
  intros o. cbv zeta. intros s a s' (V & H) E. inv_bind E q s1 E1.
  assert (s1 = s).
  { destruct (side_eqb _ _); [apply ret_Ok in E1; tauto|]. unfold prev_of in E1. inv_bind E1 n s2 E2. apply gets_Ok in E2.
    destruct E2 as (_ & ->). apply deref_Ok in E1. tauto. }
  subst s1. inv_bind E qp s1 E2. unfold node_point in E2. inv_bind E2 n s2 E3. apply gets_Ok in E3. destruct E3 as (_ & ->).
  apply ret_Ok in E2. destruct E2 as (_ & ->). destruct (point_eqb p qp).
  { apply ret_Ok in E. destruct E as (_ & ->). exact V. }
  inv_bind E nn s1 E2. apply create_vat in E2; [|assumption|assumption|apply oG_Some; exact H]. destruct E2 as (V1 & G1).
  destruct (side_eqb _ _).
  - eapply set_r_node_vat; [|exact E]. auto.
  - apply ret_Ok in E. destruct E as (_ & ->). exact V1.
Qed.
Lemma vk_hot_pixel_walk i x a sk sp l : Forall P l -> vk (hot_pixel_walk i x a sk sp l).
Proof.
  induction 1 as [|h l Hh F IH]; cbn [hot_pixel_walk]; [apply vk_ret|].
  destruct (sk _); [exact IH|]. destruct (sp _); [apply vk_ret|]. destruct (_ && _); [exact IH|].
  apply vk_bind; [apply vk_put_point, Hh|]. intros ?. exact IH.
Qed.
Lemma vk_hp_ltr y a b i g e : Forall P g -> vk (hot_pixel_set_left_to_right y a b i g e).
Proof.
  intros F. unfold hot_pixel_set_left_to_right. apply vk_bind; [apply vk_current_edge|]. intros ed.
  do 2 (apply vk_bind; [apply vk_lift|]; intros ?). apply vk_hot_pixel_walk, F.
Qed.
Lemma vk_hp_rtl y a b i g e : Forall P g -> vk (hot_pixel_set_right_to_left y a b i g e).
Proof.
  intros F. unfold hot_pixel_set_right_to_left. apply vk_bind; [apply vk_current_edge|]. intros ed.
  do 2 (apply vk_bind; [apply vk_lift|]; intros ?). apply vk_hot_pixel_walk, Forall_rev, F.
Qed.
Lemma vk_insert_hp i p e : vk (insert_hot_pixels_in_path i p e).
Proof.
  unfold insert_hot_pixels_in_path. apply vk_bind; [apply vk_bd|]. intros b. destruct (point_eqb _ _); [apply vk_ret|].
  cbv zeta. eapply tri_bind with (Q := fun sx s => Forall P (s_hp sx) /\ vat s).
  { apply tri_get. intros s V. split; [apply V|exact V]. }
  intros sx. apply tri_fact. intros F. apply vk_bind; [apply vk_lift|]. intros k0.
  apply vk_bind; [|intros ?; apply vk_upd_bound].
  apply tri_loop with (Inv := fun _ => vat). intros k. destruct (nth_error _ k) as [h|]; [|apply tri_ret; auto].
  destruct (_ >? _); [apply tri_ret; auto|]. destruct (_ <? _); [apply tri_ret; auto|].
  eapply tri_bind; [|intros ?; apply tri_ret; intros s V; exact V].
  assert (Fg : Forall P (firstn (group_end (s_hp sx) (py h) k - k) (skipn k (s_hp sx)))).
  { apply Forall_forall. intros q Hq. rewrite Forall_forall in F. apply F.
    rewrite <- (firstn_skipn k (s_hp sx)). apply in_or_app. right.
    rewrite <- (firstn_skipn (group_end (s_hp sx) (py h) k - k) (skipn k _)). apply in_or_app. left. exact Hq. }
  destruct (_ >? _); [apply vk_hp_rtl|apply vk_hp_ltr]; exact Fg.
Qed.
Lemma vk_add_point_to_ring i p : P p -> vk (add_point_to_ring i p).
Proof.
  intros H. unfold add_point_to_ring. apply vk_bind; [apply vk_bd|]. intros b. destruct (is_none _); [apply vk_raise|].
  apply vk_bind; [apply vk_insert_hp|]. intros ?. apply vk_put_point, H.
Qed.
Lemma vk_add_first_point i p : P p -> vk (add_first_point i p).
Proof.
  intros H. unfold add_first_point.
  apply vk_bind; [eapply vk_keeps; [intros; apply kp_create_ring|apply (pr_create_ring quiet)]|]. intros r.
  apply vk_bind; [apply vk_upd_bound|]. intros _.
  eapply tri_bind with (Q := fun n s => vat s /\ good s n).
  { intros s n s' V E. eapply create_vat; eauto. apply oG_None. }
  intros n. eapply tri_bind; [apply set_r_node_vat|]. intros ?.
  apply vk_bind; [eapply vk_keeps; [intros; apply kp_set_hole_state|apply qt_set_hole_state]|]. intros ?. apply vk_upd_bound.
Qed.
Lemma vk_add_point i p : P p -> vk (add_point i p).
Proof.
  intros H. unfold add_point. apply vk_bind; [apply vk_bd|]. intros b.
  destruct (is_none _); [apply vk_add_first_point|apply vk_add_point_to_ring]; exact H.
Qed.
Lemma vk_append_ring fuel i j : vk (append_ring fuel i j).
Proof. eapply vk_keeps; [intros; apply kp_append_ring|apply qt_append_ring]. Qed.
Ltac vks := repeat first [apply vk_ret | apply vk_raise | apply vk_bd | apply vk_lift | apply vk_deref | apply vk_upd_bound
  | apply vk_current_edge | apply vk_append_ring | apply vk_insert_hp
  | (apply vk_add_point; assumption) | (apply vk_bind; [|intros ?]) | match goal with |- vk (match ?x with _ => _ end) => destruct x end].
Lemma vk_add_lmin p i j : P p -> vk (add_local_minimum_point p i j).
Proof. intros H. unfold add_local_minimum_point. vks. Qed.
Lemma vk_add_lmax fuel p i j : P p -> vk (add_local_maximum_point fuel p i j).
Proof. intros H. unfold add_local_maximum_point. vks. Qed.
Lemma vk_intersect_bounds fuel op a b p i j : P p -> vk (intersect_bounds fuel op a b p i j).
Proof.
  intros H. unfold intersect_bounds, swap_sides, swap_rings. apply vk_bind; [apply vk_bd|]. intros b1. apply vk_bind; [apply vk_bd|]. intros b2.
  destruct (crossed_windings _ _ _ _) as [[? ?] [? ?]]. do 2 (apply vk_bind; [apply vk_upd_bound|]; intros _).
  destruct (crossing _ _ _ _ _ _ _ _ _ _ _); try (apply vk_add_lmin; exact H); try (apply vk_add_lmax; exact H); vks.
Qed.
Lemma vk_add_hp_ltr stop i : forall n k, vk (add_hot_pixels_ltr n stop i k).
Proof.
  induction n as [|n IH]; intros k; cbn [add_hot_pixels_ltr]; [apply vk_ret|].
  eapply tri_bind with (Q := fun hp s => Forall P hp /\ vat s); [apply tri_gets; intros s V; split; [apply V|exact V]|].
  intros hp. apply tri_fact. intros F. destruct (nth_error hp k) as [h|] eqn:E; [|apply vk_ret].
  assert (Hh : P h) by (rewrite Forall_forall in F; apply F; eapply nth_error_In; exact E).
  apply vk_bind; [apply vk_lift|]. intros []; [apply vk_ret|]. apply vk_bind; [apply vk_bd|]. intros b.
  apply vk_bind; [|intros ?; apply IH]. destruct (is_some _); [apply vk_add_point_to_ring, Hh|apply vk_ret].
Qed.
Lemma vk_add_hp_rtl stop i k : vk (add_hot_pixels_rtl stop i k).
Proof.
  induction k as [|n IH]; cbn [add_hot_pixels_rtl]; [apply vk_ret|].
  eapply tri_bind with (Q := fun hp s => Forall P hp /\ vat s); [apply tri_gets; intros s V; split; [apply V|exact V]|].
  intros hp. apply tri_fact. intros F.
  eapply tri_bind with (Q := fun h s => P h /\ vat s).
  { apply tri_lift. intros h s E V. split; [|exact V]. unfold nth_res in E. destruct (nth_error hp n) eqn:En; [|discriminate].
    injection E as ->. rewrite Forall_forall in F. apply F. eapply nth_error_In, En. }
  intros h. apply tri_fact. intros Hh.
  apply vk_bind; [apply vk_lift|]. intros []; [apply vk_ret|]. apply vk_bind; [apply vk_bd|]. intros b.
  apply vk_bind; [|intros ?; apply IH]. destruct (is_some _); [apply vk_add_point_to_ring, Hh|apply vk_ret].
Qed.
(** an output function keeps what does not depend on the output *)
Lemma tri_out {A} (m : prog A) (J : st -> Prop) : vk m -> pres quiet m -> (forall s s', quiet s s' -> J s -> J s') ->
  tri (fun s => vat s /\ J s) m (fun _ s => vat s /\ J s).
Proof. intros V Q S. apply tri_and; [exact V|]. eapply tri_pres; eassumption. Qed.
End Vat.
