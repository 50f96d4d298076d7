(** * What the output code may change of the bounds: nothing but [last_point],
      [side] and [ring] *)
From Coq Require Import ZArith List Bool Lia FMapPositive.
From Coq Require Import Floats.SpecFloat.
From RecordUpdate Require Import RecordSet.
From Verif Require Import Py Monad Utils Geometry LinearRingM BoundM LocalMinimumM
     StateM PointNodeM RingM SweepM HoareP SweepFrameP SpecSweep SpecActive.
Import ListNotations RecordSetNotations.
Open Scope Z_scope.

Definition core (b : bound) :=
  (b_edges b, b_cur b, b_next b, b_cx b, b_pos b, b_wc b, b_owc b, (b_wd b, b_kind b, b_max b)).
Definition calm (s s' : st) : Prop :=
  s_abl s' = s_abl s /\ s_scan s' = s_scan s /\ s_hp s' = s_hp s /\ s_hpi s' = s_hpi s /\
  forall i, core (bget (s_bounds s') i) = core (bget (s_bounds s) i).
#[export] Instance calm_pre : PreOrd calm.
Proof.
  split; [intros s; repeat split|]. intros s1 s2 s3 (A1&B1&C1&D1&H1) (A2&B2&C2&D2&H2).
  repeat (split; [congruence|]). intros i. rewrite H2. apply H1.
Qed.
#[export] Instance calm_sweep : SweepRel calm.
Proof.
  split; [apply calm_pre|]. intros s s' (E&E1&E2&E3&E4). repeat (split; [congruence|]).
  intros i. rewrite E. reflexivity.
Qed.
#[export] Hint Resolve calm_pre calm_sweep : pres.

(** calm, and every bound keeps its ring status *)
Definition calm_ring (s s' : st) : Prop :=
  calm s s' /\ forall i, has_ring s' i = has_ring s i.
#[export] Instance calm_ring_pre : PreOrd calm_ring.
Proof.
  split; [intros s; split; [apply R_refl|reflexivity]|].
  intros s1 s2 s3 (A1&H1) (A2&H2). split; [eapply R_trans; eassumption|].
  intros i. rewrite H2. apply H1.
Qed.
#[export] Instance calm_ring_sweep : SweepRel calm_ring.
Proof.
  split; [apply calm_ring_pre|]. intros s s' E. split; [apply sr_sub; exact E|].
  destruct E as (E&_). intros i. unfold has_ring. rewrite E. reflexivity.
Qed.
#[export] Hint Resolve calm_ring_pre calm_ring_sweep : pres.

Lemma bind_Ok {A B} (m : prog A) (k : A -> prog B) s b s' :
  bind m k s = Ok (b, s') -> exists a s1, m s = Ok (a, s1) /\ k a s1 = Ok (b, s').
Proof. unfold bind. destruct (m s) as [[a s1]| |]; try discriminate. eauto. Qed.
Ltac inv_bind H a s1 E := apply bind_Ok in H; destruct H as (a & s1 & E & H).
Lemma bd_Ok i s b s' : bd i s = Ok (b, s') -> b = bget (s_bounds s) i /\ s' = s.
Proof. intros E. injection E as <- <-. auto. Qed.
Lemma rg_Ok i s b s' : rg i s = Ok (b, s') -> b = hget new_ring (s_rings s) i /\ s' = s.
Proof. intros E. injection E as <- <-. auto. Qed.
Lemma gets_Ok {A} (f : st -> A) s b s' : gets f s = Ok (b, s') -> b = f s /\ s' = s.
Proof. intros E. injection E as <- <-. auto. Qed.
Lemma get_Ok (s : st) b s' : get s = Ok (b, s') -> b = s /\ s' = s.
Proof. intros E. injection E as <- <-. auto. Qed.
Lemma ret_Ok {A} (a : A) (s : st) b s' : ret a s = Ok (b, s') -> b = a /\ s' = s.
Proof. intros E. injection E as <- <-. auto. Qed.
Lemma lift_Ok {A} (r : res A) (s : st) b s' : lift r s = Ok (b, s') -> r = Ok b /\ s' = s.
Proof. destruct r; try discriminate. intros E. injection E as <- <-. auto. Qed.
Lemma deref_Ok {A} (o : option A) (s : st) b s' : deref o s = Ok (b, s') -> o = Some b /\ s' = s.
Proof. destruct o; try discriminate. intros E. injection E as <- <-. auto. Qed.
Lemma modify_Ok (f : st -> st) s b s' : modify f s = Ok (b, s') -> s' = f s.
Proof. intros E. injection E as _ <-. auto. Qed.
Lemma upd_bound_Ok i f s b s' : upd_bound i f s = Ok (b, s') ->
  s' = s <| s_bounds := hset (s_bounds s) i (f (bget (s_bounds s) i)) |>.
Proof. intros E. injection E as _ <-. reflexivity. Qed.

(** update of one bound *)
Lemma calm_upd i f s : (forall b, core (f b) = core b) ->
  calm s (s <| s_bounds := hset (s_bounds s) i (f (bget (s_bounds s) i)) |>).
Proof.
  intros H. repeat split; try reflexivity. intros j. cbn. rewrite bget_hset.
  destruct (Pos.eqb_spec i j) as [->|_]; [apply H|reflexivity].
Qed.
Lemma cm_upd_bound i f : (forall b, core (f b) = core b) -> pres calm (upd_bound i f).
Proof. intros H. apply pres_modify. intros s. apply calm_upd. exact H. Qed.
Lemma upd_calm i f s u s' : upd_bound i f s = Ok (u, s') -> (forall b, core (f b) = core b) -> calm s s'.
Proof. intros H C. exact (cm_upd_bound i f C s u s' H). Qed.
Lemma cr_upd_bound i f : (forall b, core (f b) = core b /\ is_some (b_ring (f b)) = is_some (b_ring b)) ->
  pres calm_ring (upd_bound i f).
Proof.
  intros H. apply pres_modify. intros s. split; [apply calm_upd; intros; apply H|].
  intros j. unfold has_ring. cbn. rewrite bget_hset.
  destruct (Pos.eqb_spec i j) as [->|_]; [apply H|reflexivity].
Qed.
Ltac cr_prim := apply cr_upd_bound; intros; split; reflexivity.
Ltac cr_auto := repeat first [progress pres_step | cr_prim].
Ltac crg f := intros; unfold f; cr_auto.

Lemma cr_bd i : pres calm_ring (bd i). Proof. crg bd. Qed.
#[export] Hint Resolve cr_bd : pres.
Lemma cr_abl_get k : pres calm_ring (abl_get k). Proof. crg abl_get. Qed.
#[export] Hint Resolve cr_abl_get : pres.
Lemma cr_abl_bound k : pres calm_ring (abl_bound k). Proof. crg abl_bound. Qed.
Lemma cr_current_edge i : pres calm_ring (current_edge i). Proof. crg current_edge. Qed.
Lemma cr_next_edge i : pres calm_ring (next_edge i). Proof. crg next_edge. Qed.
#[export] Hint Resolve cr_abl_bound cr_current_edge cr_next_edge : pres.
Lemma cr_is_intermediate i y : pres calm_ring (is_intermediate i y). Proof. crg is_intermediate. Qed.
Lemma cr_is_maxima i y : pres calm_ring (is_maxima i y). Proof. crg is_maxima. Qed.
Lemma cr_set_hole_state i : pres calm_ring (set_hole_state i). Proof. crg set_hole_state. Qed.
Lemma cr_put_point i p : pres calm_ring (put_point i p). Proof. crg put_point. Qed.
#[export] Hint Resolve cr_is_intermediate cr_is_maxima cr_set_hole_state cr_put_point : pres.
Lemma cr_hot_pixel_walk i x a sk sp l : pres calm_ring (hot_pixel_walk i x a sk sp l).
Proof. induction l as [|h l IH]; cbn [hot_pixel_walk]; cr_auto. Qed.
#[export] Hint Resolve cr_hot_pixel_walk : pres.
Lemma cr_hp_ltr y a b i g e : pres calm_ring (hot_pixel_set_left_to_right y a b i g e).
Proof. crg hot_pixel_set_left_to_right. Qed.
Lemma cr_hp_rtl y a b i g e : pres calm_ring (hot_pixel_set_right_to_left y a b i g e).
Proof. crg hot_pixel_set_right_to_left. Qed.
#[export] Hint Resolve cr_hp_ltr cr_hp_rtl : pres.
Lemma cr_insert_hp i p e : pres calm_ring (insert_hot_pixels_in_path i p e).
Proof. crg insert_hot_pixels_in_path. Qed.
#[export] Hint Resolve cr_insert_hp : pres.
Lemma cr_add_point_to_ring i p : pres calm_ring (add_point_to_ring i p). Proof. crg add_point_to_ring. Qed.
Lemma cr_swap_sides i j : pres calm_ring (swap_sides i j). Proof. crg swap_sides. Qed.
Lemma cr_join fuel a b c d : pres calm_ring (join_chains fuel a b c d). Proof. crg join_chains. Qed.
Lemma cr_add_hp_ltr i stop n : forall k, pres calm_ring (add_hot_pixels_ltr n stop i k).
Proof. induction n as [|n IH]; intros k; cbn [add_hot_pixels_ltr]; cr_auto; apply cr_add_point_to_ring. Qed.
Lemma cr_add_hp_rtl i stop k : pres calm_ring (add_hot_pixels_rtl stop i k).
Proof. induction k as [|n IH]; cbn [add_hot_pixels_rtl]; cr_auto; apply cr_add_point_to_ring. Qed.
#[export] Hint Resolve cr_add_point_to_ring cr_swap_sides cr_join cr_add_hp_ltr cr_add_hp_rtl : pres.

(** ** Functions that change the ring status *)
(** [status_except X s s']: calm, and the ring status changes only for the
    bounds in [X], which end with status [v] *)
Definition status_to (v : bool) (X : list bid) (s s' : st) : Prop :=
  calm s s' /\ (forall i, ~ In i X -> has_ring s' i = has_ring s i) /\
  (forall i, In i X -> has_ring s' i = v).
Lemma status_calm_r v X s s1 s' : status_to v X s s1 -> calm_ring s1 s' -> status_to v X s s'.
Proof.
  intros (A & B & C) (A' & D). split; [eapply R_trans; eassumption|].
  split; intros i Hi; rewrite D; auto.
Qed.
Lemma status_calm_l v X s s1 s' : calm_ring s s1 -> status_to v X s1 s' -> status_to v X s s'.
Proof.
  intros (A' & D) (A & B & C). split; [eapply R_trans; eassumption|].
  split; intros i Hi; rewrite <- ?D; auto.
Qed.

Lemma add_first_point_status i p s s' u :
  add_first_point i p s = Ok (u, s') -> status_to true [i] s s'.
Proof.
  unfold add_first_point. intros H. inv_bind H r s1 E1. inv_bind H t s2 E2.
  assert (C1 : calm_ring s s1) by (apply (pr_create_ring calm_ring _ _ _ E1)).
  apply upd_bound_Ok in E2.
  assert (C2 : status_to true [i] s1 s2).
  { subst s2. split; [apply calm_upd; reflexivity|].
    split; intros j Hj; unfold has_ring; cbn; rewrite bget_hset.
    - destruct (Pos.eqb_spec i j) as [->|_]; [|reflexivity]. exfalso. apply Hj. left. reflexivity.
    - destruct Hj as [->|[]]. rewrite Pos.eqb_refl. reflexivity. }
  assert (C3 : calm_ring s2 s').
  { match type of H with ?m s2 = _ => assert (P : pres calm_ring m) by cr_auto end.
    apply (P _ _ _ H). }
  eapply status_calm_l; [exact C1|]. eapply status_calm_r; eassumption.
Qed.
Lemma add_point_status i p s s' u :
  add_point i p s = Ok (u, s') -> status_to true [i] s s'.
Proof.
  unfold add_point. intros H. inv_bind H b s1 E1. apply bd_Ok in E1. destruct E1 as (-> & ->).
  destruct (is_none _) eqn:En.
  - eapply add_first_point_status. exact H.
  - apply cr_add_point_to_ring in H. destruct H as (C & D). split; [exact C|].
    split; [intros; apply D|]. intros j [->|[]]. rewrite D. unfold has_ring, is_some. rewrite En. reflexivity.
Qed.
Lemma add_point_keeps i p s s' u : has_ring s i = true ->
  add_point i p s = Ok (u, s') -> calm_ring s s'.
Proof.
  intros Hr H. apply add_point_status in H. destruct H as (C & D & E). split; [exact C|].
  intros j. destruct (Pos.eq_dec j i) as [->|N].
  - rewrite Hr. apply E. left. reflexivity.
  - apply D. intros [C'|[]]. congruence.
Qed.

Lemma upd_last_calm i p : pres calm_ring (upd_bound i (fun b => b <| b_last := p |>)).
Proof. cr_prim. Qed.
Lemma upd_side_calm i p : pres calm_ring (upd_bound i (fun b => b <| b_side := p |>)).
Proof. cr_prim. Qed.
Lemma upd_ring_status i o s s' u : upd_bound i (fun b => b <| b_ring := o |>) s = Ok (u, s') ->
  status_to (is_some o) [i] s s'.
Proof.
  intros E. apply upd_bound_Ok in E. subst s'. split; [apply calm_upd; reflexivity|].
  split; intros j Hj; unfold has_ring; cbn; rewrite bget_hset.
  - destruct (Pos.eqb_spec i j) as [->|_]; [|reflexivity]. exfalso. apply Hj. left. reflexivity.
  - destruct Hj as [->|[]]. rewrite Pos.eqb_refl. reflexivity.
Qed.
Lemma status_join v X Y s s1 s' : status_to v X s s1 -> status_to v Y s1 s' -> status_to v (X ++ Y) s s'.
Proof.
  intros (A & B & C) (A' & B' & C'). split; [eapply R_trans; eassumption|]. split; intros i Hi.
  - rewrite B', B; auto; intros D; apply Hi; apply in_or_app; auto.
  - destruct (in_dec Pos.eq_dec i Y) as [HY|HY]; [apply C'; exact HY|].
    rewrite B' by exact HY. apply in_app_or in Hi. destruct Hi; [apply C; assumption|contradiction].
Qed.
Lemma status_perm v X Y s s' : (forall i, In i X <-> In i Y) -> status_to v X s s' -> status_to v Y s s'.
Proof. intros E (A & B & C). split; [exact A|]. split; intros i Hi; [apply B|apply C]; rewrite E; exact Hi. Qed.

Lemma add_local_minimum_status p i j s s' u :
  add_local_minimum_point p i j s = Ok (u, s') -> status_to true [i; j] s s'.
Proof.
  unfold add_local_minimum_point. intros H. inv_bind H ej s1 E1.
  assert (C1 : calm_ring s s1) by (apply (cr_current_edge j _ _ _ E1)). clear E1.
  inv_bind H f s2 E2.
  assert (C2 : calm_ring s1 s2).
  { match type of E2 with ?m s1 = _ => assert (P : pres calm_ring m) by cr_auto end. apply (P _ _ _ E2). }
  clear E2. eapply status_calm_l; [eapply R_trans; [exact C1|exact C2]|]. clear C1 C2 s s1.
  assert (G : forall a b sa sb,
    (add_point a p ;;
     upd_bound b (fun x => x <| b_last := p |>) ;;
     ba <- bd a ;;
     upd_bound b (fun x => x <| b_ring := b_ring ba |>) ;;
     upd_bound i (fun x => x <| b_side := sa |>) ;;
     upd_bound j (fun x => x <| b_side := sb |>))%M s2 = Ok (u, s') -> status_to true [a; b] s2 s').
  { clear H. intros a b sa sb H. inv_bind H u1 s3 E3. apply add_point_status in E3.
    inv_bind H u2 s4 E4. apply upd_last_calm in E4.
    inv_bind H ba s5 E5. apply bd_Ok in E5. destruct E5 as (-> & ->).
    inv_bind H u3 s5 E5. apply upd_ring_status in E5.
    assert (Ra : is_some (b_ring (bget (s_bounds s4) a)) = true).
    { change (has_ring s4 a = true). destruct E4 as (_ & D). rewrite D. apply E3. left. reflexivity. }
    rewrite Ra in E5.
    assert (C : calm_ring s5 s').
    { match type of H with ?m s5 = _ => assert (P : pres calm_ring m) by cr_auto end. apply (P _ _ _ H). }
    eapply status_calm_r; [|exact C].
    apply (status_join true [a] [b] s2 s4 s5); [|exact E5].
    eapply status_calm_r; eassumption. }
  destruct f; [apply (G i j LEFT RIGHT); exact H|].
  eapply status_perm; [|apply (G j i RIGHT LEFT)]; [|exact H].
  intros x. cbn. tauto.
Qed.

Lemma find_ring_bound_some h r l t : find_ring_bound h r l = Some t ->
  b_ring (bget h t) = Some r.
Proof.
  induction l as [|[j|] l IH]; cbn [find_ring_bound]; try discriminate; [|exact IH].
  destruct (opt_is (b_ring (bget h j)) (Some r)) eqn:E; [|exact IH].
  intros H. injection H as <-. unfold opt_is in E. destruct (b_ring (bget h j)); [|discriminate].
  apply Pos.eqb_eq in E. congruence.
Qed.

Lemma append_ring_status fuel i j s s' u :
  append_ring fuel i j s = Ok (u, s') -> status_to false [i; j] s s'.
Proof.
  unfold append_ring. intros H. 
  assert (F : forall kb rb keep remove s1 s2 v,
    (upd_bound rb (fun b => b <| b_ring := None |>) ;;
     upd_bound kb (fun b => b <| b_ring := None |>) ;;
     s <- get ;;
     match find_ring_bound (s_bounds s) remove (s_abl s) with
     | None => ret tt
     | Some t =>
         (kbd <- bd kb ;;
          upd_bound t (fun b => b <| b_ring := Some keep |> <| b_side := b_side kbd |>))
     end)%M s1 = Ok (v, s2) -> status_to false [rb; kb] s1 s2).
  { clear. intros kb rb keep remove s1 s2 v H. inv_bind H u1 s3 E1. apply upd_ring_status in E1.
    inv_bind H u2 s4 E2. apply upd_ring_status in E2. inv_bind H sx s5 E3.
    apply get_Ok in E3. destruct E3 as (-> & ->).
    pose proof (status_join _ _ _ _ _ _ E1 E2) as St. cbn [app is_some is_none negb] in St.
    eapply status_calm_r; [exact St|].
    destruct (find_ring_bound _ _ _) as [t|] eqn:Ef.
    - apply find_ring_bound_some in Ef. inv_bind H kbd s6 E4. apply bd_Ok in E4. destruct E4 as (-> & ->).
      pose proof (upd_calm _ _ _ _ _ H (fun b => eq_refl)) as Cm.
      apply upd_bound_Ok in H. subst s2. split; [exact Cm|]. clear Cm.
      intros x. unfold has_ring. cbn. rewrite bget_hset. destruct (Pos.eqb_spec t x) as [<-|_]; [|reflexivity].
      rewrite Ef. reflexivity.
    - apply ret_Ok in H. destruct H as (_ & ->). apply R_refl. }
  inv_bind H bi s1 E1. inv_bind H bj s2 E2. inv_bind H r1 s3 E3. inv_bind H r2 s4 E4.
  inv_bind H d12 s5 E5. inv_bind H kf s6 E6.
  assert (C : calm_ring s s6).
  { apply bd_Ok in E1, E2. apply deref_Ok in E3, E4.
    destruct E1 as (_ & ->), E2 as (_ & ->), E3 as (_ & ->), E4 as (_ & ->).
    apply (pr_is_descendant_of calm_ring) in E5.
    match type of E6 with ?m s5 = _ => assert (P : pres calm_ring m) by cr_auto end.
    eapply R_trans; [exact E5|]. apply (P _ _ _ E6). }
  eapply status_calm_l; [exact C|]. clear C E1 E2 E3 E4 E5 E6 s s1 s2 s3 s4 s5 d12 bi bj.
  assert (G : forall keep remove kb rb,
     (kr <- rg keep ;; rr <- rg remove ;;
   p1_lft <- deref (r_node kr) ;; p2_lft <- deref (r_node rr) ;;
   kbd <- bd kb ;; rbd <- bd rb ;;
   head <- join_chains fuel (side_eqb (b_side kbd) LEFT) (side_eqb (b_side rbd) LEFT)
                       p1_lft p2_lft ;;
   match head with
   | Some n => upd_ring keep (fun x => x <| r_node := Some n |>)
   | None => ret tt
   end ;;
   upd_ring keep (fun x => x <| r_bottom := None |>) ;;
   kd <- ring_depth fuel keep ;;
   rd <- ring_depth fuel remove ;;
   upd_ring remove (fun x => x <| r_node := None |> <| r_bottom := None |>) ;;
   (if negb (Bool.eqb (is_odd kd) (is_odd rd))
    then (kr <- rg keep ;; replace_ring fuel remove (r_parent kr))
    else replace_ring fuel remove (Some keep)) ;;
   update_points fuel keep ;;
   upd_bound rb (fun b => b <| b_ring := None |>) ;;
   upd_bound kb (fun b => b <| b_ring := None |>) ;;
   s <- get ;;
   match find_ring_bound (s_bounds s) remove (s_abl s) with
   | None => ret tt
   | Some t =>
       (kbd <- bd kb ;;
        upd_bound t (fun b => b <| b_ring := Some keep |> <| b_side := b_side kbd |>))
   end)%M s6 = Ok (u, s') -> status_to false [rb; kb] s6 s').
  { clear H. intros keep remove kb rb H.
    inv_bind H kr s7 E1. inv_bind H rr s8 E2. inv_bind H p1 s9 E3. inv_bind H p2 s10 E4.
    inv_bind H kbd s11 E5. inv_bind H rbd s12 E6.
    apply rg_Ok in E1, E2. apply deref_Ok in E3, E4. apply bd_Ok in E5, E6.
    destruct E1 as (_ & ->), E2 as (_ & ->), E3 as (_ & ->), E4 as (_ & ->), E5 as (_ & ->), E6 as (_ & ->).
    inv_bind H hd0 s7 E7. apply cr_join in E7.
    inv_bind H u1 s8 E8.
    assert (E8' : calm_ring s7 s8).
    { match type of E8 with ?m s7 = _ => assert (P : pres calm_ring m) by cr_auto end. apply (P _ _ _ E8). }
    inv_bind H u2 s9 E9. apply (pr_upd_ring calm_ring) in E9.
    inv_bind H kd s10 E10. apply (pr_ring_depth calm_ring) in E10.
    inv_bind H rd s11 E11. apply (pr_ring_depth calm_ring) in E11.
    inv_bind H u3 s12 E12. apply (pr_upd_ring calm_ring) in E12.
    inv_bind H u4 s13 E13.
    assert (E13' : calm_ring s12 s13).
    { match type of E13 with ?m s12 = _ => assert (P : pres calm_ring m) by cr_auto end. apply (P _ _ _ E13). }
    inv_bind H u5 s14 E14. apply (pr_update_points calm_ring) in E14.
    apply F in H. eapply status_calm_l; [|exact H].
    clear H E8 E13. repeat (eapply R_trans; [eassumption|]). apply R_refl. }
  destruct kf; cbv beta iota zeta in H; apply G in H; [|exact H].
  eapply status_perm; [|exact H]. intros x. cbn. tauto.
Qed.

Lemma add_local_maximum_status fuel p i j s s' u : has_ring s i = true -> has_ring s j = true ->
  add_local_maximum_point fuel p i j s = Ok (u, s') -> status_to false [i; j] s s'.
Proof.
  unfold add_local_maximum_point. intros Hi Hj H. inv_bind H u1 s1 E1. apply cr_insert_hp in E1.
  inv_bind H u2 s2 E2. apply add_point_keeps in E2; [|destruct E1 as (_ & D); rewrite D; exact Hi].
  inv_bind H bi s3 E3. inv_bind H bj s4 E4. apply bd_Ok in E3, E4.
  destruct E3 as (-> & ->), E4 as (-> & ->).
  eapply status_calm_l; [eapply R_trans; [exact E1|exact E2]|].
  destruct (opt_is _ _).
  - inv_bind H u3 s3 E3. apply upd_ring_status in E3, H.
    exact (status_join _ _ _ _ _ _ E3 H).
  - inv_bind H ri s3 E3. inv_bind H rj s4 E4. apply deref_Ok in E3, E4.
    destruct E3 as (_ & ->), E4 as (_ & ->).
    destruct (Pos.ltb ri rj); apply append_ring_status in H; [exact H|].
    eapply status_perm; [|exact H]. intros x. cbn. tauto.
Qed.

Lemma swap_rings_status i j s s' u : i <> j -> swap_rings i j s = Ok (u, s') ->
  calm s s' /\ has_ring s' i = has_ring s j /\ has_ring s' j = has_ring s i /\
  forall x, x <> i -> x <> j -> has_ring s' x = has_ring s x.
Proof.
  unfold swap_rings. intros N H. inv_bind H a s1 E1. inv_bind H b s2 E2.
  apply bd_Ok in E1, E2. destruct E1 as (-> & ->), E2 as (-> & ->).
  inv_bind H u1 s1 E1.
  pose proof (upd_calm _ _ _ _ _ E1 (fun b => eq_refl)) as C1.
  pose proof (upd_calm _ _ _ _ _ H (fun b => eq_refl)) as C2.
  apply upd_bound_Ok in E1, H. subst s1 s'.
  split; [eapply R_trans; eassumption|]. clear C1 C2.
  unfold has_ring. cbn. rewrite !bget_hset, !Pos.eqb_refl.
  destruct (Pos.eqb_spec j i); [congruence|]. destruct (Pos.eqb_spec i j); [congruence|].
  cbn. repeat split.
  intros x Hi Hj. rewrite !bget_hset. destruct (Pos.eqb_spec j x); [congruence|].
  destruct (Pos.eqb_spec i x); [congruence|]. reflexivity.
Qed.
