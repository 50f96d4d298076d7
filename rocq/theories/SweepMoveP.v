(** * Every step of the ring building sweep comes closer to its end *)
From Coq Require Import ZArith List Bool Lia FMapPositive Permutation Sorting.Sorted.
From Coq Require Import Floats.SpecFloat.
From RecordUpdate Require Import RecordSet.
From Verif Require Import Py Monad Utils Spec Geometry LinearRingM BoundM LocalMinimumM
     StateM PointNodeM RingM SweepM HoareP SweepFrameP SpecSweep SpecActive ListP FuelP
     WindingP CalmP WindingInvP VatP IntersectP OriginP MaximaP SweepInvP SweepRunP HaltP PayP HotHaltP.
Import ListNotations RecordSetNotations.
Open Scope Z_scope.
Local Open Scope m_scope.

Section Move.
Context (eds : bid -> list edge) (U : list bid) (op : operation_kind) (sfk cfk : fill_kind).
Notation stat := (stat eds).
Notation pot := (pot eds U).
Notation pay := (pay eds U).

Definition mv (s s' : st) : Prop := pay s s' /\ length (s_abl s') = length (s_abl s) /\ (length (live s') <= length (live s))%nat.
#[local] Instance mv_pre : PreOrd mv.
Proof.
  split; [intros s; split; [apply R_refl|split; [reflexivity|lia]]|]. intros a b c (A1 & A2 & A3) (B1 & B2 & B3).
  split; [eapply R_trans; eassumption|]. split; [congruence|lia].
Qed.
Hint Resolve mv_pre : pres.
Lemma mv_quiet {A} (m : prog A) : pres quiet m -> pres mv m.
Proof.
  apply pres_mono. intros s s' Q. split; [apply still_pay, quiet_still, Q|]. destruct Q as (E & _). unfold live. rewrite E. auto.
Qed.
Lemma mv_unchanged {A} (m : prog A) : pres unchanged m -> pres mv m.
Proof. apply pres_mono. intros s s' ->. apply R_refl. Qed.
Lemma len_none l : forall k, (length (somes_of (upd l k None)) <= length (somes_of l))%nat /\
  (forall i : bid, nth_error l k = Some (Some i) -> (length (somes_of (upd l k None)) < length (somes_of l))%nat).
Proof.
  unfold somes_of. induction l as [|o l IH]; intros [|k]; cbn [upd flat_map nth_error].
  - split; [lia|discriminate].
  - split; [lia|discriminate].
  - rewrite !app_length. split; [cbn; lia|]. intros i [= ->]. cbn. lia.
  - rewrite !app_length. destruct (IH k) as (A & B). split; [lia|]. intros i E. specialize (B i E). lia.
Qed.
Lemma set_none k s u s' : abl_set k None s = Ok (u, s') -> (length (live s') <= length (live s))%nat /\
  (forall i : bid, nth_error (s_abl s) k = Some (Some i) -> (length (live s') < length (live s))%nat).
Proof. intros E. apply set_run in E. destruct E as ((_ & _ & A) & _). unfold live. rewrite A. apply len_none. Qed.
Lemma mv_none k : pres mv (abl_set k None).
Proof.
  intros s u s' E. split; [apply still_pay; eapply sl_abl_set, E|]. split; [|apply (set_none _ _ _ _ E)].
  apply set_run in E. destruct E as ((_ & _ & A) & _). rewrite A. apply upd_length.
Qed.
Lemma mv_swap a b : pres mv (abl_swap a b).
Proof.
  intros s u s' E. assert (Sl : still s s') by (revert E; apply (fun H : pres still (abl_swap a b) => H s u s'); unfold abl_swap; sl_auto).
  apply swap_run in E. destruct E as (x & y & Ex & Ey & (_ & _ & A)). split; [apply still_pay, Sl|].
  split; [rewrite A, !upd_length; reflexivity|]. unfold live. rewrite A.
  apply Nat.eq_le_incl. apply Permutation_length. unfold somes_of. apply Permutation_flat_map. apply Permutation_sym.
  eapply swap_perm; eassumption.
Qed.
Lemma mv_next i : In i U -> pres mv (to_next_edge i).
Proof.
  intros Iu s u s' E. split; [eapply next_paid; eassumption|]. apply sd_to_next_edge in E. destruct E as (E & _). unfold live. rewrite E. auto.
Qed.
Hint Resolve mv_none mv_swap mv_next : pres.
Hint Extern 3 (pres mv _) => apply mv_quiet : pres.
Lemma mv_upd i f : (forall b, b_edges (f b) = b_edges b /\ b_cur (f b) = b_cur b) -> pres mv (upd_bound i f).
Proof.
  intros H s u s' E. split; [apply still_pay; eapply sl_upd_bound, E; exact H|]. apply upd_bound_Ok in E. subst s'. split; [reflexivity|apply le_n].
Qed.
Ltac mvp := apply mv_upd; intros; split; reflexivity.
Ltac mva := repeat first [progress pres_step | mvp].
Lemma mv_ltr_step f i y mx mi j x : pres mv (ltr_step f op sfk cfk i y mx mi j x). Proof. unfold ltr_step. mva. Qed.
Lemma mv_rtl_step f i y mx mi j x : pres mv (rtl_step f op sfk cfk i y mx mi j x). Proof. unfold rtl_step. mva. Qed.
Hint Resolve mv_ltr_step mv_rtl_step : pres.
Lemma mv_ltr_loop f i y mx mi js : forall x, pres mv (ltr_loop f op sfk cfk i y mx mi js x).
Proof. induction js as [|j js IH]; intros x; cbn [ltr_loop]; mva. Qed.
Lemma mv_rtl_loop f i y mx mi js : forall x, pres mv (rtl_loop f op sfk cfk i y mx mi js x).
Proof. induction js as [|j js IH]; intros x; cbn [rtl_loop]; mva. Qed.
Hint Resolve mv_ltr_loop mv_rtl_loop : pres.
Lemma mv_finish i k : In i U -> pres mv (finish_horizontal i k). Proof. intros Iu. unfold finish_horizontal. mva. Qed.
Lemma mv_walk f k m : pres mv (maxima_walk f op sfk cfk k m).
Proof.
  unfold maxima_walk. apply pres_bind; [exact _|mva|]. intros n. generalize (range (S k) n) as js. generalize false. intros b0 js. revert k b0.
  induction js as [|j js IH]; intros k' sk; mva.
Qed.
Hint Resolve mv_finish mv_walk : pres.
Lemma mv_maxima f k m : pres mv (do_maxima f op sfk cfk k m). Proof. unfold do_maxima. mva. Qed.
Hint Resolve mv_maxima : pres.
Lemma mv_top f y k i : In i U -> pres mv (top_step f op sfk cfk y k i). Proof. intros Iu. unfold top_step. mva. Qed.
Lemma mv_last i y : In i U -> pres mv (im <- is_intermediate i y ;;
      if (im : bool) then
        (b <- bd i ;;
         (if is_some (b_ring b)
          then (e <- current_edge i ;; add_point_to_ring i (etop e)) else ret tt) ;;
         to_next_edge i)
      else ret tt).
Proof. intros Iu. mva. Qed.

(** ** The steps that remove something *)
Lemma maxima_less f k m s k' s' : do_maxima f op sfk cfk k m s = Ok (k', s') -> (length (live s') < length (live s))%nat /\ length (s_abl s') = length (s_abl s).
Proof.
  intros E. split; [|apply (mv_maxima _ _ _ _ _ _ E)]. unfold do_maxima in E. inv_bind E r s1 E1. apply mv_walk in E1. destruct E1 as (_ & _ & L1). destruct r as [k1 sk].
  cbv beta iota zeta in E. inv_bind E i s2 E2. apply bound_run in E2. destruct E2 as (E2 & ->).
  inv_bind E b s2 E3. apply bd_Ok in E3. destruct E3 as (-> & ->). inv_bind E j s2 E3. apply bound_run in E3. destruct E3 as (Ej & ->).
  inv_bind E c s2 E3. apply bd_Ok in E3. destruct E3 as (-> & ->). inv_bind E u1 s2 E3.
  assert (Q2 : quiet s1 s2).
  { destruct (_ && _); [|destruct (_ || _); [discriminate|apply ret_Ok in E3; destruct E3 as (_ & ->); apply R_refl]].
    inv_bind E3 e s3 E4. apply un_current_edge in E4. unfold unchanged in E4. subst s3. eapply qt_add_lmax, E3. }
  apply quiet_inv in Q2. destruct Q2 as (_ & A2). inv_bind E u2 s3 E4. inv_bind E u3 s4 E5. apply ret_Ok in E. destruct E as (_ & ->).
  apply set_none in E4, E5. destruct E4 as (_ & E4), E5 as (E5 & _). rewrite <- A2 in E2. specialize (E4 i E2). unfold live in *. rewrite A2 in E4. lia.
Qed.
Lemma top_less f y k i s k' s' : In i U -> top_step f op sfk cfk y k i s = Ok (k', s') ->
  length (s_abl s') = length (s_abl s) /\ (length (live s') <= length (live s))%nat /\ (k' = S k \/ (length (live s') < length (live s))%nat).
Proof.
  intros Iu E. destruct (mv_top _ _ _ _ Iu _ _ _ E) as (_ & H1 & H2). split; [exact H1|]. split; [exact H2|].
  unfold top_step in E. inv_bind E mx s1 E1. apply maxima_same in E1. subst s1. inv_bind E m s1 E1.
  assert (s1 = s).
  { destruct mx; [|apply ret_Ok in E1; tauto]. inv_bind E1 x s2 E2. apply bd_Ok in E2. destruct E2 as (-> & ->).
    inv_bind E1 abl s2 E2. apply gets_Ok in E2. destruct E2 as (-> & ->). cbv zeta in E1. destruct (_ =? _)%nat; [apply ret_Ok in E1; tauto|].
    inv_bind E1 j s2 E2. apply bound_run in E2. destruct E2 as (_ & ->). inv_bind E1 e s2 E2. apply un_current_edge in E2. unfold unchanged in E2. subst s2.
    destruct (is_horizontal e); [apply ret_Ok in E1; tauto|]. inv_bind E1 jm s2 E2. apply maxima_same in E2. subst s2. apply ret_Ok in E1. tauto. }
  subst s1. destruct m as [m|]; [right; apply (maxima_less _ _ _ _ _ _ E)|left].
  inv_bind E im s1 E2. inv_bind E pm s2 E3. inv_bind E u s3 E4. apply ret_Ok in E. tauto.
Qed.
Lemma ltr_step_less f i y im m j x s x' s' : ltr_step f op sfk cfk i y im m j x s = Ok ((x', Some true), s') -> (length (live s') < length (live s))%nat.
Proof.
  intros E. unfold ltr_step in E. destruct x as [[k h] sh]. inv_bind E o s1 E1. apply get_run in E1. destruct E1 as (Eo & ->).
  destruct o as [n|]; [|apply ret_Ok in E; destruct E; discriminate].
  inv_bind E hp s1 E1. apply gets_Ok in E1. destruct E1 as (-> & ->). inv_bind E nb s1 E1. apply bd_Ok in E1. destruct E1 as (-> & ->).
  inv_bind E e s1 E1. apply un_current_edge in E1. unfold unchanged in E1. subst s1. inv_bind E h' s1 E1. apply qt_add_hp_ltr, quiet_inv in E1. destruct E1 as (_ & A1).
  inv_bind E x s2 E2. apply lift_Ok in E2. destruct E2 as (_ & ->). inv_bind E g s2 E2. apply lift_Ok in E2. destruct E2 as (_ & ->).
  destruct g; [apply ret_Ok in E; destruct E; discriminate|]. inv_bind E r s2 E2. apply lift_Ok in E2. destruct E2 as (_ & ->).
  inv_bind E b s2 E2. apply bd_Ok in E2. destruct E2 as (-> & ->). inv_bind E stop s2 E2.
  assert (s2 = s1) by (destruct (_ && _); [inv_bind E2 ne s3 E3; apply lift_Ok in E3; destruct E3 as (_ & ->)|]; apply ret_Ok in E2; tauto). subst s2.
  destruct stop; [apply ret_Ok in E; destruct E; discriminate|]. inv_bind E u s2 E3.
  assert (A2 : s_abl s2 = s_abl s1).
  { destruct (is_some _); [|apply ret_Ok in E3; destruct E3 as (_ & ->); reflexivity]. apply qt_add_point_to_ring, quiet_inv in E3. apply E3. }
  destruct (im && (j =? m)%nat) eqn:Em; [|inv_bind E u2 s3 E4; inv_bind E u3 s4 E5; apply ret_Ok in E; destruct E; discriminate].
  apply andb_prop in Em. destruct Em as (_ & Em). apply Nat.eqb_eq in Em. subst m.
  inv_bind E b1 s3 E4. apply bd_Ok in E4. destruct E4 as (-> & ->). inv_bind E b2 s3 E4. apply bd_Ok in E4. destruct E4 as (-> & ->).
  inv_bind E u2 s3 E4. assert (A3 : s_abl s3 = s_abl s2).
  { destruct (_ && _); [|apply ret_Ok in E4; destruct E4 as (_ & ->); reflexivity]. apply qt_add_lmax, quiet_inv in E4. apply E4. }
  inv_bind E u3 s4 E5. inv_bind E u4 s5 E6. apply ret_Ok in E. destruct E as (_ & ->). apply set_none in E5, E6. destruct E5 as (_ & E5), E6 as (E6 & _).
  assert (A : s_abl s3 = s_abl s) by congruence. specialize (E5 n). unfold live in *. rewrite A in E5. specialize (E5 Eo). lia.
Qed.
Lemma rtl_step_less f i y im m j x s x' s' : rtl_step f op sfk cfk i y im m j x s = Ok ((x', Some true), s') -> (length (live s') < length (live s))%nat.
Proof.
  intros E. unfold rtl_step in E. destruct x as [k h]. inv_bind E o s1 E1. apply get_run in E1. destruct E1 as (Eo & ->).
  destruct o as [n|]; [|apply ret_Ok in E; destruct E; discriminate].
  inv_bind E nb s1 E1. apply bd_Ok in E1. destruct E1 as (-> & ->).
  inv_bind E e s1 E1. apply un_current_edge in E1. unfold unchanged in E1. subst s1. inv_bind E h' s1 E1. apply qt_add_hp_rtl, quiet_inv in E1. destruct E1 as (_ & A1).
  inv_bind E x s2 E2. apply lift_Ok in E2. destruct E2 as (_ & ->). inv_bind E g s2 E2. apply lift_Ok in E2. destruct E2 as (_ & ->).
  destruct g; [apply ret_Ok in E; destruct E; discriminate|]. inv_bind E r s2 E2. apply lift_Ok in E2. destruct E2 as (_ & ->).
  inv_bind E b s2 E2. apply bd_Ok in E2. destruct E2 as (-> & ->). inv_bind E stop s2 E2.
  assert (s2 = s1) by (destruct (_ && _); [inv_bind E2 ne s3 E3; apply lift_Ok in E3; destruct E3 as (_ & ->)|]; apply ret_Ok in E2; tauto). subst s2.
  destruct stop; [apply ret_Ok in E; destruct E; discriminate|]. inv_bind E u s2 E3.
  assert (A2 : s_abl s2 = s_abl s1).
  { destruct (is_some _); [|apply ret_Ok in E3; destruct E3 as (_ & ->); reflexivity]. apply qt_add_point_to_ring, quiet_inv in E3. apply E3. }
  destruct (im && (j =? m)%nat); [|inv_bind E u2 s3 E4; inv_bind E u3 s4 E5; apply ret_Ok in E; destruct E; discriminate].
  inv_bind E b1 s3 E4. apply bd_Ok in E4. destruct E4 as (-> & ->). inv_bind E b2 s3 E4. apply bd_Ok in E4. destruct E4 as (-> & ->).
  inv_bind E u2 s3 E4. assert (A3 : s_abl s3 = s_abl s2).
  { destruct (_ && _); [|apply ret_Ok in E4; destruct E4 as (_ & ->); reflexivity]. apply qt_add_lmax, quiet_inv in E4. apply E4. }
  inv_bind E u3 s4 E5. inv_bind E u4 s5 E6. apply ret_Ok in E. destruct E as (_ & ->). apply set_none in E5, E6. destruct E5 as (_ & E5), E6 as (E6 & _).
  assert (A : s_abl s3 = s_abl s) by congruence. specialize (E5 n). unfold live in *. rewrite A in E5. specialize (E5 Eo). lia.
Qed.
Lemma ltr_loop_less f i y im m js : forall x s x' s', ltr_loop f op sfk cfk i y im m js x s = Ok ((x', Some true), s') -> (length (live s') < length (live s))%nat.
Proof.
  induction js as [|j js IH]; intros x s x' s' E; cbn [ltr_loop] in E; [apply ret_Ok in E; destruct E; discriminate|].
  inv_bind E r s1 E1. destruct r as [x1 [o|]]; cbn [fst snd] in E.
  - apply ret_Ok in E. destruct E as ([= -> <-] & ->). eapply ltr_step_less, E1.
  - apply IH in E. apply mv_ltr_step in E1. destruct E1 as (_ & _ & L). lia.
Qed.
Lemma rtl_loop_less f i y im m js : forall x s x' s', rtl_loop f op sfk cfk i y im m js x s = Ok ((x', Some true), s') -> (length (live s') < length (live s))%nat.
Proof.
  induction js as [|j js IH]; intros x s x' s' E; cbn [rtl_loop] in E; [apply ret_Ok in E; destruct E; discriminate|].
  inv_bind E r s1 E1. destruct r as [x1 [o|]]; cbn [fst snd] in E.
  - apply ret_Ok in E. destruct E as ([= -> <-] & ->). eapply rtl_step_less, E1.
  - apply IH in E. apply mv_rtl_step in E1. destruct E1 as (_ & _ & L). lia.
Qed.
Definition left_over (s : st) : nat := (pot s + length (live s))%nat.
Definition lesser (s s' : st) : Prop := mv s s' /\ (left_over s' < left_over s)%nat.
Lemma mv_over s s' : stat s -> mv s s' -> (left_over s' <= left_over s)%nat /\ stat s'.
Proof. intros S (P & _ & L). destruct (P S) as (S' & P1 & _). unfold left_over. split; [lia|exact S']. Qed.
Lemma finish_less i k s u s' : In i U -> stat s -> (b_cur (bget (s_bounds s) i) < length (eds i))%nat -> nth_error (s_abl s) k = Some (Some i) ->
  finish_horizontal i k s = Ok (u, s') -> lesser s s'.
Proof.
  intros Iu S L Hk E. split; [eapply mv_finish; [exact Iu|exact E]|]. unfold finish_horizontal in E. inv_bind E b s1 E1. apply bd_Ok in E1. destruct E1 as (-> & ->). inv_bind E u1 s1 E1.
  assert (Q : quiet s s1).
  { destruct (is_some _); [|apply ret_Ok in E1; destruct E1 as (_ & ->); apply R_refl]. inv_bind E1 e s2 E2. apply un_current_edge in E2.
    unfold unchanged in E2. subst s2. eapply qt_add_point_to_ring, E1. }
  pose proof (still_pot eds U _ _ (quiet_still _ _ Q)) as P1. pose proof (still_stat eds _ _ (quiet_still _ _ Q) S) as S1.
  apply quiet_inv in Q. destruct Q as (Q & A1). specialize (Q i). unfold qcore in Q. injection Q as Q1 Q0 Q2 _ _ _ _ _.
  inv_bind E b s2 E2. apply bd_Ok in E2. destruct E2 as (-> & ->). unfold left_over.
  destruct (Nat.ltb_spec (b_next (bget (s_bounds s1) i)) (length (b_edges (bget (s_bounds s1) i)))) as [Ln|Ln].
  - pose proof (next_pay eds U i s1 u s' S1 E) as (_ & _ & Lt & _). rewrite Q0 in Lt. destruct (Lt L) as (_ & P). specialize (P Iu).
    apply sd_to_next_edge in E. destruct E as (E & _). unfold live. rewrite E, A1. lia.
  - pose proof (sl_abl_set _ _ _ _ _ E) as Sl. apply (still_pot eds U) in Sl. apply set_none in E. destruct E as (_ & E). rewrite A1 in E. specialize (E i Hk).
    unfold live in *. rewrite A1 in E. lia.
Qed.
Lemma over_quiet s s' : quiet s s' -> left_over s' = left_over s.
Proof. intros Q. unfold left_over, live. rewrite (still_pot eds U _ _ (quiet_still _ _ Q)). destruct Q as (-> & _). reflexivity. Qed.
Lemma horizontal_less f y k i s k' s' : In i U -> stat s -> (b_cur (bget (s_bounds s) i) < length (eds i))%nat -> nth_error (s_abl s) k = Some (Some i) ->
  b_max (bget (s_bounds s) i) <> Some i -> process_horizontal f op sfk cfk y k s = Ok (k', s') ->
  (left_over s' < left_over s)%nat /\ mv s s'.
Proof.
  intros Iu St L Hk Nself E. unfold process_horizontal in E. inv_bind E i' s1 E1. apply bound_run in E1. destruct E1 as (E1 & ->).
  assert (i' = i) by congruence. subst i'. clear E1. inv_bind E e s1 E1. apply un_current_edge in E1. unfold unchanged in E1. subst s1.
  assert (Nmi : forall m, m = find_bound (b_max (bget (s_bounds s) i)) (s_abl s) -> k <> m).
  { intros m -> ->. destruct (b_max (bget (s_bounds s) i)) as [z|] eqn:Ez.
    - apply (find_bound_spec _ _ z eq_refl) in Hk. congruence.
    - destruct (find_if_spec (opt_is None) (s_abl s)) as (_ & _ & F). apply F in Hk. discriminate. }
  assert (Fin : forall k1 s1 s2 s3 u, mv s s1 -> same_bounds s s1 -> nth_error (s_abl s1) k1 = Some (Some i) -> quiet s1 s2 ->
    finish_horizontal i k1 s2 = Ok (u, s3) -> (left_over s3 < left_over s)%nat /\ mv s s3).
  { intros k1 s1 s2 s3 u M Sb H1 Qt F. destruct (mv_over _ _ St M) as (O1 & S1).
    assert (M2 : mv s1 s2). { split; [apply still_pay, quiet_still, Qt|]. destruct Qt as (Qa & _). unfold live. rewrite Qa. auto. }
    destruct (mv_over _ _ S1 M2) as (O2 & S2). apply quiet_inv in Qt. destruct Qt as (Qt & Qa).
    apply finish_less in F; [|exact Iu|exact S2| |rewrite Qa; exact H1].
    - destruct F as (M3 & O3). split; [lia|]. exact (R_trans _ _ _ M (R_trans _ _ _ M2 M3)).
    - pose proof (Qt i) as Q. rewrite (Sb i) in Q. unfold qcore in Q. injection Q as _ -> _ _ _ _ _ _. exact L. }
  destruct (px (ebot e) <? px (etop e)).
  - unfold process_horizontal_left_to_right in E. inv_bind E i' s1 E1. apply bound_run in E1. destruct E1 as (E1 & ->).
    assert (i' = i) by congruence. subst i'. clear E1. inv_bind E im s1 E1. pose proof (maxima_same _ _ _ _ _ E1). subst s1.
    inv_bind E s0 s1 E0. apply get_Ok in E0. destruct E0 as (-> & ->). inv_bind E b s1 E0. apply bd_Ok in E0. destruct E0 as (-> & ->).
    inv_bind E e' s1 E0. apply un_current_edge in E0. unfold unchanged in E0. subst s1. inv_bind E r s1 E2. destruct r as [[[k1 h1] sh] out].
    pose proof (sb_ltr_loop f op sfk cfk _ _ _ _ _ _ _ _ _ E2) as Sb. pose proof (mv_ltr_loop _ _ _ _ _ _ _ _ _ _ E2) as M. cbv zeta in E2.
    pose proof E2 as L1. apply ltr_loop_kept in E2; [|exact Hk| |].
    2: { unfold range. constructor; [intros I; apply in_seq in I; lia|apply seq_NoDup]. }
    2: { intros ->. apply Nmi. reflexivity. }
    cbv beta iota zeta in E. unfold outcome in E2.
    assert (Rest : out <> Some true -> (left_over s' < left_over s)%nat /\ mv s s').
    { intros No. assert (H1 : nth_error (s_abl s1) k1 = Some (Some i)) by (destruct out as [[|]|]; [congruence|apply E2..]). clear E2.
      assert (K : forall m : prog nat, (b <- bd i ;;
        hp <- gets s_hp ;;
        (if is_some (b_ring b) then
           (e <- current_edge i ;;
            add_hot_pixels_ltr (S (length hp)) (fun q =>
              Ok (negb (py q =? y) || (px q >=? px (etop e)))) i h1 ;; ret tt)
         else ret tt) ;;
        finish_horizontal i k1 ;;
        ret (if (sh : bool) then k else S k)) s1 = Ok (k', s') -> (left_over s' < left_over s)%nat /\ mv s s').
      { intros _ E'. inv_bind E' b s2 E3. apply bd_Ok in E3. destruct E3 as (-> & ->). inv_bind E' hp s2 E3. apply gets_Ok in E3. destruct E3 as (-> & ->). inv_bind E' u s2 E3. inv_bind E' u2 s3 E4. apply ret_Ok in E'. destruct E' as (_ & ->).
        eapply Fin; [exact M|exact Sb|exact H1| |exact E4]. revert E3. clear. intros E.
        destruct (is_some _); [|apply ret_Ok in E; destruct E as (_ & ->); apply R_refl].
        inv_bind E e2 s3 E3. apply un_current_edge in E3. unfold unchanged in E3. subst s3. inv_bind E h2 s3 E3. apply ret_Ok in E. destruct E as (_ & ->).
        eapply qt_add_hp_ltr, E3. }
      destruct out as [[|]|]; [congruence|exact (K (ret O) E)..]. }
    destruct out as [[|]|]; [|apply Rest; discriminate..]. apply ret_Ok in E. destruct E as (_ & ->). pose proof (ltr_loop_less _ _ _ _ _ _ _ _ _ _ L1) as Ls.
    split; [|exact M]. destruct M as (P & _ & _). destruct (P St) as (_ & P1 & _). unfold left_over. lia.
  - unfold process_horizontal_right_to_left in E. inv_bind E i' s1 E1. apply bound_run in E1. destruct E1 as (E1 & ->).
    assert (i' = i) by congruence. subst i'. clear E1. inv_bind E im s1 E1. pose proof (maxima_same _ _ _ _ _ E1). subst s1.
    inv_bind E s0 s1 E0. apply get_Ok in E0. destruct E0 as (-> & ->). inv_bind E b s1 E0. apply bd_Ok in E0. destruct E0 as (-> & ->).
    inv_bind E e' s1 E0. apply un_current_edge in E0. unfold unchanged in E0. subst s1. inv_bind E r s1 E2. destruct r as [[k1 h1] out].
    pose proof (sb_rtl_loop f op sfk cfk _ _ _ _ _ _ _ _ _ E2) as Sb. pose proof (mv_rtl_loop _ _ _ _ _ _ _ _ _ _ E2) as M. cbv zeta in E2.
    pose proof E2 as L1. apply rtl_loop_kept in E2; [|exact Hk| |].
    2: { unfold range. constructor; [intros I; apply in_rev in I; apply in_seq in I; lia|apply NoDup_rev, seq_NoDup]. }
    2: { intros ->. apply Nmi. reflexivity. }
    cbv beta iota zeta in E. unfold outcome in E2.
    assert (Rest : out <> Some true -> (left_over s' < left_over s)%nat /\ mv s s').
    { intros No. assert (H1 : nth_error (s_abl s1) k1 = Some (Some i)) by (destruct out as [[|]|]; [congruence|apply E2..]). clear E2.
      assert (K : forall m : prog nat, (b <- bd i ;;
        (if is_some (b_ring b) then
           (e <- current_edge i ;;
            add_hot_pixels_rtl (fun q =>
              Ok (negb (py q =? y) || (px q <=? px (etop e)))) i h1 ;; ret tt)
         else ret tt) ;;
        finish_horizontal i k1 ;;
        ret (S k)) s1 = Ok (k', s') -> (left_over s' < left_over s)%nat /\ mv s s').
      { intros _ E'. inv_bind E' b s2 E3. apply bd_Ok in E3. destruct E3 as (-> & ->). inv_bind E' u s2 E3. inv_bind E' u2 s3 E4. apply ret_Ok in E'. destruct E' as (_ & ->).
        eapply Fin; [exact M|exact Sb|exact H1| |exact E4]. revert E3. clear. intros E.
        destruct (is_some _); [|apply ret_Ok in E; destruct E as (_ & ->); apply R_refl].
        inv_bind E e2 s3 E3. apply un_current_edge in E3. unfold unchanged in E3. subst s3. inv_bind E h2 s3 E3. apply ret_Ok in E. destruct E as (_ & ->).
        eapply qt_add_hp_rtl, E3. }
      destruct out as [[|]|]; [congruence|exact (K (ret O) E)..]. }
    destruct out as [[|]|]; [|apply Rest; discriminate..]. apply ret_Ok in E. destruct E as (_ & ->). pose proof (rtl_loop_less _ _ _ _ _ _ _ _ _ _ L1) as Ls.
    split; [|exact M]. destruct M as (P & _ & _). destruct (P St) as (_ & P1 & _). unfold left_over. lia.
Qed.
End Move.
