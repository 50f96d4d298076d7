(** * Local maxima and horizontal edges keep the active list right *)
From Coq Require Import ZArith List Bool Lia FMapPositive Permutation.
From Coq Require Import Floats.SpecFloat.
From RecordUpdate Require Import RecordSet.
From Verif Require Import Py Monad Utils Geometry LinearRingM BoundM LocalMinimumM
     StateM PointNodeM RingM SweepM Spec SortP ListP OrderP HoareP SweepFrameP SpecSweep SpecActive WindingP CalmP
     WindingInvP IntersectP InsertP.
Import ListNotations RecordSetNotations.
Open Scope Z_scope.

(** two bounds that end in the same local maximum *)
Lemma partners_frame s s' i m :
  (forall x, qcore (bget (s_bounds s') x) = qcore (bget (s_bounds s) x)) ->
  partners s i m -> partners s' i m.
Proof.
  intros Q (H1 & H2). pose proof (Q i) as Qi. pose proof (Q m) as Qm. unfold qcore in Qi, Qm.
  injection Qi as _ _ _ _ _ I1 I2 _. injection Qm as _ _ _ _ _ M1 M2 _. split; congruence.
Qed.

Section Maxima.
Context (fuel : nat) (op : operation_kind) (sfk cfk : fill_kind).
Notation active_right := (active_right op sfk cfk).

Lemma live_split s A i Ns m C : somes_of Ns = [] ->
  s_abl s = A ++ Some i :: Ns ++ Some m :: C -> live s = somes_of A ++ i :: m :: somes_of C.
Proof.
  intros E H. unfold live. rewrite H, somes_app. cbn. f_equal. f_equal.
  change (somes_of (Ns ++ Some m :: C) = m :: somes_of C). rewrite somes_app, E. reflexivity.
Qed.

Lemma cross_step p s A i Ns n C u s1 : active_right s -> somes_of Ns = [] ->
  s_abl s = A ++ Some i :: Ns ++ Some n :: C ->
  intersect_bounds fuel op sfk cfk p i n s = Ok (u, s1) ->
  exists s2, abl_swap (length A) (S (length A + length Ns)) s1 = Ok (tt, s2) /\
    s_abl s2 = A ++ Some n :: Ns ++ Some i :: C /\ active_right s2 /\
    (forall x, qcore (bget (s_bounds s2) x) = qcore (bget (s_bounds s) x)).
Proof.
  intros (N & L) E Ea H. rewrite (live_split s A i Ns n C E Ea) in N, L.
  apply intersect_bounds_right with (l1 := somes_of A) (l2 := somes_of C) in H; [|assumption..].
  destruct H as (Q & L'). assert (Ea1 : s_abl s1 = A ++ Some i :: Ns ++ Some n :: C) by (destruct Q as (-> & _); exact Ea).
  eexists. split; [apply (abl_swap_at _ _ _ _ _ _ Ea1)|]. split; [reflexivity|].
  split; [|intros x; cbn; apply Q].
  assert (Lv : live (s1 <| s_abl := A ++ Some n :: Ns ++ Some i :: C |>) = somes_of A ++ n :: i :: somes_of C).
  { apply (live_split _ A n Ns i C E). reflexivity. }
  split; rewrite Lv.
  - eapply Permutation_NoDup; [|exact N]. apply Permutation_app_head, perm_swap.
  - apply (list_right_frame op sfk cfk s1); [|exact L']. intros x. repeat split.
Qed.

(** partners that follow each other have the same status *)
Lemma partner_status s A i Ns m C : active_right s -> somes_of Ns = [] ->
  s_abl s = A ++ Some i :: Ns ++ Some m :: C -> partners s i m -> has_ring s i = has_ring s m.
Proof.
  intros (N & L) E Ea (Hk & Hd). rewrite (live_split s A i Ns m C E Ea) in N, L.
  rewrite list_right_okL in L. apply okL_app in L. destruct L as (_ & (_ & _ & Hi) & (_ & _ & Hm) & _).
  cbn [app] in *. rewrite Hi, Hm. unfold sigs. rewrite map_app. cbn [map]. unfold sig. rewrite Hk, Hd.
  symmetry. apply partner_changes.
Qed.
(** removing them *)
Lemma remove_partners s s1 A i Ns m C : active_right s -> somes_of Ns = [] ->
  s_abl s = A ++ Some i :: Ns ++ Some m :: C -> partners s i m ->
  s_abl s1 = A ++ None :: Ns ++ None :: C ->
  (forall x, x <> i -> x <> m -> same_counts s s1 x) ->
  active_right s1.
Proof.
  intros (N & L) E Ea (Hk & Hd) Ea1 F. rewrite (live_split s A i Ns m C E Ea) in N, L.
  assert (Lv : live s1 = somes_of A ++ somes_of C).
  { unfold live. rewrite Ea1, somes_app. cbn. change (somes_of A ++ somes_of (Ns ++ None :: C) = somes_of A ++ somes_of C).
    rewrite somes_app, E. reflexivity. }
  assert (N' := N). apply NoDup_remove in N'. destruct N' as (N1 & Ni).
  assert (N2 := N1). apply NoDup_remove in N2. destruct N2 as (N2 & Nm).
  split; rewrite Lv; [exact N2|].
  rewrite list_right_okL in *. apply okL_app in L. destruct L as (L1 & _ & _ & L2). cbn [app] in L2.
  assert (F' : forall x, In x (somes_of A) \/ In x (somes_of C) -> same_counts s s1 x).
  { intros x Hx. apply F; intros ->.
    - apply Ni. rewrite in_app_iff in *. cbn. tauto.
    - apply Nm. rewrite in_app_iff in *. tauto. }
  assert (W : same_winding (sigs s (somes_of A)) (sigs s1 (somes_of A))).
  { intros k. f_equal. unfold sigs. apply map_ext_in. intros x Hx. apply F'. auto. }
  apply okL_app. split.
  - apply (okL_frame op sfk cfk s s1 _ [] []); [intros k; reflexivity| |exact L1].
    intros x Hx. apply F'. auto.
  - eapply okL_frame; [| |exact L2].
    + intros k. cbn [app]. rewrite W. unfold sigs. rewrite !map_app, !winding_app. cbn. rewrite Hk, Hd.
      destruct (kind_eqb _ k); rewrite ?Z.add_0_r, <- ?Z.add_assoc, ?Z.add_opp_diag_r, ?Z.add_0_r; reflexivity.
    + intros x Hx. apply F'. auto.
Qed.
(** closing the two chains of a maximum *)
Definition only_two (s sa : st) (i m : bid) : Prop :=
  calm s sa /\ forall x, x <> i -> x <> m -> has_ring sa x = has_ring s x.
Lemma close_two p s i m sa ua :
  (if has_ring s i && has_ring s m then add_local_maximum_point fuel p i m else ret tt) s = Ok (ua, sa) ->
  only_two s sa i m.
Proof.
  intros H. unfold only_two. destruct (has_ring s i && has_ring s m) eqn:Er.
  - apply andb_prop in Er. destruct Er as (Ri & Rm). apply add_local_maximum_status in H; [|assumption..].
    destruct H as (Cm & D & _). split; [exact Cm|]. intros x X1 X2. apply D. cbn. intuition congruence.
  - apply ret_Ok in H. destruct H as (_ & ->). split; [apply R_refl|reflexivity].
Qed.
Lemma only_two_sym s sa i m : only_two s sa i m -> only_two s sa m i.
Proof. intros (C & H). split; auto. Qed.
(** then removing both bounds *)
Lemma close_maximum s A i Ns m C sa : active_right s -> somes_of Ns = [] ->
  s_abl s = A ++ Some i :: Ns ++ Some m :: C -> partners s i m ->
  forall k1 k2, (k1 = length A /\ k2 = S (length A + length Ns)) \/ (k2 = length A /\ k1 = S (length A + length Ns)) ->
  only_two s sa i m ->
  exists sb, (abl_set k1 None ;; abl_set k2 None)%M sa = Ok (tt, sb) /\ active_right sb /\
    s_abl sb = A ++ None :: Ns ++ None :: C /\
    (forall x, qcore (bget (s_bounds sb) x) = qcore (bget (s_bounds s) x)).
Proof.
  intros Ar E Ea P k1 k2 Hk (Cm & Kr).
  assert (Ea1 : s_abl sa = A ++ Some i :: Ns ++ Some m :: C) by (destruct Cm as (-> & _); exact Ea).
  assert (Fin : (abl_set k1 None ;; abl_set k2 None)%M sa = Ok (tt, sa <| s_abl := A ++ None :: Ns ++ None :: C |>)).
  { destruct Hk as [(-> & ->)|(-> & ->)].
    - unfold bind. rewrite (abl_set_at sa A (Some i) (Ns ++ Some m :: C) None Ea1).
      replace (S (length A + length Ns)) with (length (A ++ None :: Ns)) by (rewrite app_length; cbn; lia).
      erewrite (abl_set_at _ (A ++ None :: Ns) (Some m) C None); [|cbn; rewrite <- app_assoc; reflexivity].
      rewrite <- app_assoc. destruct sa. reflexivity.
    - unfold bind.
      replace (S (length A + length Ns)) with (length (A ++ Some i :: Ns)) by (rewrite app_length; cbn; lia).
      erewrite (abl_set_at sa (A ++ Some i :: Ns) (Some m) C None); [|cbn; rewrite <- app_assoc; exact Ea1].
      erewrite (abl_set_at _ A (Some i) (Ns ++ None :: C) None); [|cbn; rewrite <- app_assoc; reflexivity].
      destruct sa. reflexivity. }
  eexists. split; [exact Fin|]. split; [|split; [reflexivity|]].
  - eapply remove_partners; [exact Ar|exact E|exact Ea|exact P|reflexivity|].
    intros x X1 X2. specialize (Kr x X1 X2). destruct Cm as (_&_&_&_&Cm). specialize (Cm x).
    unfold same_counts, has_ring, core, sig in *. cbn.
    injection Cm as _ _ _ _ _ C1 C2 C3 C4 _. repeat split; congruence.
  - intros x. cbn. pose proof (calm_quiet _ _ Cm) as (_&_&_&_&Q). apply Q.
Qed.

(** ** [do_maxima] *)
Definition walk_go (max_idx : nat) : list nat -> nat -> bool -> prog (nat * bool) :=
  (fix go (js : list nat) (k : nat) (skipped : bool) : prog (nat * bool) :=
      match js with
      | [] => ret (k, skipped)
      | j :: js' =>
          if (j =? max_idx)%nat then ret (k, skipped)
          else
            (o <- abl_get j ;;
             match o with
             | None => go js' k skipped
             | Some n =>
                 (i <- abl_bound k ;;
                  e <- current_edge i ;;
                  intersect_bounds fuel op sfk cfk (etop e) i n ;;
                  abl_swap k j ;;
                  go js' j true)
             end)%M
      end).
Lemma walk_spec max_idx : forall len A i Ns rest s sk k' sk' s',
  active_right s -> somes_of Ns = [] -> s_abl s = A ++ Some i :: Ns ++ rest ->
  (S (length A + length Ns) <= max_idx < S (length A + length Ns) + len)%nat -> length rest = len ->
  walk_go max_idx (seq (S (length A + length Ns)) len) (length A) sk s = Ok ((k', sk'), s') ->
  exists A' Ns' o C D, rest = D ++ o :: C /\ length D = (max_idx - S (length A + length Ns))%nat /\
    s_abl s' = A' ++ Some i :: Ns' ++ o :: C /\ somes_of Ns' = [] /\ length A' = k' /\
    S (length A' + length Ns') = max_idx /\ active_right s' /\ somes_of A' = somes_of A ++ somes_of D /\
    (forall x, qcore (bget (s_bounds s') x) = qcore (bget (s_bounds s) x)).
Proof.
  induction len as [|len IH]; intros A i Ns rest s sk k' sk' s' Ar E Ea Hm Lr H; [lia|].
  destruct rest as [|o rest]; [discriminate|]. cbn [seq walk_go] in H.
  destruct (Nat.eqb_spec (S (length A + length Ns)) max_idx) as [Em|Em].
  - apply ret_Ok in H. destruct H as (H & ->). injection H as -> ->.
    exists A, Ns, o, rest, []. rewrite Em, Nat.sub_diag. cbn [somes_of flat_map]. rewrite app_nil_r. auto 12.
  - inv_bind H o' s1 E1. unfold abl_get in E1.
    assert (Ea' : s_abl s = (A ++ Some i :: Ns) ++ o :: rest) by (rewrite Ea, <- app_assoc; reflexivity).
    assert (Lj : S (length A + length Ns) = length (A ++ Some i :: Ns)) by (rewrite app_length; cbn; lia).
    rewrite Lj in E1. fold (abl_get (length (A ++ Some i :: Ns))) in E1.
    rewrite (abl_get_at _ _ _ _ Ea') in E1. injection E1 as <- <-. clear Lj Ea'. cbn in Lr.
    destruct o as [n|].
    + inv_bind H i' s1 E1. unfold abl_bound, bind in E1. rewrite (abl_get_at _ _ _ _ Ea) in E1. injection E1 as <- <-.
      inv_bind H e s1 E1. apply un_current_edge in E1. unfold unchanged in E1. subst s1.
      inv_bind H u1 s1 E1. destruct (cross_step _ _ _ _ _ _ _ _ _ Ar E Ea E1) as (s2 & Sw & Ea2 & Ar2 & Q).
      inv_bind H u2 s3 E2. rewrite Sw in E2. injection E2 as _ <-.
      assert (LA : S (length A + length Ns) = length (A ++ Some n :: Ns)) by (rewrite app_length; cbn; lia).
      rewrite LA in H. replace (S (length (A ++ Some n :: Ns))) with (S (length (A ++ Some n :: Ns) + @length (option bid) [])) in H
        by (cbn; lia).
      apply IH with (i := i) (rest := rest) in H; auto.
      * destruct H as (A' & Ns' & o & C & D & -> & HD & H1 & H2 & H3 & H4 & H5 & H7 & H6).
        exists A', Ns', o, C, (Some n :: D). split; [reflexivity|]. split; [cbn in *; lia|].
        repeat (split; [assumption|]).
        split; [rewrite H7, somes_app; cbn; change (flat_map _ Ns) with (somes_of Ns); rewrite E, <- app_assoc; reflexivity|]. intros x. rewrite H6. apply Q.
      * rewrite Ea2, <- app_assoc. reflexivity.
      * cbn. lia.
    + replace (S (S (length A + length Ns))) with (S (length A + length (Ns ++ [None]))) in H by (rewrite app_length; cbn; lia).
      apply IH with (i := i) (rest := rest) in H; auto.
      * destruct H as (A' & Ns' & o & C & D & -> & HD & H1 & H2 & H3 & H4 & H5 & H7 & H6).
        exists A', Ns', o, C, (None :: D). split; [reflexivity|]. split; [rewrite app_length in HD; cbn in *; lia|].
        repeat (split; [assumption|]). assumption.
      * rewrite somes_app, E. reflexivity.
      * rewrite Ea, <- app_assoc. reflexivity.
      * rewrite app_length. cbn. lia.
Qed.

Theorem do_maxima_right s k m i j k' s' : active_right s ->
  nth_error (s_abl s) k = Some (Some i) -> nth_error (s_abl s) m = Some (Some j) -> (k < m)%nat ->
  partners s i j ->
  do_maxima fuel op sfk cfk k m s = Ok (k', s') ->
  active_right s' /\
  (exists l1 l2 l3, live s = l1 ++ i :: l2 ++ j :: l3 /\ live s' = l1 ++ l2 ++ l3) /\
  (forall x, qcore (bget (s_bounds s') x) = qcore (bget (s_bounds s) x)).
Proof.
  intros Ar Hi Hj Hkm P H. unfold do_maxima in H. inv_bind H r s1 E1. unfold maxima_walk in E1.
  inv_bind E1 n s0 E0. apply gets_Ok in E0. destruct E0 as (-> & ->).
  change ((walk_go m (range (S k) (length (s_abl s))) k false) s = Ok (r, s1)) in E1.
  destruct r as [k1 sk]. apply nth_error_split in Hi. destruct Hi as (A & B & Ea & LA).
  assert (Hm : (m < length (s_abl s))%nat) by (apply nth_error_Some; congruence).
  unfold range in E1. rewrite <- LA in E1. replace (S (length A)) with (S (length A + @length (option bid) [])) in E1 by (cbn; lia).
  apply walk_spec with (i := i) (rest := B) in E1; auto.
  2: { rewrite Ea, app_length in *. cbn in *. lia. }
  2: { rewrite Ea, app_length in *. cbn in *. lia. }
  destruct E1 as (A' & Ns' & o & C & D & EB & LD & Ea1 & EN & Lk1 & Lm & Ar1 & SA & Q).
  assert (o = Some j).
  { rewrite Ea, EB in Hj. replace (A ++ Some i :: D ++ o :: C) with ((A ++ Some i :: D) ++ o :: C) in Hj by (rewrite <- app_assoc; reflexivity).
    replace m with (length (A ++ Some i :: D)) in Hj by (rewrite app_length; cbn in *; lia).
    rewrite nth_error_middle in Hj. congruence. }
  subst o. cbv beta iota zeta in H.
  inv_bind H i' sa E2. unfold abl_bound, bind in E2. rewrite <- Lk1, (abl_get_at _ _ _ _ Ea1) in E2. injection E2 as <- <-.
  inv_bind H b sa E2. apply bd_Ok in E2. destruct E2 as (-> & ->).
  inv_bind H j' sa E2. unfold abl_bound, bind in E2.
  assert (Ea1' : s_abl s1 = (A' ++ Some i :: Ns') ++ Some j :: C) by (rewrite Ea1, <- app_assoc; reflexivity).
  replace m with (length (A' ++ Some i :: Ns')) in E2 by (rewrite app_length; cbn in *; lia).
  rewrite (abl_get_at _ _ _ _ Ea1') in E2. injection E2 as <- <-.
  inv_bind H c sa E2. apply bd_Ok in E2. destruct E2 as (-> & ->).
  inv_bind H u1 s2 E3.
  assert (P1 : partners s1 i j) by (eapply partners_frame; eassumption).
  change (is_some (b_ring (bget (s_bounds s1) i))) with (has_ring s1 i) in E3.
  change (is_some (b_ring (bget (s_bounds s1) j))) with (has_ring s1 j) in E3.
  pose proof (partner_status _ _ _ _ _ _ Ar1 EN Ea1 P1) as Rs.
  assert (E3' : exists p, (if has_ring s1 i && has_ring s1 j then add_local_maximum_point fuel p i j else ret tt) s1 = Ok (u1, s2)).
  { rewrite Rs in *. destruct (has_ring s1 j); cbn [andb orb] in E3 |- *.
    - inv_bind E3 e sa E4. apply un_current_edge in E4. unfold unchanged in E4. subst sa. eauto.
    - exists (Pt 0 0). exact E3. }
  destruct E3' as (p & E3').
  destruct (close_maximum _ _ _ _ _ _ _ Ar1 EN Ea1 P1 (length A') m (or_introl (conj eq_refl (eq_sym Lm))) (close_two _ _ _ _ _ _ E3')) as (sb & Eb & Arb & Eab & Qb).
  unfold bind in Eb. rewrite <- Lk1 in H. inv_bind H u2 s3 E4. rewrite E4 in Eb.
  inv_bind H u3 s4 E5. rewrite E5 in Eb. injection Eb as _ ->. apply ret_Ok in H. destruct H as (_ & ->).
  split; [exact Arb|]. split; [|intros x; rewrite Qb; apply Q].
  exists (somes_of A), (somes_of D), (somes_of C). unfold live. rewrite Ea, Eab, EB.
  split; rewrite !somes_app; cbn [somes_of flat_map app].
  - change (flat_map _ ?l) with (somes_of l). rewrite somes_app. reflexivity.
  - change (flat_map _ (Ns' ++ None :: C)) with (somes_of (Ns' ++ None :: C)).
    rewrite somes_app, EN, SA, <- app_assoc. reflexivity.
Qed.

(** ** Horizontal edges *)
Lemma find_bound_spec o l : forall m, o = Some m -> forall n, nth_error l (find_bound o l) = Some (Some n) -> n = m.
Proof.
  intros m -> n H. destruct (find_if_spec (opt_is (Some m)) l) as (_ & _ & F). apply F in H.
  unfold opt_is in H. apply Pos.eqb_eq in H. auto.
Qed.
Lemma calm_quiet_step s s' : calm_ring s s' ->
  s_abl s' = s_abl s /\ (forall x, qcore (bget (s_bounds s') x) = qcore (bget (s_bounds s) x)) /\
  (forall x, has_ring s' x = has_ring s x).
Proof. intros (C & R). split; [apply C|]. split; [apply (calm_quiet _ _ C)|exact R]. Qed.

(** the bound that [i] names as its partner *)
Definition mates (s : st) (i n : bid) : Prop := partners s i n /\ b_max (bget (s_bounds s) i) = Some n.
Lemma mates_frame s s' i m :
  (forall x, qcore (bget (s_bounds s') x) = qcore (bget (s_bounds s) x)) -> mates s i m -> mates s' i m.
Proof.
  intros Q (H1 & H2). split; [eapply partners_frame; eassumption|]. pose proof (Q i) as Qi. unfold qcore in Qi.
  injection Qi as _ _ _ _ _ _ _ I1. congruence.
Qed.
Definition partner_ahead (s : st) (is_max : bool) (max_idx start : nat) (i : bid) (rest : list (option bid)) : Prop :=
  forall n, is_max = true -> (start <= max_idx)%nat ->
    nth_error rest (max_idx - start) = Some (Some n) -> mates s i n.

Lemma ltr_loop_right y is_max max_idx : forall rest A i Ns s h sh r s',
  active_right s -> somes_of Ns = [] -> s_abl s = A ++ Some i :: Ns ++ rest ->
  partner_ahead s is_max max_idx (S (length A + length Ns)) i rest ->
  ltr_loop fuel op sfk cfk i y is_max max_idx (seq (S (length A + length Ns)) (length rest)) (length A, h, sh) s
    = Ok (r, s') ->
  active_right s' /\
  (forall x, qcore (bget (s_bounds s') x) = qcore (bget (s_bounds s) x)) /\
  match snd r with
  | Some true => exists l2 n l3, live s = somes_of A ++ i :: l2 ++ n :: l3 /\ mates s i n /\
                   live s' = somes_of A ++ l2 ++ l3
  | _ => exists A' B', s_abl s' = A' ++ Some i :: B' /\ length A' = fst (fst (fst r)) /\
           exists l2 l3, live s = somes_of A ++ i :: l2 ++ l3 /\ somes_of A' = somes_of A ++ l2 /\ somes_of B' = l3
  end.
Proof.
  induction rest as [|o rest IH]; intros A i Ns s h sh r s' Ar E Ea P H; cbn [length seq ltr_loop] in H.
  { apply ret_Ok in H. destruct H as (-> & ->). cbn. split; [exact Ar|]. split; [reflexivity|].
    exists A, (Ns ++ []). split; [exact Ea|]. split; [reflexivity|]. exists [], [].
    unfold live. rewrite Ea, !somes_app. cbn. change (flat_map _ ?l) with (somes_of l). rewrite somes_app, E, !app_nil_r. auto. }
  inv_bind H q s1 E1. unfold ltr_step in E1.
  assert (Ea' : s_abl s = (A ++ Some i :: Ns) ++ o :: rest) by (rewrite Ea, <- app_assoc; reflexivity).
  assert (Lj : S (length A + length Ns) = length (A ++ Some i :: Ns)) by (rewrite app_length; cbn; lia).
  inv_bind E1 o' s0 E0. rewrite Lj, (abl_get_at _ _ _ _ Ea') in E0. injection E0 as <- <-. clear Lj Ea'.
  destruct o as [n|].
  - inv_bind E1 hp s0 E0. apply gets_Ok in E0. destruct E0 as (-> & ->).
    inv_bind E1 nb s0 E0. apply bd_Ok in E0. destruct E0 as (-> & ->).
    inv_bind E1 e s0 E0. apply un_current_edge in E0. unfold unchanged in E0. subst s0.
    inv_bind E1 h' s0 E0. apply cr_add_hp_ltr in E0.
    pose proof (calm_ring_active op sfk cfk _ _ E0 Ar) as Ar0. apply calm_quiet_step in E0. destruct E0 as (Ea0 & Q0 & R0).
    inv_bind E1 exf s2 E2. apply lift_Ok in E2. destruct E2 as (_ & ->).
    inv_bind E1 gtf s2 E2. apply lift_Ok in E2. destruct E2 as (_ & ->).
    assert (Lv : live s = somes_of A ++ i :: [n] ++ somes_of rest)
      by (unfold live; rewrite Ea, somes_app; cbn; change (flat_map _ ?l) with (somes_of l); rewrite somes_app, E; reflexivity).
    assert (Stop : forall s2 (v : nat * nat * bool), fst (fst v) = length A -> active_right s2 ->
       s_abl s2 = s_abl s -> (forall x, qcore (bget (s_bounds s2) x) = qcore (bget (s_bounds s) x)) ->
       active_right s2 /\ (forall x, qcore (bget (s_bounds s2) x) = qcore (bget (s_bounds s) x)) /\
       exists A' B', s_abl s2 = A' ++ Some i :: B' /\ length A' = fst (fst v) /\
           exists l2 l3, live s = somes_of A ++ i :: l2 ++ l3 /\ somes_of A' = somes_of A ++ l2 /\ somes_of B' = l3).
    { intros s2 v Hv Ar2 Ea2 Q2. split; [exact Ar2|]. split; [exact Q2|]. exists A, (Ns ++ Some n :: rest).
      split; [rewrite Ea2; exact Ea|]. split; [auto|]. exists [], (n :: somes_of rest).
      split; [exact Lv|]. split; [rewrite app_nil_r; reflexivity|].
      rewrite somes_app, E. reflexivity. }
    destruct gtf.
    { apply ret_Ok in E1. destruct E1 as (-> & ->). cbn [snd fst] in H. apply ret_Ok in H. destruct H as (-> & ->).
      cbn [snd fst]. apply (Stop _ (length A, h', sh)); auto. }
    inv_bind E1 rx s2 E2. apply lift_Ok in E2. destruct E2 as (_ & ->).
    inv_bind E1 b s2 E2. apply bd_Ok in E2. destruct E2 as (-> & ->).
    inv_bind E1 stp s2 E2.
    assert (s2 = s0).
    { match type of E2 with ?m s0 = _ => assert (Pm : pres unchanged m) by pres_auto end. apply (Pm _ _ _ E2). }
    subst s2. clear E2.
    destruct stp.
    { apply ret_Ok in E1. destruct E1 as (-> & ->). cbn [snd fst] in H. apply ret_Ok in H. destruct H as (-> & ->).
      cbn [snd fst]. apply (Stop _ (length A, h', sh)); auto. }
    inv_bind E1 u1 s2 E2.
    assert (C2 : calm_ring s0 s2).
    { match type of E2 with ?m s0 = _ => assert (Pm : pres calm_ring m) by cr_auto end. apply (Pm _ _ _ E2). }
    clear E2. pose proof (calm_ring_active op sfk cfk _ _ C2 Ar0) as Ar2. apply calm_quiet_step in C2. destruct C2 as (Ea2 & Q2 & R2).
    assert (Ea2' : s_abl s2 = A ++ Some i :: Ns ++ Some n :: rest) by (rewrite Ea2, Ea0; exact Ea).
    assert (Q2' : forall x, qcore (bget (s_bounds s2) x) = qcore (bget (s_bounds s) x)) by (intros x; rewrite Q2; apply Q0).
    destruct (is_max && (S (length A + length Ns) =? max_idx)%nat) eqn:Em.
    + apply andb_prop in Em. destruct Em as (Im & Em). apply Nat.eqb_eq in Em.
      assert (Pn : mates s i n).
      { apply P; [exact Im|lia|]. rewrite <- Em, Nat.sub_diag. reflexivity. }
      assert (Pn2 : partners s2 i n) by (eapply partners_frame; [exact Q2'|apply Pn]).
      inv_bind E1 b2 s3 E3. apply bd_Ok in E3. destruct E3 as (-> & ->).
      inv_bind E1 nb2 s3 E3. apply bd_Ok in E3. destruct E3 as (-> & ->).
      inv_bind E1 u2 s3 E3.
      destruct (close_maximum _ _ _ _ _ _ _ Ar2 E Ea2' Pn2 max_idx (length A)
         (or_intror (conj eq_refl (eq_sym Em))) (close_two _ _ _ _ _ _ E3)) as (sb & Eb & Arb & Eab & Qb).
      unfold bind in Eb. inv_bind E1 u3 s4 E4. rewrite E4 in Eb. inv_bind E1 u4 s5 E5. rewrite E5 in Eb.
      injection Eb as _ ->. apply ret_Ok in E1. destruct E1 as (-> & ->). cbn [snd] in H. apply ret_Ok in H.
      destruct H as (-> & ->). cbn [snd]. split; [exact Arb|]. split; [intros x; rewrite Qb; apply Q2'|].
      exists [], n, (somes_of rest). split; [exact Lv|]. split; [exact Pn|].
      unfold live. rewrite Eab, somes_app. cbn. change (flat_map _ ?l) with (somes_of l). rewrite somes_app, E. reflexivity.
    + inv_bind E1 u2 s3 E3. destruct (cross_step _ _ _ _ _ _ _ _ _ Ar2 E Ea2' E3) as (s4 & Sw & Ea4 & Ar4 & Q4).
      inv_bind E1 u3 s5 E5. rewrite Sw in E5. injection E5 as _ <-. apply ret_Ok in E1. destruct E1 as (-> & ->).
      cbn [snd fst] in H.
      assert (LA : S (length A + length Ns) = length (A ++ Some n :: Ns)) by (rewrite app_length; cbn; lia).
      rewrite LA in H. replace (S (length (A ++ Some n :: Ns))) with (S (length (A ++ Some n :: Ns) + @length (option bid) [])) in H
        by (cbn; lia).
      assert (Q4' : forall x, qcore (bget (s_bounds s4) x) = qcore (bget (s_bounds s) x)) by (intros x; rewrite Q4; apply Q2').
      assert (SA : somes_of (A ++ Some n :: Ns) = somes_of A ++ [n]).
      { rewrite somes_app. cbn. change (flat_map _ ?l) with (somes_of l). rewrite E. reflexivity. }
      assert (L4 : live s4 = (somes_of A ++ [n]) ++ i :: somes_of rest).
      { unfold live. rewrite Ea4, somes_app. cbn. change (flat_map _ ?l) with (somes_of l). rewrite somes_app, E, <- app_assoc. reflexivity. }
      apply IH with (i := i) in H; auto.
      * destruct H as (Ar' & Q' & H). split; [exact Ar'|]. split; [intros x; rewrite Q'; apply Q4'|].
        rewrite SA, L4 in H. destruct (snd r) as [[]|].
        -- destruct H as (l2 & n' & l3 & H1 & H2 & H3). exists (n :: l2), n', l3.
           apply app_inv_head in H1. injection H1 as H1. rewrite Lv, H1, H3, <- app_assoc. split; [reflexivity|].
           split; [|reflexivity]. eapply mates_frame; [|exact H2]. intros x. symmetry. apply Q4'.
        -- destruct H as (A' & B' & H1 & H2 & l2 & l3 & H3 & H4 & H5). exists A', B'. split; [exact H1|]. split; [exact H2|].
           exists (n :: l2), l3. apply app_inv_head in H3. injection H3 as H3. rewrite Lv, H3, H4, <- app_assoc. auto.
        -- destruct H as (A' & B' & H1 & H2 & l2 & l3 & H3 & H4 & H5). exists A', B'. split; [exact H1|]. split; [exact H2|].
           exists (n :: l2), l3. apply app_inv_head in H3. injection H3 as H3. rewrite Lv, H3, H4, <- app_assoc. auto.
      * rewrite Ea4, <- app_assoc. reflexivity.
      * intros n' Im Hs Hn. eapply mates_frame; [exact Q4'|]. apply P; auto.
        -- rewrite <- LA in Hs. lia.
        -- rewrite app_length in *. cbn [length] in *. destruct (max_idx - S (length A + length Ns))%nat as [|d] eqn:Ed; [lia|].
           cbn. rewrite <- Hn. f_equal. lia.
  - apply ret_Ok in E1. destruct E1 as (-> & ->). cbn [snd fst] in H.
    replace (S (S (length A + length Ns))) with (S (length A + length (Ns ++ [None]))) in H by (rewrite app_length; cbn; lia).
    apply IH with (i := i) in H; auto.
    + rewrite somes_app, E. reflexivity.
    + rewrite Ea, <- app_assoc. reflexivity.
    + intros n' Im Hs Hn. rewrite app_length in *. cbn [length] in *. apply P; auto; [lia|].
      destruct (max_idx - S (length A + length Ns))%nat as [|d] eqn:Ed; [lia|]. cbn. rewrite <- Hn. f_equal. lia.
Qed.

Lemma partners_sym s i m : partners s i m -> partners s m i.
Proof. intros (H1 & H2). split; [congruence|]. rewrite H2. lia. Qed.
Lemma rtl_loop_right y is_max max_idx : forall pre Ns i C s h r s',
  active_right s -> somes_of Ns = [] -> s_abl s = pre ++ Ns ++ Some i :: C ->
  (forall n, is_max = true -> nth_error pre max_idx = Some (Some n) -> mates s i n) ->
  rtl_loop fuel op sfk cfk i y is_max max_idx (rev (seq 0 (length pre))) ((length pre + length Ns)%nat, h) s
    = Ok (r, s') ->
  active_right s' /\
  (forall x, qcore (bget (s_bounds s') x) = qcore (bget (s_bounds s) x)) /\
  match snd r with
  | Some true => exists l1 n l2, live s = l1 ++ n :: l2 ++ i :: somes_of C /\ mates s i n /\
                   live s' = l1 ++ l2 ++ somes_of C
  | _ => exists A' B', s_abl s' = A' ++ Some i :: B' /\ length A' = fst (fst r) /\
           exists l1 l2, live s = l1 ++ l2 ++ i :: somes_of C /\ somes_of A' = l1 /\ somes_of B' = l2 ++ somes_of C
  end.
Proof.
  induction pre as [|o pre IH] using rev_ind; intros Ns i C s h r s' Ar E Ea P H.
  { cbn [length seq rev rtl_loop] in H. apply ret_Ok in H. destruct H as (-> & ->). cbn [snd fst]. split; [exact Ar|].
    split; [reflexivity|]. exists Ns, C. split; [exact Ea|]. split; [reflexivity|]. exists [], [].
    unfold live. rewrite Ea. cbn [app]. rewrite somes_app, E. auto. }
  rewrite app_length, seq_app, rev_app_distr in H. cbn [length seq rev app rtl_loop] in H.
  replace (length pre + 1 + length Ns)%nat with (S (length pre + length Ns)) in H by lia.
  rewrite Nat.add_0_l in H.
  assert (Ea' : s_abl s = pre ++ o :: Ns ++ Some i :: C) by (rewrite Ea, <- app_assoc; reflexivity). clear Ea.
  inv_bind H q s1 E1. unfold rtl_step in E1.
  inv_bind E1 o' s0 E0. rewrite (abl_get_at _ _ _ _ Ea') in E0. injection E0 as <- <-.
  destruct o as [n|].
  - inv_bind E1 nb s0 E0. apply bd_Ok in E0. destruct E0 as (-> & ->).
    inv_bind E1 e s0 E0. apply un_current_edge in E0. unfold unchanged in E0. subst s0.
    inv_bind E1 h' s0 E0. apply cr_add_hp_rtl in E0.
    pose proof (calm_ring_active op sfk cfk _ _ E0 Ar) as Ar0. apply calm_quiet_step in E0. destruct E0 as (Ea0 & Q0 & R0).
    inv_bind E1 exf s2 E2. apply lift_Ok in E2. destruct E2 as (_ & ->).
    inv_bind E1 ltf s2 E2. apply lift_Ok in E2. destruct E2 as (_ & ->).
    assert (Lv : live s = somes_of pre ++ n :: i :: somes_of C) by (apply (live_split s pre n Ns i C E Ea')).
    assert (Stop : forall s2 (v : nat * nat), fst v = S (length pre + length Ns) -> active_right s2 ->
       s_abl s2 = s_abl s -> (forall x, qcore (bget (s_bounds s2) x) = qcore (bget (s_bounds s) x)) ->
       active_right s2 /\ (forall x, qcore (bget (s_bounds s2) x) = qcore (bget (s_bounds s) x)) /\
       exists A' B', s_abl s2 = A' ++ Some i :: B' /\ length A' = fst v /\
           exists l1 l2, live s = l1 ++ l2 ++ i :: somes_of C /\ somes_of A' = l1 /\ somes_of B' = l2 ++ somes_of C).
    { intros s2 v Hv Ar2 Ea2 Q2. split; [exact Ar2|]. split; [exact Q2|]. exists (pre ++ Some n :: Ns), C.
      split; [rewrite Ea2, Ea', <- app_assoc; reflexivity|]. split; [rewrite Hv, app_length; cbn; lia|].
      exists (somes_of pre ++ [n]), []. split; [rewrite Lv, <- app_assoc; reflexivity|].
      split; [rewrite somes_app; cbn; change (flat_map _ ?l) with (somes_of l); rewrite E; reflexivity|reflexivity]. }
    destruct ltf.
    { apply ret_Ok in E1. destruct E1 as (-> & ->). cbn [snd fst] in H. apply ret_Ok in H. destruct H as (-> & ->).
      cbn [snd fst]. apply (Stop _ (S (length pre + length Ns), h')); auto. }
    inv_bind E1 rx s2 E2. apply lift_Ok in E2. destruct E2 as (_ & ->).
    inv_bind E1 b s2 E2. apply bd_Ok in E2. destruct E2 as (-> & ->).
    inv_bind E1 stp s2 E2.
    assert (s2 = s0).
    { match type of E2 with ?m s0 = _ => assert (Pm : pres unchanged m) by pres_auto end. apply (Pm _ _ _ E2). }
    subst s2. clear E2.
    destruct stp.
    { apply ret_Ok in E1. destruct E1 as (-> & ->). cbn [snd fst] in H. apply ret_Ok in H. destruct H as (-> & ->).
      cbn [snd fst]. apply (Stop _ (S (length pre + length Ns), h')); auto. }
    inv_bind E1 u1 s2 E2.
    assert (C2 : calm_ring s0 s2).
    { match type of E2 with ?m s0 = _ => assert (Pm : pres calm_ring m) by cr_auto end. apply (Pm _ _ _ E2). }
    clear E2. pose proof (calm_ring_active op sfk cfk _ _ C2 Ar0) as Ar2. apply calm_quiet_step in C2. destruct C2 as (Ea2 & Q2 & R2).
    assert (Ea2' : s_abl s2 = pre ++ Some n :: Ns ++ Some i :: C) by (rewrite Ea2, Ea0; exact Ea').
    assert (Q2' : forall x, qcore (bget (s_bounds s2) x) = qcore (bget (s_bounds s) x)) by (intros x; rewrite Q2; apply Q0).
    destruct (is_max && (length pre =? max_idx)%nat) eqn:Em.
    + apply andb_prop in Em. destruct Em as (Im & Em). apply Nat.eqb_eq in Em.
      assert (Pn : mates s i n).
      { apply P; [exact Im|]. rewrite <- Em. apply nth_error_middle. }
      assert (Pn2 : partners s2 n i) by (apply partners_sym; eapply partners_frame; [exact Q2'|apply Pn]).
      inv_bind E1 b2 s3 E3. apply bd_Ok in E3. destruct E3 as (-> & ->).
      inv_bind E1 nb2 s3 E3. apply bd_Ok in E3. destruct E3 as (-> & ->).
      inv_bind E1 u2 s3 E3.
      destruct (close_maximum _ _ _ _ _ _ _ Ar2 E Ea2' Pn2 (length pre) (S (length pre + length Ns))
         (or_introl (conj eq_refl eq_refl)) (only_two_sym _ _ _ _ (close_two _ _ _ _ _ _ E3))) as (sb & Eb & Arb & Eab & Qb).
      unfold bind in Eb. inv_bind E1 u3 s4 E4. rewrite E4 in Eb. inv_bind E1 u4 s5 E5. rewrite E5 in Eb.
      injection Eb as _ ->. apply ret_Ok in E1. destruct E1 as (-> & ->). cbn [snd] in H. apply ret_Ok in H.
      destruct H as (-> & ->). cbn [snd]. split; [exact Arb|]. split; [intros x; rewrite Qb; apply Q2'|].
      exists (somes_of pre), n, []. split; [exact Lv|]. split; [exact Pn|].
      unfold live. rewrite Eab, somes_app. cbn. change (flat_map _ ?l) with (somes_of l). rewrite somes_app, E. reflexivity.
    + inv_bind E1 u2 s3 E3. destruct (cross_step _ _ _ _ _ _ _ _ _ Ar2 E Ea2' E3) as (s4 & Sw & Ea4 & Ar4 & Q4).
      inv_bind E1 u3 s5 E5. rewrite Sw in E5. injection E5 as _ <-. apply ret_Ok in E1. destruct E1 as (-> & ->).
      cbn [snd fst] in H.
      assert (Q4' : forall x, qcore (bget (s_bounds s4) x) = qcore (bget (s_bounds s) x)) by (intros x; rewrite Q4; apply Q2').
      assert (SC : somes_of (Ns ++ Some n :: C) = n :: somes_of C) by (rewrite somes_app, E; reflexivity).
      assert (L4 : live s4 = somes_of pre ++ i :: n :: somes_of C).
      { apply (live_split _ _ _ _ _ _ E Ea4). }
      replace (length pre) with (length pre + @length (option bid) [])%nat in H at 2 by (cbn; lia).
      apply IH with (i := i) (C := Ns ++ Some n :: C) in H; auto.
      * destruct H as (Ar' & Q' & H). split; [exact Ar'|]. split; [intros x; rewrite Q'; apply Q4'|].
        rewrite SC, L4 in H. destruct (snd r) as [[]|].
        -- destruct H as (l1 & n' & l2 & H1 & H2 & H3). exists l1, n', (l2 ++ [n]).
           assert (Hp : somes_of pre = l1 ++ n' :: l2).
           { replace (l1 ++ n' :: l2 ++ i :: n :: somes_of C) with ((l1 ++ n' :: l2) ++ i :: n :: somes_of C) in H1
               by (rewrite <- app_assoc; reflexivity).
             apply app_inv_tail in H1. exact H1. }
           rewrite Lv, Hp, H3. split; [rewrite <- ?app_assoc; cbn; rewrite <- ?app_assoc; reflexivity|].
           split; [|rewrite <- ?app_assoc; reflexivity]. eapply mates_frame; [|exact H2]. intros x. symmetry. apply Q4'.
        -- destruct H as (A' & B' & H1 & H2 & l1 & l2 & H3 & H4 & H5). exists A', B'. split; [exact H1|]. split; [exact H2|].
           exists l1, (l2 ++ [n]). assert (Hp : somes_of pre = l1 ++ l2) by (rewrite app_assoc in H3; apply app_inv_tail in H3; exact H3).
           rewrite Lv, Hp, H4, H5, <- !app_assoc. auto.
        -- destruct H as (A' & B' & H1 & H2 & l1 & l2 & H3 & H4 & H5). exists A', B'. split; [exact H1|]. split; [exact H2|].
           exists l1, (l2 ++ [n]). assert (Hp : somes_of pre = l1 ++ l2) by (rewrite app_assoc in H3; apply app_inv_tail in H3; exact H3).
           rewrite Lv, Hp, H4, H5, <- !app_assoc. auto.
      * intros n' Im Hn. eapply mates_frame; [exact Q4'|]. apply P; auto.
        rewrite nth_error_app1; [exact Hn|]. apply nth_error_Some. congruence.
  - apply ret_Ok in E1. destruct E1 as (-> & ->). cbn [snd fst] in H.
    replace (S (length pre + length Ns)) with (length pre + length (None :: Ns))%nat in H by (cbn; lia).
    apply IH with (i := i) (C := C) in H; auto.
    intros n' Im Hn. apply P; auto. rewrite nth_error_app1; [exact Hn|]. apply nth_error_Some. congruence.
Qed.

(** *** A whole horizontal edge *)
Lemma finish_horizontal_right i k s s' u A B : active_right s -> s_abl s = A ++ Some i :: B -> length A = k ->
  finish_horizontal i k s = Ok (u, s') ->
  active_right s' /\ s_abl s' = s_abl s \/
  (b_next (bget (s_bounds s) i) >= length (b_edges (bget (s_bounds s) i)))%nat /\
  live s' = somes_of A ++ somes_of B.
Proof.
  intros Ar Ea Lk H. unfold finish_horizontal in H. inv_bind H b s0 E0. apply bd_Ok in E0. destruct E0 as (-> & ->).
  inv_bind H u1 s1 E1.
  assert (C1 : calm_ring s s1).
  { match type of E1 with ?m s = _ => assert (P : pres calm_ring m) by cr_auto end. apply (P _ _ _ E1). }
  pose proof (calm_ring_active op sfk cfk _ _ C1 Ar) as Ar1. apply calm_quiet_step in C1. destruct C1 as (Ea1 & Q1 & _).
  inv_bind H b s2 E2. apply bd_Ok in E2. destruct E2 as (-> & ->).
  destruct (Nat.ltb_spec (b_next (bget (s_bounds s1) i)) (length (b_edges (bget (s_bounds s1) i)))) as [L|L].
  - left. pose proof (sd_to_next_edge _ _ _ _ H) as Sd. split; [eapply steady_active; eassumption|].
    destruct Sd as (-> & _). exact Ea1.
  - right. split.
    + pose proof (Q1 i) as Q. unfold qcore in Q. injection Q as X1 _ X2 _ _ _ _ _. rewrite <- X1, <- X2. exact L.
    + assert (Ea' : s_abl s1 = A ++ Some i :: B) by (rewrite Ea1; exact Ea).
      rewrite <- Lk, (abl_set_at _ _ _ _ None Ea') in H. injection H as _ <-.
      unfold live. cbn. rewrite somes_app. reflexivity.
Qed.

(** what a horizontal edge does to the active list *)
Definition horizontal_outcome (s s' : st) (i : bid) : Prop :=
  (* the bound goes on *)
  (active_right s' /\ Permutation (live s) (live s')) \/
  (* it meets its partner and both leave *)
  (active_right s' /\ exists n, mates s i n /\ Permutation (live s) (i :: n :: live s')) \/
  (* the bound was at its last edge and left the list without its partner *)
  ((b_next (bget (s_bounds s) i) >= length (b_edges (bget (s_bounds s) i)))%nat /\
   exists l1 l2, Permutation (live s) (l1 ++ i :: l2) /\ live s' = l1 ++ l2).
Theorem process_horizontal_cases y k s i k' s' : active_right s ->
  nth_error (s_abl s) k = Some (Some i) ->
  (forall m, b_max (bget (s_bounds s) i) = Some m -> partners s i m) ->
  process_horizontal fuel op sfk cfk y k s = Ok (k', s') ->
  horizontal_outcome s s' i.
Proof.
  intros Ar Hk Hp H. apply nth_error_split in Hk. destruct Hk as (A & B & Ea & LA).
  unfold process_horizontal in H. inv_bind H i' s0 E0.
  unfold abl_bound, bind in E0. rewrite <- LA, (abl_get_at _ _ _ _ Ea) in E0. injection E0 as <- <-.
  inv_bind H e s0 E0. apply un_current_edge in E0. unfold unchanged in E0. subst s0.
  assert (Pm : forall (im : bool) n n0, nth_error (s_abl s) (if im then find_bound (b_max (bget (s_bounds s) i)) (s_abl s) else n0) = Some (Some n) ->
             im = true -> mates s i n).
  { intros im n n0 Hn ->. destruct (b_max (bget (s_bounds s) i)) as [m|] eqn:Em.
    - pose proof (find_bound_spec _ _ m eq_refl n Hn). subst n. split; [apply Hp; reflexivity|exact Em].
    - destruct (find_if_spec (opt_is None) (s_abl s)) as (_ & _ & F). apply F in Hn. discriminate. }
  assert (Im : forall im s1, is_maxima i y s = Ok (im, s1) -> s1 = s).
  { intros im s1 Hm. assert (P : pres unchanged (is_maxima i y)) by (unfold is_maxima; pres_auto). apply (P _ _ _ Hm). }
  destruct (px (ebot e) <? px (etop e)).
  - unfold process_horizontal_left_to_right in H. inv_bind H i' s0 E0.
    unfold abl_bound, bind in E0. rewrite <- LA, (abl_get_at _ _ _ _ Ea) in E0. injection E0 as <- <-.
    inv_bind H im s0 E0. apply Im in E0. subst s0.
    inv_bind H sx s0 E0. apply get_Ok in E0. destruct E0 as (-> & ->).
    inv_bind H b s0 E0. apply bd_Ok in E0. destruct E0 as (-> & ->).
    cbv zeta in H. inv_bind H e' s0 E0. apply un_current_edge in E0. unfold unchanged in E0. subst s0.
    inv_bind H r s1 E1.
    assert (Rg : range (S k) (length (s_abl s)) = seq (S (length A + @length (option bid) [])) (length B)).
    { unfold range. rewrite Ea, app_length. cbn. f_equal; lia. }
    rewrite Rg, <- LA in E1.
    apply (ltr_loop_right) in E1; auto.
    2: { intros n Hm Hs Hn. eapply (Pm im n (length (s_abl s))); [|exact Hm]. cbn [length] in *.
         rewrite Ea in Hn, Hs |- *.
         match goal with |- nth_error _ ?x = _ => set (mi := x) in * end.
         replace mi with (length A + S (mi - S (length A + 0)))%nat by lia.
         rewrite nth_error_app2 by lia. replace (length A + S (mi - S (length A + 0)) - length A)%nat with (S (mi - S (length A + 0))) by lia.
         exact Hn. }
    destruct E1 as (Ar1 & Q1 & E1). destruct r as [[[k1 h1] sh1] out]. cbn [snd fst] in E1. cbv beta iota zeta in H.
    assert (Rest : forall A' B', s_abl s1 = A' ++ Some i :: B' /\ length A' = k1 /\
           (exists l2 l3, live s = somes_of A ++ i :: l2 ++ l3 /\ somes_of A' = somes_of A ++ l2 /\ somes_of B' = l3) ->
       (b <- bd i ;; hp <- gets s_hp ;;
        (if is_some (b_ring b) then
           (e <- current_edge i ;;
            add_hot_pixels_ltr (S (length hp)) (fun q =>
              Ok (negb (py q =? y) || (px q >=? px (etop e)))) i h1 ;; ret tt)
         else ret tt) ;;
        finish_horizontal i k1 ;;
        ret (if sh1 then k else S k))%M s1 = Ok (k', s') ->
       horizontal_outcome s s' i).
    { clear H. intros A' B' (Ea1 & LA' & l2 & l3 & Lv & SA & SB) H.
      inv_bind H b s2 E2. apply bd_Ok in E2. destruct E2 as (-> & ->).
      inv_bind H hp s2 E2. apply gets_Ok in E2. destruct E2 as (-> & ->).
      inv_bind H u1 s2 E2.
      assert (C2 : calm_ring s1 s2).
      { match type of E2 with ?m s1 = _ => assert (P : pres calm_ring m) by cr_auto end. apply (P _ _ _ E2). }
      pose proof (calm_ring_active op sfk cfk _ _ C2 Ar1) as Ar2. apply calm_quiet_step in C2. destruct C2 as (Ea2 & Q2 & _).
      inv_bind H u2 s3 E3. apply ret_Ok in H. destruct H as (_ & ->).
      apply (finish_horizontal_right _ _ _ _ _ A' B' Ar2) in E3; [|rewrite Ea2; exact Ea1|exact LA'].
      destruct E3 as [(X & Y)|(X & Y)]; [left; split; [exact X|]; unfold live at 2; rewrite Y, Ea2, Ea1, somes_app; cbn;
        change (flat_map _ ?l) with (somes_of l); rewrite Lv, SA, SB, <- app_assoc, <- !Permutation_middle; reflexivity|right; right].
      split.
      - pose proof (Q2 i) as Qa. pose proof (Q1 i) as Qb. unfold qcore in Qa, Qb.
        injection Qa as a1 _ a2 _ _ _ _ _. injection Qb as b1 _ b2 _ _ _ _ _. rewrite <- b1, <- b2, <- a1, <- a2. exact X.
      - exists (somes_of A'), (somes_of B'). split; [|exact Y]. rewrite Lv, SA, SB, <- app_assoc.
        rewrite !(app_assoc (somes_of A)), <- !Permutation_middle. rewrite <- app_assoc. reflexivity. }
    destruct out as [[]|].
    + apply ret_Ok in H. destruct H as (_ & ->). right. left. split; [exact Ar1|]. destruct E1 as (l2 & n & l3 & L1 & L2 & L3).
      exists n. split; [exact L2|]. rewrite L1, L3. rewrite <- (Permutation_middle (somes_of A)). apply perm_skip.
      rewrite app_assoc, <- Permutation_middle, <- app_assoc. reflexivity.
    + destruct E1 as (A' & B' & E1). eapply Rest; eassumption.
    + destruct E1 as (A' & B' & E1). eapply Rest; eassumption.
  - unfold process_horizontal_right_to_left in H. inv_bind H i' s0 E0.
    unfold abl_bound, bind in E0. rewrite <- LA, (abl_get_at _ _ _ _ Ea) in E0. injection E0 as <- <-.
    inv_bind H im s0 E0. apply Im in E0. subst s0.
    inv_bind H sx s0 E0. apply get_Ok in E0. destruct E0 as (-> & ->).
    inv_bind H b s0 E0. apply bd_Ok in E0. destruct E0 as (-> & ->).
    cbv zeta in H. inv_bind H e' s0 E0. apply un_current_edge in E0. unfold unchanged in E0. subst s0.
    inv_bind H r s1 E1.
    assert (Rg : range 0 k = seq 0 (length A)) by (unfold range; rewrite LA, Nat.sub_0_r; reflexivity).
    rewrite Rg, <- LA in E1. replace (length A) with (length A + @length (option bid) [])%nat in E1 at 2 by (cbn; lia).
    apply (rtl_loop_right) with (C := B) in E1; auto.
    2: { intros n Hm Hn. eapply (Pm im n (length (s_abl s))); [|exact Hm].
         rewrite Ea in Hn |- *. rewrite nth_error_app1; [exact Hn|]. apply nth_error_Some. congruence. }
    destruct E1 as (Ar1 & Q1 & E1). destruct r as [[k1 h1] out]. cbn [snd fst] in E1. cbv beta iota zeta in H.
    assert (Rest : forall A' B', s_abl s1 = A' ++ Some i :: B' /\ length A' = k1 /\
           (exists l1 l2, live s = l1 ++ l2 ++ i :: somes_of B /\ somes_of A' = l1 /\ somes_of B' = l2 ++ somes_of B) ->
       (b <- bd i ;;
        (if is_some (b_ring b) then
           (e <- current_edge i ;;
            add_hot_pixels_rtl (fun q =>
              Ok (negb (py q =? y) || (px q <=? px (etop e)))) i h1 ;; ret tt)
         else ret tt) ;;
        finish_horizontal i k1 ;;
        ret (S k))%M s1 = Ok (k', s') ->
       horizontal_outcome s s' i).
    { clear H. intros A' B' (Ea1 & LA' & l1 & l2 & Lv & SA & SB) H.
      inv_bind H b s2 E2. apply bd_Ok in E2. destruct E2 as (-> & ->).
      inv_bind H u1 s2 E2.
      assert (C2 : calm_ring s1 s2).
      { match type of E2 with ?m s1 = _ => assert (P : pres calm_ring m) by cr_auto end. apply (P _ _ _ E2). }
      pose proof (calm_ring_active op sfk cfk _ _ C2 Ar1) as Ar2. apply calm_quiet_step in C2. destruct C2 as (Ea2 & Q2 & _).
      inv_bind H u2 s3 E3. apply ret_Ok in H. destruct H as (_ & ->).
      apply (finish_horizontal_right _ _ _ _ _ A' B' Ar2) in E3; [|rewrite Ea2; exact Ea1|exact LA'].
      destruct E3 as [(X & Y)|(X & Y)]; [left; split; [exact X|]; unfold live at 2; rewrite Y, Ea2, Ea1, somes_app; cbn;
        change (flat_map _ ?l) with (somes_of l); rewrite Lv, SA, SB, <- !Permutation_middle, ?app_assoc; reflexivity|right; right].
      split.
      - pose proof (Q2 i) as Qa. pose proof (Q1 i) as Qb. unfold qcore in Qa, Qb.
        injection Qa as a1 _ a2 _ _ _ _ _. injection Qb as b1 _ b2 _ _ _ _ _. rewrite <- b1, <- b2, <- a1, <- a2. exact X.
      - exists (somes_of A'), (somes_of B'). split; [|exact Y]. rewrite Lv, SA, SB.
        rewrite <- !Permutation_middle. reflexivity. }
    destruct out as [[]|].
    + apply ret_Ok in H. destruct H as (_ & ->). right. left. split; [exact Ar1|]. destruct E1 as (l2 & n & l3 & L1 & L2 & L3).
      exists n. split; [exact L2|]. rewrite L1, L3, <- !Permutation_middle. rewrite perm_swap. reflexivity.
    + destruct E1 as (A' & B' & E1). eapply Rest; eassumption.
    + destruct E1 as (A' & B' & E1). eapply Rest; eassumption.
Qed.
Theorem process_horizontal_right y k s i k' s' : active_right s ->
  nth_error (s_abl s) k = Some (Some i) ->
  (forall m, b_max (bget (s_bounds s) i) = Some m -> partners s i m) ->
  process_horizontal fuel op sfk cfk y k s = Ok (k', s') ->
  active_right s' \/
  (* the bound was at its last edge and left the list without its partner *)
  ((b_next (bget (s_bounds s) i) >= length (b_edges (bget (s_bounds s) i)))%nat /\
   exists l1 l2, Permutation (live s) (l1 ++ i :: l2) /\ live s' = l1 ++ l2).
Proof.
  intros Ar Hk Hp H. destruct (process_horizontal_cases y k s i k' s' Ar Hk Hp H) as [(X & _)|[(X & _)|X]]; auto.
Qed.
End Maxima.
