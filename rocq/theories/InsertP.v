(** * Inserting a local minimum keeps the active list right (C24, C25) *)
From Coq Require Import ZArith List Bool Lia FMapPositive Permutation.
From Coq Require Import Floats.SpecFloat.
From RecordUpdate Require Import RecordSet.
From Verif Require Import Py Monad Utils Geometry LinearRingM BoundM LocalMinimumM
     StateM PointNodeM RingM SweepM Spec SortP ListP OrderP HoareP SweepFrameP SpecSweep SpecActive WindingP CalmP
     WindingInvP IntersectP.
Import ListNotations RecordSetNotations.
Open Scope Z_scope.

Lemma find_insert_le h l abl : forall k, find_insert h l abl = Ok k -> (k <= length abl)%nat.
Proof.
  induction abl as [|[j|] abl IH]; intros k H; cbn [find_insert] in H; try discriminate.
  - injection H as <-. auto.
  - destruct (bound_insert_location l (bget h j)) as [b| |]; try discriminate. cbn in H. destruct b.
    + injection H as <-. cbn. lia.
    + destruct (find_insert h l abl) as [k0| |]; try discriminate. cbn in H. injection H as <-.
      cbn. specialize (IH _ eq_refl). lia.
Qed.
Lemma insert_two {A} (abl : list A) k l r : (k <= length abl)%nat ->
  list_insert (list_insert abl k r) k l = firstn k abl ++ l :: r :: skipn k abl.
Proof.
  intros H. unfold list_insert. assert (F : length (firstn k abl) = k) by (rewrite firstn_length; lia).
  f_equal; [|f_equal].
  - rewrite firstn_app, F, Nat.sub_diag, firstn_all2, app_nil_r by lia. reflexivity.
  - rewrite skipn_app, F, Nat.sub_diag, skipn_all2 by lia. reflexivity.
Qed.
Lemma farther_sym L d : unit_delta d -> farther (L + d) L = farther L (L + d).
Proof.
  intros U. unfold farther. destruct (Z.ltb_spec (Z.abs (L + d)) (Z.abs L)), (Z.ltb_spec (Z.abs L) (Z.abs (L + d)));
    try reflexivity; destruct U; lia.
Qed.
(** the second of two partners that follow each other *)
Lemma partner_counts sfk cfk l k d wc owc : unit_delta d ->
  counts_right sfk cfk l (k, d) wc owc -> counts_right sfk cfk (l ++ [(k, d)]) (k, - d) wc owc.
Proof.
  intros U. rewrite !counts_right_alt, !winding_app, winding_same, winding_other, Z.add_0_r.
  intros (H1 & ->). split; [|reflexivity].
  replace (winding k l + d + - d) with (winding k l) by lia.
  destruct (rule_of sfk cfk k); [exact H1|rewrite farther_sym by exact U; exact H1 ..].
Qed.
Lemma partner_changes op sfk cfk l k d :
  changes op sfk cfk (l ++ [(k, d)]) (k, - d) = changes op sfk cfk l (k, d).
Proof.
  unfold changes.
  assert (E : member op sfk cfk ((l ++ [(k, d)]) ++ [(k, - d)]) = member op sfk cfk l).
  { unfold member. rewrite !winding_app, !winding_one. cbn [fst snd]. destruct k; cbn; rewrite !Z.add_0_r;
    (replace (winding SUBJECT l + d + - d) with (winding SUBJECT l) by lia) ||
    (replace (winding CLIP l + d + - d) with (winding CLIP l) by lia); reflexivity. }
  rewrite E. apply xorb_comm.
Qed.

Section Insert.
Context (op : operation_kind) (sfk cfk : fill_kind).
Notation active_right := (active_right op sfk cfk).

Lemma is_contributing_same s s' i : same_counts s s' i ->
  is_contributing op sfk cfk (b_kind (bget (s_bounds s') i)) (b_wc (bget (s_bounds s') i)) (b_owc (bget (s_bounds s') i))
  = is_contributing op sfk cfk (b_kind (bget (s_bounds s) i)) (b_wc (bget (s_bounds s) i)) (b_owc (bget (s_bounds s) i)).
Proof. intros (E & -> & -> & _). apply (f_equal fst) in E. cbn in E. rewrite E. reflexivity. Qed.

Theorem insert_minimum_right left right s s' u :
  active_right s ->
  left <> right -> ~ In left (live s) -> ~ In right (live s) ->
  unit_delta (b_wd (bget (s_bounds s) left)) ->
  b_kind (bget (s_bounds s) right) = b_kind (bget (s_bounds s) left) ->
  b_wd (bget (s_bounds s) right) = - b_wd (bget (s_bounds s) left) ->
  has_ring s left = false -> has_ring s right = false ->
  insert_lm_left_and_right_bound op sfk cfk left right s = Ok (u, s') ->
  active_right s' /\
  exists l1 l2, live s = l1 ++ l2 /\ live s' = l1 ++ left :: right :: l2.
Proof.
  intros (N & L) Nlr Fl Fr U Hk Hd Rl Rr H. unfold insert_lm_left_and_right_bound in H.
  inv_bind H k s1 E1. unfold insert_bound_into_abl in E1.
  inv_bind E1 sx s0 E0. apply get_Ok in E0. destruct E0 as (-> & ->).
  inv_bind E1 k0 s0 E0. apply lift_Ok in E0. destruct E0 as (E0 & ->). apply find_insert_le in E0.
  inv_bind E1 u0 s0 E2. apply modify_Ok in E2. apply ret_Ok in E1. destruct E1 as (-> & ->).
  rewrite (insert_two _ _ _ _ E0) in E2.
  set (A := firstn k0 (s_abl s)) in *. set (B := skipn k0 (s_abl s)) in *.
  assert (EA : s_abl s = A ++ B) by (symmetry; apply firstn_skipn).
  assert (LA : length A = k0) by (unfold A; rewrite firstn_length; lia).
  assert (A0 : s_abl s0 = A ++ Some left :: Some right :: B) by (subst s0; reflexivity).
  assert (B0 : s_bounds s0 = s_bounds s) by (subst s0; reflexivity). clear E2.
  set (l1 := somes_of A). set (l2 := somes_of B).
  assert (Lv : live s = l1 ++ l2) by (unfold live; rewrite EA; apply somes_app).
  rewrite Lv in *.
  (* the winding count *)
  inv_bind H u1 s2 E2. unfold set_winding_count in E2.
  inv_bind E2 i sa E3. unfold abl_bound in E3. rewrite <- LA in E3.
  unfold bind in E3 at 1. rewrite (abl_get_at _ _ _ _ A0) in E3. injection E3 as <- <-.
  inv_bind E2 sb sc E3. apply get_Ok in E3. destruct E3 as (-> & ->).
  inv_bind E2 b sc E3. apply bd_Ok in E3. destruct E3 as (-> & ->).
  cbv zeta in E2. rewrite A0, <- LA in E2.
  rewrite firstn_app, Nat.sub_diag, firstn_all in E2. cbn [firstn] in E2. rewrite app_nil_r in E2.
  rewrite B0 in E2.
  assert (Eb : flat_map (fun o => match o with Some j => [bget (s_bounds s) j] | None => [] end) A
               = map (fun j => bget (s_bounds s) j) l1).
  { unfold l1. clear. induction A as [|[j|] A IH]; cbn; [reflexivity| |exact IH]. rewrite IH. reflexivity. }
  rewrite Eb in E2. clear Eb.
  assert (Sm : forall l, map sig (map (fun j => bget (s_bounds s) j) l) = sigs s l) by (intros l; apply map_map).
  rewrite list_right_okL in L. apply okL_app in L. destruct L as (L1 & L2). cbn [app] in L2.
  pose proof (winding_counts_right sfk cfk (map (fun j => bget (s_bounds s) j) l1)
    (b_kind (bget (s_bounds s) left)) (b_wd (bget (s_bounds s) left)) U) as WC.
  destruct (winding_counts sfk cfk _ _ _) as [wc owc] eqn:Ew.
  rewrite Sm in WC.
  assert (C : counts_right sfk cfk (sigs s l1) (sig (bget (s_bounds s) left)) wc owc).
  { apply WC.
    - intros x Hx. apply in_map_iff in Hx. destruct Hx as (j & <- & Hj). apply in_split in Hj.
      destruct Hj as (m1 & m2 & Em). rewrite okL_spec in L1. apply (L1 m1 j m2 Em).
    - intros m1 p m2 Em.
      assert (E : exists n1 j n2, l1 = n1 ++ j :: n2 /\ m1 = map (fun j => bget (s_bounds s) j) n1 /\ p = bget (s_bounds s) j).
      { clear -Em. revert m1 Em. induction l1 as [|x l IH]; intros m1 Em; [destruct m1; discriminate|].
        destruct m1 as [|y m1]; cbn in Em.
        - injection Em as <- <-. exists [], x, l. auto.
        - injection Em as <- Em. destruct (IH _ Em) as (n1 & j & n2 & -> & -> & ->). exists (x :: n1), j, n2. auto. }
      destruct E as (n1 & j & n2 & En & -> & ->). rewrite Sm. rewrite okL_spec in L1. apply (L1 n1 j n2 En). }
  clear WC Ew. apply upd_bound_Ok in E2.
  (* the second bound copies it *)
  assert (A2 : s_abl s2 = A ++ Some left :: Some right :: B) by (subst s2; exact A0).
  inv_bind H i sa E3. unfold abl_bound in E3. rewrite <- LA in E3.
  unfold bind in E3 at 1. rewrite (abl_get_at _ _ _ _ A2) in E3. injection E3 as <- <-.
  inv_bind H j sa E3. unfold abl_bound in E3.
  assert (A2' : s_abl s2 = (A ++ [Some left]) ++ Some right :: B) by (rewrite A2, <- app_assoc; reflexivity).
  replace (S k0) with (length (A ++ [Some left])) in E3 by (rewrite app_length; cbn; lia).
  unfold bind in E3 at 1. rewrite (abl_get_at _ _ _ _ A2') in E3. injection E3 as <- <-.
  inv_bind H bi sa E3. apply bd_Ok in E3. destruct E3 as (-> & ->).
  inv_bind H u2 s3 E3. apply upd_bound_Ok in E3.
  inv_bind H lb sa E4. apply bd_Ok in E4. destruct E4 as (-> & ->).
  assert (Bl : bget (s_bounds s3) left = bget (s_bounds s) left <| b_wc := wc |> <| b_owc := owc |>).
  { subst s3 s2. cbn. rewrite !bget_hset, !Pos.eqb_refl, B0. destruct (Pos.eqb_spec right left); [congruence|]. reflexivity. }
  assert (Br : bget (s_bounds s3) right = bget (s_bounds s) right <| b_wc := wc |> <| b_owc := owc |>).
  { subst s3 s2. cbn. rewrite !bget_hset, !Pos.eqb_refl, B0. destruct (Pos.eqb_spec left right); [congruence|]. reflexivity. }
  assert (Bo : forall x, x <> left -> x <> right -> bget (s_bounds s3) x = bget (s_bounds s) x).
  { intros x H1 H2. subst s3 s2. cbn. rewrite !bget_hset, B0. destruct (Pos.eqb_spec right x); [congruence|].
    destruct (Pos.eqb_spec left x); [congruence|]. reflexivity. }
  assert (A3 : s_abl s3 = A ++ Some left :: Some right :: B) by (subst s3; exact A2).
  clear E3 A2 A2' E2 A0 B0 s2 s0.
  inv_bind H u3 s4 E5.
  assert (C' : calm_ring s4 s' \/ (steady s4 s')).
  { right.
    match type of H with ?m s4 = _ => assert (P : pres steady m) by sd_auto end. apply (P _ _ _ H). }
  assert (Sd : steady s4 s').
  { destruct C' as [(C'1 & C'2)|]; [|assumption]. split; [apply C'1|]. intros; apply calm_ring_same; split; assumption. }
  clear C' H.
  assert (Gl : sig (bget (s_bounds s3) left) = sig (bget (s_bounds s) left)) by (rewrite Bl; reflexivity).
  assert (Gr : sig (bget (s_bounds s3) right) = (fst (sig (bget (s_bounds s) left)), - snd (sig (bget (s_bounds s) left))))
    by (rewrite Br; unfold sig; cbn; congruence).
  assert (Go : forall x, sig (bget (s_bounds s3) x) = sig (bget (s_bounds s) x)).
  { intros x. destruct (Pos.eq_dec x left) as [->|]; [exact Gl|]. destruct (Pos.eq_dec x right) as [->|].
    - rewrite Br. reflexivity.
    - rewrite Bo by assumption. reflexivity. }
  assert (Ch : is_contributing op sfk cfk (b_kind (bget (s_bounds s3) left)) (b_wc (bget (s_bounds s3) left)) (b_owc (bget (s_bounds s3) left))
               = changes op sfk cfk (sigs s l1) (sig (bget (s_bounds s) left))).
  { rewrite Bl. cbn. apply is_contributing_changes; [exact U|exact C]. }
  rewrite Ch in E5.
  assert (E6 : calm s3 s4 /\ has_ring s4 left = changes op sfk cfk (sigs s l1) (sig (bget (s_bounds s) left)) /\
    has_ring s4 right = changes op sfk cfk (sigs s l1) (sig (bget (s_bounds s) left)) /\
    forall x, x <> left -> x <> right -> has_ring s4 x = has_ring s3 x).
  { destruct (changes op sfk cfk (sigs s l1) (sig (bget (s_bounds s) left))).
    - inv_bind E5 e sa E6. apply cr_current_edge in E6. apply add_local_minimum_status in E5.
      eapply status_calm_l in E5; [|exact E6]. destruct E5 as (Cm & D1 & D2). split; [exact Cm|].
      split; [apply D2; cbn; auto|]. split; [apply D2; cbn; auto|].
      intros x H1 H2. apply D1. cbn. intuition congruence.
    - apply ret_Ok in E5. destruct E5 as (_ & ->). split; [apply R_refl|].
      unfold has_ring in *. rewrite Bl, Br. cbn. auto. }
  clear E5 Ch. destruct E6 as (Cm & H1 & H2 & H3).
  assert (A4 : s_abl s' = A ++ Some left :: Some right :: B).
  { destruct Sd as (-> & _). destruct Cm as (-> & _). exact A3. }
  assert (Lv' : live s' = l1 ++ left :: right :: l2).
  { unfold live. rewrite A4, somes_app. reflexivity. }
  assert (Sg' : forall x, sig (bget (s_bounds s') x) = sig (bget (s_bounds s) x)).
  { intros x. destruct Sd as (_ & Sd). destruct (Sd x) as (-> & _). rewrite (quiet_sig _ _ x (calm_quiet _ _ Cm)). apply Go. }
  assert (Hw : forall x, b_wc (bget (s_bounds s') x) = b_wc (bget (s_bounds s3) x) /\ b_owc (bget (s_bounds s') x) = b_owc (bget (s_bounds s3) x)).
  { intros x. destruct Sd as (_ & Sd). destruct (Sd x) as (_ & -> & -> & _). destruct Cm as (_&_&_&_&Cm). specialize (Cm x).
    unfold core in Cm. injection Cm as _ _ _ _ _ -> -> _ _ _. auto. }
  assert (Hr : forall x, has_ring s' x = has_ring s4 x) by (intros x; apply Sd).
  assert (Sc : forall x, x <> left -> x <> right -> same_counts s s' x).
  { intros x X1 X2. unfold same_counts. cbv zeta. destruct (Hw x) as (-> & ->). rewrite Sg', Hr, H3, Bo by assumption.
    unfold has_ring. rewrite Bo by assumption. auto. }
  assert (Ne : forall x, In x (l1 ++ l2) -> x <> left /\ x <> right).
  { intros x Hx. split; intros ->; contradiction. }
  split; [|exists l1, l2; auto].
  split; rewrite Lv'.
  - assert (P : Permutation (left :: right :: l1 ++ l2) (l1 ++ left :: right :: l2)).
    { rewrite <- !Permutation_middle. reflexivity. }
    eapply Permutation_NoDup; [exact P|]. constructor; [|constructor; assumption].
    intros [E|E]; [congruence|contradiction].
  - rewrite list_right_okL. apply okL_app. cbn [app okL].
    assert (Sgs : forall l, sigs s' l = sigs s l) by (intros l; apply sigs_frame; exact Sg').
    split; [|split; [|split]].
    + apply (okL_frame op sfk cfk s s' l1 [] []); [intros x; reflexivity| |exact L1].
      intros x Hx. apply Sc; apply Ne; apply in_or_app; auto.
    + unfold bound_right. cbv zeta. rewrite Sgs, Sg', Hr, H1. destruct (Hw left) as (-> & ->). rewrite Bl. cbn.
      split; [|split; [exact C|reflexivity]].
      pose proof (Sg' left) as Q. apply (f_equal snd) in Q. cbn in Q. rewrite Q. exact U.
    + unfold bound_right. cbv zeta. rewrite Sgs, Sg', Hr, H2. destruct (Hw right) as (-> & ->). rewrite Br. cbn.
      assert (Sr : sig (bget (s_bounds s) right) = (b_kind (bget (s_bounds s) left), - b_wd (bget (s_bounds s) left)))
        by (unfold sig; congruence).
      assert (Sl : sigs s (l1 ++ [left]) = sigs s l1 ++ [(b_kind (bget (s_bounds s) left), b_wd (bget (s_bounds s) left))])
        by (unfold sigs; rewrite map_app; reflexivity).
      rewrite Sr, Sl. split; [|split].
      * pose proof (Sg' right) as Q. apply (f_equal snd) in Q. cbn in Q. rewrite Q, Hd. destruct U as [-> | ->]; [right|left]; reflexivity.
      * apply partner_counts; [exact U|exact C].
      * symmetry. apply partner_changes.
    + apply (okL_frame op sfk cfk s s' l2 l1 _); [| |exact L2].
      * intros x. rewrite Sgs. unfold sigs. rewrite !map_app, !winding_app. cbn.
        rewrite Hk, Hd. destruct (kind_eqb _ x); rewrite ?Z.add_0_r, <- ?Z.add_assoc, ?Z.add_opp_diag_r, ?Z.add_0_r; reflexivity.
      * intros x Hx. apply Sc; apply Ne; apply in_or_app; auto.
Qed.
End Insert.
