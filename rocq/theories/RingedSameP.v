(** * The heap stays well ringed: collinear edges inside one ring *)
From Coq Require Import ZArith List Bool Lia FMapPositive Permutation.
From Coq Require Import Floats.SpecFloat.
From RecordUpdate Require Import RecordSet.
From Verif Require Import Py Monad Utils Geometry LinearRingM BoundM LocalMinimumM
     StateM PointNodeM RingM SweepM TopologyM WagyuM HoareP SpecRing SpecHeap SpecRings SweepFrameP OrderP VatP FuelP PipP SortP
     CircleP HeapOpsP StatsP SplitP NodeFrameP RingedP RingedTopP RingedCutP RingedPathP RingedFixP RingedArcP.
Import ListNotations RecordSetNotations.
Open Scope Z_scope.

Lemma path_same s r i L1 j L2 fuel s1 e1 s2 e2 s' : well_ringed s -> members s r (i :: L1 ++ j :: L2) -> circle s (i :: L1 ++ j :: L2) ->
  collinear_path fuel i j s = Ok ((s1, e1, s2, e2), s') ->
  s' = s /\ (exists P1 M1 Q1, j :: L2 ++ [i] = P1 ++ (e2 :: M1) ++ Q1 /\ s1 = List.last M1 e2) /\
  (exists P2 M2 Q2, i :: L1 ++ [j] = P2 ++ (e1 :: M2) ++ Q2 /\ s2 = List.last M2 e1).
Proof.
  intros W MM C E.
  assert (Ri : ring_of s i = Some r) by (apply MM; left; reflexivity).
  assert (Rj : ring_of s j = Some r) by (apply MM; right; apply in_app_iff; right; left; reflexivity).
  unfold collinear_path in E. rewrite (bind_run _ _ _ _ _ (nd_run s i)), (bind_run _ _ _ _ _ (nd_run s j)) in E.
  change (n_ring (node_at s i)) with (ring_of s i) in E. change (n_ring (node_at s j)) with (ring_of s j) in E.
  rewrite Ri, Rj in E. cbn [opt_is] in E. rewrite Pos.eqb_refl in E. cbv zeta in E.
  assert (C' : circle s (j :: L2 ++ i :: L1)).
  { pose proof (circle_rotate s (i :: L1) (j :: L2)) as X. cbn [app] in X. apply X. exact C. }
  assert (AR : forall x y l1 l2, circle s (x :: l1 ++ y :: l2) -> NoDup (x :: l1 ++ [y]) /\ chain_of s (x :: l1 ++ [y])).
  { intros x y l1 l2 (N & K). split.
    - change (x :: l1 ++ y :: l2) with ((x :: l1) ++ [y] ++ l2) in N. rewrite app_assoc in N. apply nodup_app in N. apply N.
    - cbn [chain_of]. rewrite <- app_assoc in K. cbn [app] in K. apply chained_app in K as (K & _). exact K. }
  assert (LK : forall (l1 : list nid) x y A P f M Q p q, (forall k, In k (x :: l1 ++ [y]) -> ring_of s k = Some r) -> A = x :: l1 ++ [y] ->
     A = P ++ (f :: M) ++ Q -> n_prev (node_at s (List.last M f)) = Some p -> n_next (node_at s f) = Some q ->
     n_next (node_at s p) = Some (List.last M f) /\ n_prev (node_at s q) = Some f).
  { intros l1 x y A P f M Q p q H HA HB H1 H2. assert (IN : forall k, In k (f :: M) -> ring_of s k = Some r).
    { intros k K. apply H. rewrite <- HA, HB. apply in_app_iff. right. apply in_app_iff. left. exact K. }
    split.
    - apply (well_prev s _ p r W); [|exact H1]. apply IN. apply CircleP.last_in.
    - apply (well_next s _ q r W); [|exact H2]. apply IN. left. reflexivity. }
  assert (IN1 : forall k, In k (j :: L2 ++ [i]) -> ring_of s k = Some r).
  { intros k K. apply MM. cbn in K |- *. rewrite in_app_iff in *. cbn in *. tauto. }
  assert (IN2 : forall k, In k (i :: L1 ++ [j]) -> ring_of s k = Some r).
  { intros k K. apply MM. cbn in K |- *. rewrite in_app_iff in *. cbn in *. tauto. }
  unfold bind at 1 in E. destruct (collinear_search fuel i j s) as [[[p q] t]| |] eqn:E1; try discriminate. cbv iota beta in E.
  destruct (AR j i L2 L1 C') as (N1 & K1).
  destruct (search_arc s (j :: L2 ++ [i]) i j fuel (j :: L2) (L2 ++ [i]) (p, q) t N1 K1 eq_refl eq_refl E1) as (-> & P1 & f1 & M1 & Q1 & A1 & B1 & D1).
  cbn [fst snd] in *. destruct (LK L2 j i _ P1 f1 M1 Q1 p q IN1 eq_refl A1 B1 D1) as (X1 & Y1).
  rewrite (bind_run _ _ _ _ _ (next_of_run s p _ X1)) in E.
  unfold bind at 1 in E. destruct (skip_repeats fuel n_next true (List.last M1 f1) i s) as [[x1 t]| |] eqn:E2; try discriminate. cbv iota beta in E.
  apply skip_same in E2 as (-> & ->). rewrite (bind_run _ _ _ _ _ (prev_of_run s q _ Y1)) in E.
  unfold bind at 1 in E. destruct (skip_repeats fuel n_prev true f1 j s) as [[x1 t]| |] eqn:E2; try discriminate. cbv iota beta in E.
  apply skip_same in E2 as (-> & ->).
  unfold bind at 1 in E. destruct (collinear_search fuel j i s) as [[[p2 q2] t]| |] eqn:E3; try discriminate. cbv iota beta in E.
  destruct (AR i j L1 L2 C) as (N2 & K2).
  destruct (search_arc s (i :: L1 ++ [j]) j i fuel (i :: L1) (L1 ++ [j]) (p2, q2) t N2 K2 eq_refl eq_refl E3) as (-> & P2 & f2 & M2 & Q2 & A2 & B2 & D2).
  cbn [fst snd] in *. destruct (LK L1 i j _ P2 f2 M2 Q2 p2 q2 IN2 eq_refl A2 B2 D2) as (X2 & Y2).
  rewrite (bind_run _ _ _ _ _ (next_of_run s p2 _ X2)) in E.
  unfold bind at 1 in E. destruct (skip_repeats fuel n_next true (List.last M2 f2) j s) as [[x1 t]| |] eqn:E2; try discriminate. cbv iota beta in E.
  apply skip_same in E2 as (-> & ->). rewrite (bind_run _ _ _ _ _ (prev_of_run s q2 _ Y2)) in E.
  unfold bind at 1 in E. destruct (skip_repeats fuel n_prev true f2 i s) as [[x1 t]| |] eqn:E2; try discriminate. cbv iota beta in E.
  apply skip_same in E2 as (-> & ->). injection E as <- <- <- <- <-. split; [reflexivity|]. split; [exists P1, M1, Q1|exists P2, M2, Q2]; auto.
Qed.

(** the arcs cut the circle into the two paths and what remains *)
Record arcs (W : list nid) (s1 e1 s2 e2 : nid) (X2 SG X1 SB : list nid) : Prop := {
  ac_perm : exists l1 l2, W = l1 ++ l2 /\ X2 ++ SG ++ X1 ++ SB = l2 ++ l1;
  ac_x2 : X2 = [] /\ s2 = e1 \/ (exists D, X2 = e1 :: D) /\ s2 <> e1;
  ac_x1 : X1 = [] /\ s1 = e2 \/ (exists D, X1 = e2 :: D) /\ s1 <> e2;
  ac_sg : SG = [] /\ s2 = e2 \/ exists D, SG = s2 :: D;
  ac_sb : SB = [] /\ s1 = e1 \/ exists D, SB = s1 :: D
}.
Lemma split_last (e : nid) M : exists X, e :: M = X ++ [List.last M e] /\ (X = [] /\ M = [] \/ exists D, X = e :: D).
Proof.
  destruct M as [|m M] using rev_ind; [exists []; auto|]. exists (e :: M). rewrite last_last. split; [reflexivity|eauto].
Qed.
Lemma split_end (x : nid) (R : list nid) y l : x :: R = l ++ [y] -> exists K, x :: R = K ++ [y] /\ l = K /\ (K = [] /\ x = y \/ exists D, K = x :: D).
Proof.
  intros E. exists l. split; [exact E|]. split; [reflexivity|]. destruct l as [|a l]; injection E as -> E; eauto.
Qed.
Lemma cut_arcs i L1 j L2 s1 e1 s2 e2 P1 M1 Q1 P2 M2 Q2 : NoDup (i :: L1 ++ j :: L2) ->
  j :: L2 ++ [i] = P1 ++ (e2 :: M1) ++ Q1 -> s1 = List.last M1 e2 ->
  i :: L1 ++ [j] = P2 ++ (e1 :: M2) ++ Q2 -> s2 = List.last M2 e1 ->
  exists X2 SG X1 SB, arcs (i :: L1 ++ j :: L2) s1 e1 s2 e2 X2 SG X1 SB.
Proof.
  intros ND A1 H1 A2 H2.
  assert (NA1 : NoDup (j :: L2 ++ [i])).
  { apply (Permutation_NoDup (l := i :: j :: L2)); [change (Permutation ([i] ++ j :: L2) ((j :: L2) ++ [i])); apply Permutation_app_comm|].
    inversion ND as [|? ? X Y]. apply nodup_app in Y as (_ & Y & _). constructor; [|exact Y]. intros I. apply X. apply in_app_iff. auto. }
  assert (NA2 : NoDup (i :: L1 ++ [j])).
  { change (i :: L1 ++ j :: L2) with ((i :: L1) ++ [j] ++ L2) in ND. rewrite app_assoc in ND. apply nodup_app in ND. apply ND. }
  destruct (split_last e2 M1) as (X1 & EX1 & KX1). rewrite <- H1 in EX1.
  destruct (split_last e1 M2) as (X2 & EX2 & KX2). rewrite <- H2 in EX2.
  (* the ends of the arcs *)
  assert (exists R1, s1 :: Q1 = R1 ++ [i] /\ (R1 = [] /\ s1 = i \/ exists D, R1 = s1 :: D)) as (R1 & ER1 & KR1).
  { destruct Q1 as [|q Q1] using rev_ind; [exists []|clear IHQ1; exists (s1 :: Q1)].
    - rewrite app_nil_r, EX1, app_assoc in A1. change (j :: L2 ++ [i]) with ((j :: L2) ++ [i]) in A1. apply app_inj_tail in A1 as (_ & ->). auto.
    - rewrite !app_assoc in A1. change (j :: L2 ++ [i]) with ((j :: L2) ++ [i]) in A1. apply app_inj_tail in A1 as (_ & ->). split; [reflexivity|eauto]. }
  assert (exists R2, s2 :: Q2 = R2 ++ [j] /\ (R2 = [] /\ s2 = j \/ exists D, R2 = s2 :: D)) as (R2 & ER2 & KR2).
  { destruct Q2 as [|q Q2] using rev_ind; [exists []|clear IHQ2; exists (s2 :: Q2)].
    - rewrite app_nil_r, EX2, app_assoc in A2. change (i :: L1 ++ [j]) with ((i :: L1) ++ [j]) in A2. apply app_inj_tail in A2 as (_ & ->). auto.
    - rewrite !app_assoc in A2. change (i :: L1 ++ [j]) with ((i :: L1) ++ [j]) in A2. apply app_inj_tail in A2 as (_ & ->). split; [reflexivity|eauto]. }
  assert (B1 : j :: L2 = P1 ++ X1 ++ R1).
  { rewrite EX1 in A1. rewrite <- app_assoc in A1. cbn [app] in A1. rewrite ER1, !app_assoc in A1. change (j :: L2 ++ [i]) with ((j :: L2) ++ [i]) in A1.
    apply app_inj_tail in A1 as (A1 & _). rewrite A1, app_assoc. reflexivity. }
  assert (B2 : i :: L1 = P2 ++ X2 ++ R2).
  { rewrite EX2 in A2. rewrite <- app_assoc in A2. cbn [app] in A2. rewrite ER2, !app_assoc in A2. change (i :: L1 ++ [j]) with ((i :: L1) ++ [j]) in A2.
    apply app_inj_tail in A2 as (A2 & _). rewrite A2, app_assoc. reflexivity. }
  exists X2, (R2 ++ P1), X1, (R1 ++ P2). split.
  - exists P2, (X2 ++ R2 ++ P1 ++ X1 ++ R1). split.
    + change (i :: L1 ++ j :: L2) with ((i :: L1) ++ j :: L2). rewrite B1, B2, !app_assoc. reflexivity.
    + rewrite !app_assoc. reflexivity.
  - destruct KX2 as [(-> & ->)|(D & ->)]; [left; cbn in H2; auto|right]. split; [eauto|]. intros X. rewrite X in EX2.
    rewrite A2 in NA2. apply nodup_app in NA2 as (_ & NA2 & _). apply nodup_app in NA2 as (NA2 & _). rewrite EX2 in NA2. apply nodup_app in NA2 as (_ & _ & Y). apply (Y e1); left; reflexivity.
  - destruct KX1 as [(-> & ->)|(D & ->)]; [left; cbn in H1; auto|right]. split; [eauto|]. intros X. rewrite X in EX1.
    rewrite A1 in NA1. apply nodup_app in NA1 as (_ & NA1 & _). apply nodup_app in NA1 as (NA1 & _). rewrite EX1 in NA1. apply nodup_app in NA1 as (_ & _ & Y). apply (Y e2); left; reflexivity.
  - destruct KR2 as [(-> & K)|(D & ->)]; [|right; exists (D ++ P1); reflexivity]. destruct P1 as [|p P1].
    + left. split; [reflexivity|]. cbn in A1. congruence.
    + right. cbn in A1. injection A1 as <- _. exists P1. rewrite K. reflexivity.
  - destruct KR1 as [(-> & K)|(D & ->)]; [|right; exists (D ++ P2); reflexivity]. destruct P2 as [|p P2].
    + left. split; [reflexivity|]. cbn in A2. congruence.
    + right. cbn in A2. injection A2 as <- _. exists P2. rewrite K. reflexivity.
Qed.
Definition fixed_same (r : rid) (f : option nid * option nid) (s : st) : Prop :=
  match f with
  | (None, _) => well_but (eq r) s
  | (Some p, None) => (well_but (eq r) s /\ ring_of s p = Some r) \/ exists l, ends s p l /\ ~ In p l
  | (Some p, Some q) => exists D H, split_in r (p :: D) (q :: H) s
  end.
Lemma members_ext s r l l' : (forall j, In j l <-> In j l') -> members s r l -> members s r l'.
Proof. intros X M i. rewrite (M i). apply X. Qed.
Lemma rotate_at s V x : circle s V -> In x V -> exists K, circle s (x :: K) /\ forall j, In j (x :: K) <-> In j V.
Proof.
  intros C I. apply in_split in I as (l1 & l2 & ->). exists (l2 ++ l1). split; [apply (circle_rotate s l1 (x :: l2)); exact C|].
  intros j. change (x :: l2 ++ l1) with ((x :: l2) ++ l1). rewrite !in_app_iff. tauto.
Qed.
Lemma killed_all s s' r l : well_ringed s -> members s r l -> killed l s s' -> outside l s s' -> same_but_nodes s s' -> well_but (eq r) s'.
Proof.
  intros W M K O SB. apply (but_shrunk s s' r l l []); auto. intros j. cbn. tauto.
Qed.
Lemma spike_done s r x K e D fuel f s' : well_ringed s -> members s r (x :: K ++ e :: D) -> circle s (x :: K ++ e :: D) ->
  spike_prog fuel x e s = Ok (f, s') -> f = (Some e, None) /\ well_but (eq r) s' /\ ring_of s' e = Some r.
Proof.
  intros W M C E. destruct (fix_spike s x K e D fuel f s' C E) as (-> & C' & KL & O & SB). split; [reflexivity|].
  destruct C as (ND & _). apply (nodup_app (x :: K) (e :: D)) in ND as (_ & _ & A).
  destruct (but_shrunk s s' r (x :: K ++ e :: D) (x :: K) (e :: D) W M) as (B & ML); auto.
  - intros j J. change (In j ((x :: K) ++ e :: D)). apply in_app_iff. auto.
  - intros j. change (x :: K ++ e :: D) with ((x :: K) ++ e :: D). rewrite in_app_iff. split.
    + intros J. split; [auto|]. intros J'. exact (A j J' J).
    + tauto.
  - split; [exact B|]. apply ML. left. reflexivity.
Qed.
Lemma fix_same s r V s1 e1 s2 e2 X2 SG X1 SB fuel f s' : well_ringed s -> members s r V -> circle s V ->
  arcs V s1 e1 s2 e2 X2 SG X1 SB -> fix_collinear_path fuel (s1, e1, s2, e2) s = Ok (f, s') -> fixed_same r f s'.
Proof.
  intros W M0 C0 [(l1 & l2 & -> & EV) AX2 AX1 AG AB] E.
  apply circle_rotate in C0. rewrite <- EV in C0.
  assert (M : members s r (X2 ++ SG ++ X1 ++ SB)).
  { revert M0. apply members_ext. intros j. rewrite EV, !in_app_iff. tauto. }
  clear M0 EV l1 l2. rename C0 into C. unfold fix_collinear_path in E.
  destruct AX1 as [(-> & SL)|((H & ->) & SL)], AX2 as [(-> & SR)|((D & ->) & SR)].
  - (* both spikes *)
    rewrite SL, SR, !Pos.eqb_refl in E. cbn [andb app] in E, C, M.
    assert (I : In e2 (SG ++ SB)).
    { destruct AB as [(-> & K)|(B & ->)]; [|apply in_app_iff; right; left; exact SL].
      destruct AG as [(-> & _)|(G & ->)]; [destruct C|]. left. congruence. }
    destruct (rotate_at s _ e2 C I) as (K & C' & IK).
    unfold bind at 1 in E. destruct (detach_until fuel (Some e2) None s) as [[u t]| |] eqn:E1; try discriminate. injection E as <- <-.
    destruct (fix_both s e2 K fuel u t C' E1) as (X1 & X2 & X3). cbn.
    apply (killed_all s t r (e2 :: K)); auto. revert M. apply members_ext. intros j. symmetry. apply IK.
  - (* spike on the left *)
    rewrite SL, Pos.eqb_refl, (eqb_no _ _ SR) in E. cbn [andb] in E. change (spike_prog fuel s2 e1 s = Ok (f, s')) in E.
    assert (exists K, SG ++ SB = s2 :: K) as (K & EK).
    { destruct AG as [(-> & G)|(G & ->)]; [|exists (G ++ SB); reflexivity]. destruct AB as [(-> & B)|(B & ->)]; [congruence|].
      exists B. cbn [app]. congruence. }
    cbn [app] in C, M. rewrite EK in C, M.
    assert (C' : circle s (s2 :: K ++ e1 :: D)).
    { pose proof (circle_rotate s (e1 :: D) (s2 :: K)) as X. cbn [app] in X. apply X. exact C. }
    destruct (spike_done s r s2 K e1 D fuel f s' W) as (-> & X); [|exact C'|exact E|left; exact X].
    revert M. apply members_ext. intros j. change (In j ((e1 :: D) ++ s2 :: K) <-> In j ((s2 :: K) ++ e1 :: D)). rewrite !in_app_iff. tauto.
  - (* spike on the right *)
    rewrite SR, Pos.eqb_refl, (eqb_no _ _ SL) in E. cbn [andb] in E. change (spike_prog fuel s1 e2 s = Ok (f, s')) in E.
    assert (exists K, SB ++ SG = s1 :: K) as (K & EK).
    { destruct AB as [(-> & B)|(B & ->)]; [|exists (B ++ SG); reflexivity]. destruct AG as [(-> & G)|(G & ->)]; [congruence|].
      exists G. cbn [app]. congruence. }
    cbn [app] in C, M.
    assert (C' : circle s (s1 :: K ++ e2 :: H)).
    { pose proof (circle_rotate s (SG ++ e2 :: H) SB) as X. rewrite app_assoc, EK, <- app_assoc in X. cbn [app] in X. apply X. exact C. }
    destruct (spike_done s r s1 K e2 H fuel f s' W) as (-> & X); [|exact C'|exact E|left; exact X].
    revert M. apply members_ext. intros j. change (In j (SG ++ (e2 :: H) ++ SB) <-> In j ((s1 :: K) ++ e2 :: H)). rewrite <- EK, !in_app_iff. tauto.
  - rewrite (eqb_no _ _ SL), (eqb_no _ _ SR) in E. cbn [andb] in E. change (paths_prog fuel s1 e1 s2 e2 s = Ok (f, s')) in E.
    destruct AB as [(-> & ->)|(B & ->)].
    { exfalso. assert (I : forall k, k = e1 \/ k = s2 -> In k ((e1 :: D) ++ SG ++ (e2 :: H) ++ [])).
      { intros k [->| ->]; [left; reflexivity|]. rewrite !in_app_iff. destruct AG as [(-> & ->)|(G & ->)]; [right; right; left; left; reflexivity|right; left; left; reflexivity]. }
      destruct (rotate_at s _ e1 C (I e1 (or_introl eq_refl))) as (K & C' & IK).
      apply (fix_dead s e1 K s2 e2 fuel f s' C'); [|exact E]. apply IK. apply I. auto. }
    destruct AG as [(-> & ->)|(G & ->)].
    { cbn [app] in C. destruct (fix_open s s1 B e1 D e2 H fuel f s' C E) as (-> & X & Y). right. eauto. }
    cbn [app] in C, M. destruct (fix_two s s1 B e1 D s2 G e2 H fuel f s' C E) as (-> & C1 & C2 & KL & O & SBN).
    cbn. exists D, H. destruct C as (ND & _).
    change (NoDup ((e1 :: D) ++ (s2 :: G) ++ (e2 :: H) ++ s1 :: B)) in ND.
    apply nodup_app in ND as (_ & ND & A1). apply nodup_app in ND as (_ & ND & A2). apply nodup_app in ND as (_ & _ & A3).
    apply (split_shrunk s s' r (e1 :: D ++ s2 :: G ++ e2 :: H ++ s1 :: B) ((s1 :: B) ++ s2 :: G)); auto.
    + intros j J. change (In j ((e1 :: D) ++ (s2 :: G) ++ (e2 :: H) ++ s1 :: B)). rewrite !in_app_iff in *. tauto.
    + intros j. change (e1 :: D ++ s2 :: G ++ e2 :: H ++ s1 :: B) with ((e1 :: D) ++ (s2 :: G) ++ (e2 :: H) ++ s1 :: B).
      specialize (A1 j). specialize (A2 j). specialize (A3 j). rewrite !in_app_iff in *. tauto.
    + intros j J K. apply (A1 j J). rewrite !in_app_iff. auto.
Qed.
Definition same_rest (fuel : nat) (r : rid) (f : option nid * option nid) : prog unit :=
  (match f with
   | (None, _) => remove_ring fuel fuel r false true
   | (Some p, None) =>
       (upd_ring r (fun x => x <| r_node := Some p |>) ;; recalculate_stats fuel r)
   | (Some p, Some q) =>
       (new <- create_ring ;;
        upd_ring new (fun x => x <| r_node := Some q |>) ;;
        recalculate_stats fuel new ;;
        update_points fuel new ;;
        upd_ring r (fun x => x <| r_node := Some p |>) ;;
        recalculate_stats fuel r)
   end)%M.
Lemma ends_rput s r g c l : ends s c l -> ends (rput s r g) c l.
Proof. apply ends_frame. reflexivity. Qed.
Lemma same_rest_well fuel r f : tri (fixed_same r f) (same_rest fuel r f) (fun _ => well_ringed).
Proof.
  destruct f as [[p|] [q|]]; cbn [fixed_same same_rest].
  - apply tri_ex. intros D. apply tri_ex. intros H.
    eapply tri_bind; [apply split_create|]. intros new. cbv beta.
    eapply tri_bind with (Q := fun _ s => parted r new (p :: D) (q :: H) s /\ first_of s new = Some q).
    { intros s u s' K E. rewrite upd_ring_rput in E. injection E as <- <-. split; [apply parted_rput; auto|]. rewrite first_rput, Pos.eqb_refl. reflexivity. }
    intros ?. eapply tri_bind with (Q := fun _ s => parted r new (p :: D) (q :: H) s /\ first_of s new = Some q).
    { apply tri_same; [nf_auto|]. intros s s' S (K & F). split; [eapply parted_same; eassumption|rewrite (same_first _ _ _ S); exact F]. }
    intros ?. eapply tri_bind with (Q := fun _ s => well_but (eq r) s /\ forall i, In i (p :: D) -> ring_of s i = Some r).
    { intros s u s' (K & F) E. destruct (parted_relabel r new q H (p :: D) s fuel u s' (parted_swap _ _ _ _ _ K) F E) as (W & M & _). auto. }
    intros ?. eapply tri_bind with (Q := fun _ s => well_ringed s).
    { intros s u s' (W & M) E. rewrite upd_ring_rput in E. injection E as <- <-.
      apply (parted_close r _ (p :: D) p); [apply but_rput; [exact W|congruence]|exact M|rewrite first_rput, Pos.eqb_refl; reflexivity|left; reflexivity]. }
    intros ?. apply tri_same; [nf_auto|]. intros s s'. apply well_same.
  - eapply tri_bind with (Q := fun _ s => well_ringed s \/ exists l, first_of s r = Some p /\ ends s p l /\ ~ In p l).
    { intros s u s' [(W & M)|(l & L & N)] E; rewrite upd_ring_rput in E; injection E as <- <-; [left|right].
      - apply (parted_close r _ [p] p); [apply but_rput; [exact W|congruence]|intros i [<-|[]]; exact M|rewrite first_rput, Pos.eqb_refl; reflexivity|left; reflexivity].
      - exists l. split; [rewrite first_rput, Pos.eqb_refl; reflexivity|]. split; [apply ends_rput; exact L|exact N]. }
    intros ? s u s' [W|(l & F & L & N)] E.
    + revert E. apply (tri_same (recalculate_stats fuel r) well_ringed); [nf_auto|intros ? ?; apply well_same|exact W].
    + exfalso. exact (recalculate_open s r p l fuel _ F L N E).
  - eapply tri_weak; [apply (tri_remove_one (fun _ => False))| |].
    + intros s. apply but_mono. intros k <-. auto.
    + cbv beta. intros ? s. apply but_none.
  - eapply tri_weak; [apply (tri_remove_one (fun _ => False))| |].
    + intros s. apply but_mono. intros k <-. auto.
    + cbv beta. intros ? s. apply but_none.
Qed.
Lemma well_same_ring fuel i j : i <> j ->
  tri (fun s => well_ringed s /\ exists r, ring_of s i = Some r /\ ring_of s j = Some r) (collinear_same_ring fuel i j) (fun _ => well_ringed).
Proof.
  intros N s u s' (W & r & Ri & Rj) E. unfold collinear_same_ring in E. rewrite (bind_run _ _ _ _ _ (nd_run s i)) in E.
  change (n_ring (node_at s i)) with (ring_of s i) in E. rewrite Ri in E. cbn [deref] in E. rewrite (bind_run _ _ _ r s) in E by reflexivity.
  destruct (well_at s i r W Ri) as (m & C & M).
  assert (I : In j m) by (apply M in Rj as [K|K]; [congruence|exact K]). apply in_split in I as (l1 & l2 & ->).
  unfold bind at 1 in E. destruct (collinear_path fuel i j s) as [[[[[s1 e1] s2] e2] t]| |] eqn:E1; try discriminate. cbv iota beta in E.
  destruct (path_same s r i l1 j l2 fuel s1 e1 s2 e2 t W M C E1) as (-> & (P1 & M1 & Q1 & A1 & B1) & P2 & M2 & Q2 & A2 & B2).
  destruct (cut_arcs i l1 j l2 s1 e1 s2 e2 P1 M1 Q1 P2 M2 Q2 (proj1 C) A1 B1 A2 B2) as (X2 & SG & X1 & SB & AR).
  unfold bind at 1 in E. destruct (fix_collinear_path fuel (s1, e1, s2, e2) s) as [[f t]| |] eqn:E2; try discriminate. cbv iota beta in E.
  pose proof (fix_same s r _ s1 e1 s2 e2 X2 SG X1 SB fuel f t W M C AR E2) as FS.
  exact (same_rest_well fuel r f t u s' FS E).
Qed.
