(** * The heap stays well ringed: [fix_collinear_path] *)
From Coq Require Import ZArith List Bool Lia FMapPositive Permutation.
From Coq Require Import Floats.SpecFloat.
From RecordUpdate Require Import RecordSet.
From Verif Require Import Py Monad Utils Geometry LinearRingM BoundM LocalMinimumM
     StateM PointNodeM RingM SweepM TopologyM WagyuM HoareP SpecRing SpecHeap SpecRings SweepFrameP OrderP VatP FuelP PipP SortP
     CircleP HeapOpsP StatsP SplitP NodeFrameP RingedP RingedTopP RingedCutP RingedPathP.
Import ListNotations RecordSetNotations.
Open Scope Z_scope.

Lemma do_part s x K e D fuel u s' : circle s (x :: K ++ e :: D) -> detach_do fuel x e s = Ok (u, s') -> detached (List.last D e) (x :: K) s s'.
Proof.
  intros C E. destruct (circle_path s x K e D C) as (A1 & A2 & A3 & A4 & A5).
  apply (detach_do_run e fuel K x _ s u s' A1 A2 A3); [right; exact A4|intros I; apply A5; right; exact I|exact E].
Qed.
Lemma do_whole s x K fuel u s' : circle s (x :: K) -> detach_do fuel x x s = Ok (u, s') -> detached (List.last K x) (x :: K) s s'.
Proof.
  intros C E. destruct (circle_whole s x K C) as (A1 & A2 & A3 & A4).
  apply (detach_do_run x fuel K x _ s u s' A1 A2 A3); [left; exact A4|inversion A3; assumption|exact E].
Qed.
Lemma dt_killed p m s s' : detached p m s s' -> killed m s s'. Proof. intros D j. apply (dt_ring _ _ _ _ D). Qed.
Lemma dt_outside p m s s' l : detached p m s s' -> In p l -> (forall j, In j m -> In j l) -> outside l s s'.
Proof.
  intros D P I j N. split.
  - apply (dt_next_out p m s s' j D); [intros ->; contradiction|intros J; apply N; apply I; exact J].
  - apply (dt_out p m s s' j D). intros J. apply N. apply I. exact J.
Qed.
Lemma outside_trans l s1 s2 s3 : outside l s1 s2 -> outside l s2 s3 -> outside l s1 s3.
Proof. intros A B j N. destruct (A j N), (B j N). split; congruence. Qed.
Lemma outside_slink l s p e : In p l -> In e l -> outside l s (slink s p e).
Proof.
  intros P E j N. rewrite next_slink, prev_slink, !eqb_no; [auto| |]; intros ->; contradiction.
Qed.
Lemma killed_app m1 m2 s1 s2 s3 : killed m1 s1 s2 -> killed m2 s2 s3 -> killed (m1 ++ m2) s1 s3.
Proof.
  intros A B j. rewrite (B j), (A j). destruct (in_dec Pos.eq_dec j m2) as [I|I], (in_dec Pos.eq_dec j m1) as [J|J], (in_dec Pos.eq_dec j (m1 ++ m2)) as [K|K];
    try reflexivity; rewrite in_app_iff in K; tauto.
Qed.
Lemma killed_slink m s1 s2 p e : killed m s1 s2 -> killed m s1 (slink s2 p e).
Proof. intros A j. rewrite ring_slink. apply A. Qed.
Lemma circle_chain s x K e D : circle s (x :: K ++ e :: D) -> chained s e (D ++ [x]) /\ NoDup (e :: D) /\ (forall j, In j (x :: K) -> ~ In j (e :: D)).
Proof.
  intros C. pose proof C as (ND & CH). rewrite <- app_assoc in CH. cbn [app] in CH. apply chained_app in CH as (_ & CH).
  apply (nodup_app (x :: K) (e :: D)) in ND as (_ & N2 & A). auto.
Qed.
(** one path is removed from a circle and the ends are joined *)
Lemma close_one s x K e D t : circle s (x :: K ++ e :: D) -> detached (List.last D e) (x :: K) s t ->
  circle (slink t (List.last D e) e) (e :: D).
Proof.
  intros C DT. destruct (circle_chain s x K e D C) as (CH & ND & A).
  assert (NI : forall j, In j (e :: D) -> ~ In j (x :: K)) by (intros j I J; exact (A j J I)).
  apply (close_circle s _ e D x CH ND).
  - intros j J. rewrite prev_slink, eqb_no.
    + apply (dt_out _ _ _ _ j DT). apply NI. right. exact J.
    + intros ->. inversion ND. contradiction.
  - intros j J N. rewrite next_slink, eqb_no by exact N. apply (dt_next_out _ _ _ _ j DT N). apply NI. exact J.
  - split; [rewrite next_slink, Pos.eqb_refl; reflexivity|rewrite prev_slink, Pos.eqb_refl; reflexivity].
Qed.
Definition spike_prog (fuel : nat) (x e : nid) : prog (option nid * option nid) :=
  (p <- prev_of x ;; detach_until fuel (Some x) (Some e) ;; link p e ;; ret (Some e, None))%M.
Lemma fix_spike s x K e D fuel f s' : circle s (x :: K ++ e :: D) -> spike_prog fuel x e s = Ok (f, s') ->
  f = (Some e, None) /\ circle s' (e :: D) /\ killed (x :: K) s s' /\ outside (x :: K ++ e :: D) s s' /\ same_but_nodes s s'.
Proof.
  intros C E. destruct (circle_path s x K e D C) as (A1 & A2 & A3 & A4 & A5). unfold spike_prog in E.
  rewrite (bind_run _ _ _ _ _ (prev_of_run s x _ A1)) in E.
  unfold bind at 1 in E. destruct (detach_until fuel (Some x) (Some e) s) as [[u t]| |] eqn:E1; try discriminate.
  assert (DT : detached (List.last D e) (x :: K) s t).
  { apply (detach_until_run (Some e) fuel K x _ s u t A1 A2 A3 A4); [intros y Y; injection Y as <-; exact A5|exact E1]. }
  cbv iota beta in E. rewrite (bind_run _ _ _ _ _ (link_run t _ e)) in E. injection E as <- <-.
  assert (IP : In (List.last D e) (x :: K ++ e :: D)) by (right; apply in_app_iff; right; apply CircleP.last_in).
  split; [reflexivity|]. split; [apply (close_one s x K); assumption|]. split; [apply killed_slink; apply (dt_killed _ _ _ _ DT)|]. split.
  - eapply outside_trans; [apply (dt_outside _ _ _ _ _ DT IP); intros j [<-|J]; [left; reflexivity|right; apply in_app_iff; auto]|].
    apply outside_slink; [exact IP|right; apply in_app_iff; right; left; reflexivity].
  - eapply same_but_nodes_trans; [apply DT|apply sbn_slink].
Qed.
Lemma fix_both s x K fuel u s' : circle s (x :: K) -> detach_until fuel (Some x) None s = Ok (u, s') ->
  killed (x :: K) s s' /\ outside (x :: K) s s' /\ same_but_nodes s s'.
Proof.
  intros C E. destruct (circle_whole s x K C) as (A1 & A2 & A3 & A4).
  assert (DT : detached (List.last K x) (x :: K) s s').
  { apply (detach_until_run None fuel K x _ s u s' A1 A2 A3 A4); [discriminate|exact E]. }
  split; [apply (dt_killed _ _ _ _ DT)|]. split; [|apply DT]. apply (dt_outside _ _ _ _ _ DT); [apply CircleP.last_in|auto].
Qed.
(** the two paths without spikes *)
Definition paths_prog (fuel : nat) (start_1 end_1 start_2 end_2 : nid) : prog (option nid * option nid) :=
  (p1 <- prev_of start_1 ;;
   p2 <- prev_of start_2 ;;
   detach_do fuel start_1 end_1 ;;
   detach_do fuel start_2 end_2 ;;
   if Pos.eqb start_1 end_1 && Pos.eqb start_2 end_2 then ret (None, None)
   else if Pos.eqb start_1 end_1 then (link p2 end_2 ;; ret (Some end_2, None))
   else if Pos.eqb start_2 end_2 then (link p1 end_1 ;; ret (Some end_1, None))
   else (link p1 end_2 ;; link p2 end_1 ;; ret (Some end_1, Some end_2)))%M.
Lemma paths_run fuel s1 e1 s2 e2 p1 p2 s f s' : n_prev (node_at s s1) = Some p1 -> n_prev (node_at s s2) = Some p2 ->
  paths_prog fuel s1 e1 s2 e2 s = Ok (f, s') ->
  exists t1 t2, detach_do fuel s1 e1 s = Ok (tt, t1) /\ detach_do fuel s2 e2 t1 = Ok (tt, t2) /\
    (f, s') = (if Pos.eqb s1 e1 && Pos.eqb s2 e2 then ((None, None), t2)
               else if Pos.eqb s1 e1 then ((Some e2, None), slink t2 p2 e2)
               else if Pos.eqb s2 e2 then ((Some e1, None), slink t2 p1 e1)
               else ((Some e1, Some e2), slink (slink t2 p1 e2) p2 e1)).
Proof.
  intros H1 H2 E. unfold paths_prog in E.
  rewrite (bind_run _ _ _ _ _ (prev_of_run s s1 _ H1)), (bind_run _ _ _ _ _ (prev_of_run s s2 _ H2)) in E.
  unfold bind at 1 in E. destruct (detach_do fuel s1 e1 s) as [[[] t1]| |] eqn:E1; try discriminate. cbv iota beta in E.
  unfold bind at 1 in E. destruct (detach_do fuel s2 e2 t1) as [[[] t2]| |] eqn:E2; try discriminate. cbv iota beta in E.
  exists t1, t2. split; [reflexivity|]. split; [exact E2|].
  destruct (Pos.eqb s1 e1), (Pos.eqb s2 e2); cbn [andb] in *; injection E as <- <-; reflexivity.
Qed.
Lemma detach_do_dead fuel i e s x : n_prev (node_at s i) = None -> detach_do fuel i e s <> Ok x.
Proof.
  intros H. destruct fuel as [|fuel]; [discriminate|]. change (loopM (S fuel) (do_body e) i s <> Ok x). rewrite loopM_S.
  unfold do_body at 1, bind at 1. destruct (detach i s) as [[n t]| |] eqn:E; [|discriminate..]. exfalso. exact (detach_none s i _ H E).
Qed.
Lemma chained_frame_in s s' c l : (forall j, In j (c :: l) -> n_next (node_at s' j) = n_next (node_at s j) /\ n_prev (node_at s' j) = n_prev (node_at s j)) ->
  chained s c l -> chained s' c l.
Proof.
  intros H. apply chained_frame; [apply H; left; reflexivity|intros j J; apply H; right; exact J|].
  intros j J. apply H. right. apply in_removelast. exact J.
Qed.
(** both paths in one circle *)
Lemma fix_two s s1 B e1 D s2 G e2 H fuel f s' : circle s (e1 :: D ++ s2 :: G ++ e2 :: H ++ s1 :: B) ->
  paths_prog fuel s1 e1 s2 e2 s = Ok (f, s') ->
  f = (Some e1, Some e2) /\ circle s' (e1 :: D) /\ circle s' (e2 :: H) /\ killed ((s1 :: B) ++ s2 :: G) s s' /\
  outside (e1 :: D ++ s2 :: G ++ e2 :: H ++ s1 :: B) s s' /\ same_but_nodes s s'.
Proof.
  intros C E.
  assert (C1 : circle s (s1 :: B ++ e1 :: (D ++ s2 :: G ++ e2 :: H))).
  { pose proof (circle_rotate s (e1 :: D ++ s2 :: G ++ e2 :: H) (s1 :: B)) as X. cbn [app] in X. repeat (rewrite <- app_assoc in X; cbn [app] in X). exact (X C). }
  assert (C2 : circle s (s2 :: G ++ e2 :: (H ++ s1 :: B ++ e1 :: D))).
  { pose proof (circle_rotate s (e1 :: D) (s2 :: G ++ e2 :: H ++ s1 :: B)) as X. cbn [app] in X. repeat (rewrite <- app_assoc in X; cbn [app] in X). exact (X C). }
  set (W := e1 :: D ++ s2 :: G ++ e2 :: H ++ s1 :: B) in *.
  pose proof C as (ND & CH). unfold W in ND.
  assert (ND' : NoDup ((e1 :: D) ++ (s2 :: G) ++ (e2 :: H) ++ s1 :: B)) by exact ND.
  apply nodup_app in ND' as (N1 & ND' & A1). apply nodup_app in ND' as (N2 & ND' & A2). apply nodup_app in ND' as (N3 & N4 & A3).
  assert (DJ1 : forall j, In j (e1 :: D) -> ~ In j (s2 :: G) /\ ~ In j (e2 :: H) /\ ~ In j (s1 :: B)).
  { intros j J. pose proof (A1 j J) as K. rewrite !in_app_iff in K. tauto. }
  assert (DJ2 : forall j, In j (s2 :: G) -> ~ In j (e2 :: H) /\ ~ In j (s1 :: B)).
  { intros j J. pose proof (A2 j J) as K. rewrite !in_app_iff in K. tauto. }
  set (p1 := List.last H e2). set (p2 := List.last D e1).
  assert (IP1 : In p1 (e2 :: H)) by apply CircleP.last_in. assert (IP2 : In p2 (e1 :: D)) by apply CircleP.last_in.
  destruct (circle_path s s1 B e1 _ C1) as (P1 & _). destruct (circle_path s s2 G e2 _ C2) as (P2 & Q2 & Q3 & Q4 & Q5).
  assert (L1 : List.last (D ++ s2 :: G ++ e2 :: H) e1 = p1) by (rewrite last_last_app, last_last_app; reflexivity).
  assert (L2 : List.last (H ++ s1 :: B ++ e1 :: D) e2 = p2) by (rewrite last_last_app, last_last_app; reflexivity).
  rewrite L1 in P1. rewrite L2 in P2, Q2, Q4.
  destruct (paths_run fuel s1 e1 s2 e2 p1 p2 s f s' P1 P2 E) as (t1 & t2 & E1 & E2 & EF).
  pose proof (do_part s s1 B e1 _ fuel tt t1 C1 E1) as DT1. rewrite L1 in DT1.
  assert (KEEP : forall j, ~ In j (s1 :: B) -> j <> p1 -> n_next (node_at t1 j) = n_next (node_at s j) /\ n_prev (node_at t1 j) = n_prev (node_at s j)).
  { intros j J N. split; [apply (dt_next_out _ _ _ _ j DT1 N J)|apply (dt_out _ _ _ _ j DT1 J)]. }
  assert (S2 : forall j, In j (s2 :: G) -> ~ In j (s1 :: B) /\ j <> p1).
  { intros j J. destruct (DJ2 j J) as (X & Y). split; [exact Y|]. intros ->. contradiction. }
  assert (DT2 : detached p2 (s2 :: G) t1 t2).
  { apply (detach_do_run e2 fuel G s2 p2 t1 tt t2).
    - rewrite (proj2 (KEEP s2 (proj1 (S2 s2 (or_introl eq_refl))) (proj2 (S2 s2 (or_introl eq_refl))))). exact P2.
    - revert Q2. apply chained_frame_in. intros j J. rewrite !next_snext, !prev_snext. destruct (S2 j J) as (X & Y). destruct (KEEP j X Y) as (-> & ->). auto.
    - exact Q3.
    - right. rewrite next_snext in *. destruct (Pos.eqb (List.last G s2) p2); [discriminate|].
      destruct (S2 _ (CircleP.last_in s2 G)) as (X & Y). rewrite (proj1 (KEEP _ X Y)). exact Q4.
    - intros I. apply Q5. right. exact I.
    - exact E2. }
  assert (NE1 : s1 <> e1) by (intros ->; destruct (DJ1 e1 (or_introl eq_refl)) as (_ & _ & X); apply X; left; reflexivity).
  assert (NE2 : s2 <> e2) by (intros ->; destruct (DJ2 e2 (or_introl eq_refl)) as (X & _); apply X; left; reflexivity).
  rewrite (eqb_no _ _ NE1), (eqb_no _ _ NE2) in EF. cbn [andb] in EF. injection EF as -> ->.
  assert (NE12 : e1 <> e2) by (intros ->; destruct (DJ1 e2 (or_introl eq_refl)) as (_ & X & _); apply X; left; reflexivity).
  assert (NP : p1 <> p2) by (intros X; destruct (DJ1 p2 IP2) as (_ & Y & _); apply Y; rewrite <- X; exact IP1).
  (* links of the vertices that stay *)
  assert (ST : forall j, In j (e1 :: D) \/ In j (e2 :: H) -> ~ In j (s1 :: B) /\ ~ In j (s2 :: G)).
  { intros j [J|J]; [destruct (DJ1 j J) as (X & _ & Y); auto|]. split; [apply A3; exact J|]. intros X. destruct (DJ2 j X) as (Y & _). contradiction. }
  assert (PV : forall j, In j (e1 :: D) \/ In j (e2 :: H) -> j <> e1 -> j <> e2 -> n_prev (node_at (slink (slink t2 p1 e2) p2 e1) j) = n_prev (node_at s j)).
  { intros j J X1 X2. rewrite !prev_slink, !eqb_no by assumption. destruct (ST j J) as (Y1 & Y2).
    rewrite (proj2 (dt_out _ _ _ _ j DT2 Y2)). apply (dt_out _ _ _ _ j DT1 Y1). }
  assert (NX : forall j, In j (e1 :: D) \/ In j (e2 :: H) -> j <> p1 -> j <> p2 -> n_next (node_at (slink (slink t2 p1 e2) p2 e1) j) = n_next (node_at s j)).
  { intros j J X1 X2. rewrite !next_slink, !eqb_no by assumption. destruct (ST j J) as (Y1 & Y2).
    rewrite (dt_next_out _ _ _ _ j DT2 X2 Y2). apply (dt_next_out _ _ _ _ j DT1 X1 Y1). }
  assert (CHD : chained s e1 (D ++ [s2])).
  { unfold W in CH. cbn [app] in CH. rewrite <- app_assoc in CH. cbn [app] in CH. apply chained_app in CH. apply CH. }
  assert (CHH : chained s e2 (H ++ [s1])).
  { destruct C2 as (_ & C2). rewrite <- app_assoc in C2. cbn [app] in C2. apply chained_app in C2 as (_ & C2). rewrite <- app_assoc in C2. cbn [app] in C2. apply chained_app in C2. apply C2. }
  split; [reflexivity|]. split; [|split; [|split; [|split]]].
  - apply (close_circle s _ e1 D s2 CHD N1); fold p2.
    + intros j J. apply PV; [left; right; exact J|intros ->; inversion N1; contradiction|].
      intros ->. destruct (DJ1 e2 (or_intror J)) as (_ & X & _). apply X. left. reflexivity.
    + intros j J N. apply NX; [auto| |exact N]. intros ->. destruct (DJ1 p1 J) as (_ & X & _). contradiction.
    + split; [rewrite next_slink, Pos.eqb_refl; reflexivity|rewrite prev_slink, Pos.eqb_refl; reflexivity].
  - apply (close_circle s _ e2 H s1 CHH N3); fold p1.
    + intros j J. apply PV; [right; right; exact J| |intros ->; inversion N3; contradiction].
      intros ->. destruct (DJ1 e1 (or_introl eq_refl)) as (_ & X & _). apply X. right. exact J.
    + intros j J N. apply NX; [auto|exact N|]. intros ->. destruct (DJ1 p2 IP2) as (_ & X & _). contradiction.
    + split; [rewrite next_slink, (eqb_no _ _ NP), next_slink, Pos.eqb_refl; reflexivity|].
      rewrite prev_slink, (eqb_no e2 e1) by congruence. rewrite prev_slink, Pos.eqb_refl. reflexivity.
  - do 2 apply killed_slink. apply killed_app with (s2 := t1); [apply (dt_killed _ _ _ _ DT1)|apply (dt_killed _ _ _ _ DT2)].
  - assert (IW : forall j, In j (e1 :: D) \/ In j (s2 :: G) \/ In j (e2 :: H) \/ In j (s1 :: B) -> In j W).
    { intros j J. unfold W. change (In j ((e1 :: D) ++ (s2 :: G) ++ (e2 :: H) ++ s1 :: B)). rewrite !in_app_iff. exact J. }
    eapply outside_trans; [apply (dt_outside _ _ _ _ _ DT1); intros; apply IW; auto|].
    eapply outside_trans; [apply (dt_outside _ _ _ _ _ DT2); intros; apply IW; auto|].
    eapply outside_trans; apply outside_slink; apply IW; cbn; auto.
  - eapply same_but_nodes_trans; [apply DT1|]. eapply same_but_nodes_trans; [apply DT2|]. eapply same_but_nodes_trans; apply sbn_slink.
Qed.
(** the whole circle is taken by the first path *)
Lemma fix_dead s s1 A s2 e2 fuel f s' : circle s (s1 :: A) -> In s2 (s1 :: A) -> paths_prog fuel s1 s1 s2 e2 s = Ok (f, s') -> False.
Proof.
  intros C I E. destruct (circle_whole s s1 A C) as (P1 & _).
  assert (exists p2, n_prev (node_at s s2) = Some p2) as (p2 & P2).
  { destruct C as (_ & C). apply in_split in I as (l1 & l2 & I). destruct l1 as [|a l1].
    - injection I as -> ->. eauto.
    - injection I as <- ->. rewrite <- app_assoc in C. cbn [app] in C. apply chained_app in C as (C & _). apply chained_last in C. exists (List.last l1 s1). apply C. }
  destruct (paths_run fuel s1 s1 s2 e2 _ p2 s f s' P1 P2 E) as (t1 & t2 & E1 & E2 & _).
  pose proof (do_whole s s1 A fuel tt t1 C E1) as DT. destruct (dt_in _ _ _ _ s2 DT I) as (_ & X). exact (detach_do_dead fuel s2 e2 t1 _ X E2).
Qed.
Lemma chained_ends_in s s' c l a : chained s c (l ++ [a]) -> NoDup (c :: l) ->
  n_next (node_at s' (List.last l c)) = None -> (forall i, In i (c :: l) -> i <> List.last l c -> n_next (node_at s' i) = n_next (node_at s i)) ->
  ends s' c l.
Proof.
  revert c. induction l as [|d l IH]; intros c C ND HN HO; [exact HN|].
  cbn [app chained] in C. destruct C as ((L & _) & C). inversion ND as [|? ? Hc ND']. subst.
  assert (EL : List.last (d :: l) c = List.last l d) by apply last_cons_hd.
  rewrite EL in *. split.
  - rewrite HO; [exact L|left; reflexivity|]. intros ->. apply Hc. apply CircleP.last_in.
  - apply IH; auto. intros i I. apply HO. right. exact I.
Qed.
(** the second path takes the rest of the circle: an open chain stays *)
Lemma fix_open s s1 B e1 D e2 H fuel f s' : circle s (e1 :: D ++ e2 :: H ++ s1 :: B) ->
  paths_prog fuel s1 e1 e2 e2 s = Ok (f, s') -> f = (Some e1, None) /\ ends s' e1 D /\ ~ In e1 D.
Proof.
  intros C E.
  assert (C1 : circle s (s1 :: B ++ e1 :: (D ++ e2 :: H))).
  { pose proof (circle_rotate s (e1 :: D ++ e2 :: H) (s1 :: B)) as X. cbn [app] in X. repeat (rewrite <- app_assoc in X; cbn [app] in X). exact (X C). }
  assert (C2 : circle s (e2 :: H ++ s1 :: (B ++ e1 :: D))).
  { pose proof (circle_rotate s (e1 :: D) (e2 :: H ++ s1 :: B)) as X. cbn [app] in X. repeat (rewrite <- app_assoc in X; cbn [app] in X). exact (X C). }
  pose proof C as (ND & CH). assert (ND' : NoDup ((e1 :: D) ++ (e2 :: H) ++ s1 :: B)) by exact ND.
  apply nodup_app in ND' as (N1 & ND' & A1). apply nodup_app in ND' as (N3 & N4 & A3).
  assert (DJ1 : forall j, In j (e1 :: D) -> ~ In j (e2 :: H) /\ ~ In j (s1 :: B)).
  { intros j J. pose proof (A1 j J) as K. rewrite !in_app_iff in K. tauto. }
  set (p1 := List.last H e2). set (p2 := List.last D e1).
  assert (IP1 : In p1 (e2 :: H)) by apply CircleP.last_in. assert (IP2 : In p2 (e1 :: D)) by apply CircleP.last_in.
  destruct (circle_path s s1 B e1 _ C1) as (P1 & _). destruct (circle_path s e2 H s1 _ C2) as (P2 & Q2 & Q3 & _ & _).
  assert (L1 : List.last (D ++ e2 :: H) e1 = p1) by (rewrite last_last_app; reflexivity).
  assert (L2 : List.last (B ++ e1 :: D) s1 = p2) by (rewrite last_last_app; reflexivity).
  rewrite L1 in P1. rewrite L2 in P2, Q2.
  destruct (paths_run fuel s1 e1 e2 e2 p1 p2 s f s' P1 P2 E) as (t1 & t2 & E1 & E2 & EF).
  pose proof (do_part s s1 B e1 _ fuel tt t1 C1 E1) as DT1. rewrite L1 in DT1.
  assert (PR : forall j, ~ In j (s1 :: B) -> n_prev (node_at t1 j) = n_prev (node_at s j)) by (intros j J; apply (dt_out _ _ _ _ j DT1 J)).
  assert (NP : p1 <> p2) by (intros X; destruct (DJ1 p2 IP2) as (Y & _); apply Y; rewrite <- X; exact IP1).
  assert (DT2 : detached p2 (e2 :: H) t1 t2).
  { apply (detach_do_run e2 fuel H e2 p2 t1 tt t2).
    - rewrite PR by (apply A3; left; reflexivity). exact P2.
    - destruct H as [|h H]; [exact Logic.I|]. revert Q2.
      assert (KN : forall j, In j (removelast (e2 :: h :: H)) -> n_next (node_at (snext t1 p2 None) j) = n_next (node_at (snext s p2 None) j)).
      { intros j J. rewrite !next_snext. destruct (Pos.eqb j p2); [reflexivity|]. apply (dt_next_out _ _ _ _ j DT1).
        - intros ->. rewrite (app_removelast_last e2 (l := e2 :: h :: H)) in N3 by discriminate. apply nodup_app in N3 as (_ & _ & X).
          apply (X p1 J). left. unfold p1. rewrite last_cons_hd. reflexivity.
        - apply A3. apply in_removelast. exact J. }
      apply chained_frame.
      + apply KN. left. reflexivity.
      + intros j J. rewrite !prev_snext. apply PR. apply A3. right. exact J.
      + intros j J. apply KN. right. exact J.
    - exact Q3.
    - left. fold p1. rewrite next_snext. rewrite eqb_no by exact NP. apply (dt_next_p _ _ _ _ DT1).
    - inversion N3. assumption.
    - exact E2. }
  assert (NE1 : s1 <> e1) by (intros ->; destruct (DJ1 e1 (or_introl eq_refl)) as (_ & X); apply X; left; reflexivity).
  rewrite (eqb_no _ _ NE1), Pos.eqb_refl in EF. cbn [andb] in EF. injection EF as -> ->.
  split; [reflexivity|]. split; [|inversion N1; assumption].
  assert (NX : forall j, In j (e1 :: D) -> j <> p2 -> n_next (node_at (slink t2 p1 e1) j) = n_next (node_at s j)).
  { intros j J X2. destruct (DJ1 j J) as (Y1 & Y2). assert (X1 : j <> p1) by (intros ->; contradiction).
    rewrite next_slink, eqb_no by assumption. rewrite (dt_next_out _ _ _ _ j DT2 X2 Y1). apply (dt_next_out _ _ _ _ j DT1 X1 Y2). }
  assert (N0 : n_next (node_at (slink t2 p1 e1) p2) = None).
  { rewrite next_slink, eqb_no by congruence. apply (dt_next_p _ _ _ _ DT2). }
  apply (chained_ends_in s _ e1 D e2); [|exact N1|exact N0|exact NX].
  rewrite <- app_assoc in CH. cbn [app] in CH. apply chained_app in CH as (CH & _). exact CH.
Qed.

(** the statistics of an open chain cannot be computed: the walk runs into [None] *)
Lemma stats_open s start fuel x : forall l c acc, ends s c l -> ~ In start l -> loopM fuel (stats_body start) (c, acc) s <> Ok x.
Proof.
  induction fuel as [|fuel IH]; intros l c acc H N; [discriminate|]. rewrite loopM_S.
  unfold stats_body at 1. rewrite (bind_run _ _ _ _ _ (nd_run s c)). unfold bind at 1.
  destruct (n_prev (node_at s c)) as [p|]; cbn [deref ret raise]; [|discriminate].
  rewrite (bind_run _ _ _ _ _ (nd_run s p)). cbv zeta. destruct l as [|d l]; cbn [ends] in H.
  - rewrite H. cbn. discriminate.
  - destruct H as (H1 & H2). rewrite H1. cbn [opt_is]. rewrite eqb_no by (intros ->; apply N; left; reflexivity). cbn [deref].
    rewrite (bind_run _ _ _ d s) by reflexivity. cbn [ret]. apply (IH l); [exact H2|]. intros I. apply N. right. exact I.
Qed.
Lemma node_stats_open s c l fuel x : ends s c l -> ~ In c l -> node_stats fuel c s <> Ok x.
Proof.
  intros H N. unfold node_stats. rewrite (bind_run _ _ _ _ _ (nd_run s c)). unfold bind at 1.
  change (match loopM fuel (stats_body c) (c, (0, O, Box (npos (node_at s c)) (npos (node_at s c)))) s with Ok (a, s') => (fun r : Z * nat * box => let '(area, size, bx) := r in (a <- lift (int_truediv area 2) ;; ret (Stats a size bx))%M) a s' | Raise e => Raise e | NoFuel => NoFuel end <> Ok x).
  pose proof (stats_open s c fuel) as K. destruct (loopM _ _ _ _) as [y| |] eqn:E; [|discriminate..].
  exfalso. exact (K y l c _ H N E).
Qed.
Lemma recalculate_open s r c l fuel x : first_of s r = Some c -> ends s c l -> ~ In c l -> recalculate_stats fuel r s <> Ok x.
Proof.
  intros F H N. unfold recalculate_stats. rewrite (bind_run _ _ _ _ _ (rg_run s r)). change (r_node (ring_at s r)) with (first_of s r). rewrite F.
  unfold bind at 1. pose proof (node_stats_open s c l fuel) as K. destruct (node_stats fuel c s) as [y| |] eqn:E; [|discriminate..].
  exfalso. exact (K y H N eq_refl).
Qed.
