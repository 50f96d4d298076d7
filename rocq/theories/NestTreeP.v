(** * The ring tree is built by orientation, area and containment *)
From Coq Require Import ZArith List Bool Lia FMapPositive Permutation Reals Lra Sorting.Sorted.
From Coq Require Import Floats.SpecFloat.
From RecordUpdate Require Import RecordSet.
From Flocq Require Import Core IEEE754.BinarySingleNaN.
From Verif Require Import Py Monad Utils Geometry LinearRingM BoundM LocalMinimumM
     StateM PointNodeM RingM SweepM TopologyM WagyuM HoareP Spec SpecRing SpecHeap SpecRings SpecTree SpecNest SweepFrameP OrderP VatP FuelP PipP SortP ListP PointersP
     FloatP UlpP MiscP IntersectP CircleP CalmP HeapOpsP StatsP SplitP NodeFrameP RingedP RingedTopP RingedCutP RingedTreeP TreeP NestP SpecNest.
Import ListNotations RecordSetNotations.
Open Scope Z_scope.

(** ** Frames *)
Definition stats_same (s s' : st) (q : rid) : Prop :=
  r_size (ring_at s' q) = r_size (ring_at s q) /\ r_box (ring_at s' q) = r_box (ring_at s q) /\
  r_area (ring_at s' q) = r_area (ring_at s q) /\ r_hole (ring_at s' q) = r_hole (ring_at s q).
Lemma parent_at s q : parent_of s q = r_parent (ring_at s q). Proof. reflexivity. Qed.
(** only lists of children change *)
Definition shelf (s s' : st) : Prop :=
  same_ringed s s' /\ forall q, stats_same s s' q /\ parent_of s' q = parent_of s q.
#[export] Instance shelf_pre : PreOrd shelf.
Proof.
  split.
  - intros s. split; [apply R_refl|]. intros q. split; [repeat split|reflexivity].
  - intros s1 s2 s3 (A & A') (B & B'). split; [eapply R_trans; eassumption|]. intros q.
    destruct (A' q) as ((A1 & A2 & A3 & A4) & A5), (B' q) as ((B1 & B2 & B3 & B4) & B5).
    split; [split; [|split; [|split]]|]; congruence.
Qed.
#[export] Hint Resolve shelf_pre : pres.
Lemma shelf_un {A} (m : prog A) : pres unchanged m -> pres shelf m.
Proof. intros H s a s' E. rewrite (H s a s' E). apply R_refl. Qed.
Lemma shelf_rg r : pres shelf (rg r). Proof. apply shelf_un. pres_auto. Qed.
Lemma shelf_children_of o : pres shelf (children_of o).
Proof. apply shelf_un. destruct o; unfold children_of; pres_auto. Qed.
Lemma shelf_set_children o l : pres shelf (set_children o l).
Proof.
  intros s u s' E. split; [apply (nf_set_children same_ringed o l s u s' E)|].
  destruct o as [r|]; unfold set_children in E.
  - rewrite upd_ring_rput in E. injection E as _ <-. intros q. unfold stats_same. rewrite !parent_at.
    rewrite ring_at_rput. destruct (Pos.eqb_spec r q) as [<-|_]; repeat split.
  - injection E as _ <-. intros q. repeat split.
Qed.
#[export] Hint Resolve shelf_rg shelf_children_of shelf_set_children : pres.
Lemma shelf_remove r o : pres shelf (remove_from_children r o). Proof. un remove_from_children. Qed.
Lemma shelf_set r o : pres shelf (set_to_children r o). Proof. un set_to_children. Qed.
Lemma shelf_clear o k : pres shelf (clear_child_at o k). Proof. un clear_child_at. Qed.
#[export] Hint Resolve shelf_remove shelf_set shelf_clear : pres.
Lemma shelf_iter fuel o body : (forall k r, pres shelf (body k r)) -> pres shelf (iter_children fuel o body).
Proof. intros H. unfold iter_children. pres_auto. Qed.
Lemma in_order_shelf s s' : shelf s s' -> in_order s -> in_order s'.
Proof. intros (H & K) I. apply (in_order_same s); [exact H| |exact I]. intros q _. right. left. apply K. Qed.

(** outlines do not change *)
Lemma same_outline s s' r vs : same_ringed s s' -> outline_of s r vs <-> outline_of s' r vs.
Proof.
  intros H. assert (V : forall l, vertices s' l = vertices s l) by (intros l; apply map_ext; intros i; rewrite (proj1 H i); reflexivity).
  unfold outline_of. split; intros (n & l & F & C & E); exists n, l; rewrite (same_first _ _ _ H) in *.
  - rewrite V. split; [exact F|]. split; [apply (same_circle s); assumption|exact E].
  - rewrite V in E. split; [exact F|]. split; [|exact E]. apply (same_circle s'); [|exact C].
    destruct H as (H1 & H2 & H3 & H4 & H5). repeat split; symmetry; try apply H1; try assumption; apply H5.
Qed.
(** what the placement of the ring [r] depends on *)
Definition as_good (s s' : st) (q : rid) : Prop := forall vs, outline_of s q vs <-> outline_of s' q vs.
Lemma abs_good s s' q a : as_good s s' q -> abs_area s q a <-> abs_area s' q a.
Proof. intros G. unfold abs_area. split; intros (vs & f & O & E); exists vs, f; apply G in O; auto. Qed.
Lemma exterior_good s s' q : as_good s s' q -> exterior s q <-> exterior s' q.
Proof. intros G. unfold exterior. split; intros (vs & O & E); exists vs; apply G in O; auto. Qed.
Lemma hole_good s s' q : as_good s s' q -> hole s q <-> hole s' q.
Proof. intros G. unfold hole. split; intros (vs & O & E); exists vs; apply G in O; auto. Qed.
Lemma points_good s s' q : as_good s s' q -> has_points s q <-> has_points s' q.
Proof. intros G. unfold has_points. split; intros (vs & O); exists vs; apply G in O; auto. Qed.
Lemma opposite_good s s' r q : as_good s s' r -> as_good s s' q -> opposite s r q <-> opposite s' r q.
Proof.
  intros G G'. unfold opposite. pose proof (exterior_good _ _ _ G). pose proof (exterior_good _ _ _ G').
  pose proof (hole_good _ _ _ G). pose proof (hole_good _ _ _ G'). tauto.
Qed.
Lemma lies_good s s' r q b : as_good s s' r -> as_good s s' q -> lies_in s r q b <-> lies_in s' r q b.
Proof.
  intros G G'. unfold lies_in. split; intros (us & vs & x & y & U & V & X & Y & H); exists us, vs, x, y;
    (split; [apply G; exact U|]); (split; [apply G'; exact V|]); (split; [apply (abs_good _ _ _ _ G); exact X|]); (split; [apply (abs_good _ _ _ _ G'); exact Y|]); exact H.
Qed.
Lemma placed_good s s' l r : as_good s s' r -> (forall q, In q l -> as_good s s' q) -> parent_of s' r = parent_of s r ->
  placed s l r -> placed s' l r.
Proof.
  intros G H P. unfold placed. rewrite P.
  assert (K : forall m, (forall q, In q m -> In q l) -> (forall q, In q m -> has_points s q -> opposite s r q -> lies_in s r q false) ->
    forall q, In q m -> has_points s' q -> opposite s' r q -> lies_in s' r q false).
  { intros m Hm A q Hq P' O'. pose proof (H q (Hm q Hq)) as Gq. apply (lies_good s s' r q false G Gq). apply A; [exact Hq| |].
    - apply (points_good _ _ _ Gq). exact P'.
    - apply (opposite_good _ _ _ _ G Gq). exact O'. }
  destruct (parent_of s r) as [p|].
  - intros (l1 & l2 & -> & O & L & Q). assert (Gp : as_good s s' p) by (apply H; rewrite in_app_iff; right; left; reflexivity).
    exists l1, l2. split; [reflexivity|]. split; [apply (opposite_good _ _ _ _ G Gp); exact O|]. split; [apply (lies_good _ _ _ _ _ G Gp); exact L|].
    apply K; [|exact Q]. intros q Hq. rewrite in_app_iff. right. right. exact Hq.
  - intros (E & Q). split; [apply (exterior_good _ _ _ G); exact E|]. apply K; auto.
Qed.
(** what the processing of the ring [r] may change *)
Definition only_ring (r : rid) (s s' : st) : Prop :=
  (forall i, ring_of s i <> Some r -> node_at s' i = node_at s i) /\
  s_rnext s' = s_rnext s /\
  (forall q, q <> r -> first_of s' q = first_of s q /\ parent_of s' q = parent_of s q /\
             (f_is_nan (r_area (ring_at s q)) = false -> stats_same s s' q) /\
             r_corrected (ring_at s' q) = r_corrected (ring_at s q)) /\
  in_order s'.
Lemma only_good r s s' q : in_order s -> only_ring r s s' -> q <> r -> as_good s s' q.
Proof.
  intros (W & _) (N & _ & F & _) Q. assert (U : forall vs, outline_of s q vs -> outline_of s' q vs).
  { intros vs. apply outline_frame; [apply F, Q| |exact W]. intros i Hi. apply N. congruence. }
  intros vs. split; [apply U|]. intros O. destruct O as (n & l & Fn & C & E).
  destruct (F q Q) as (Fq & _). assert (O : outline_of s' q vs) by (exists n, l; auto). rewrite Fq in Fn.
  destruct (well_at s n q W (wr_first s W q n Fn)) as (l' & C' & _).
  assert (O' : outline_of s q (vertices s (n :: l'))) by (exists n, l'; auto).
  rewrite (outline_fun s' q vs _ O (U _ O')). exact O'.
Qed.
Lemma only_settled r s s' q : in_order s -> only_ring r s s' -> q <> r -> settled s q -> settled s' q.
Proof.
  intros (W & _) (N & _ & F & _) Q S. destruct (F q Q) as (F1 & _ & F3 & _). destruct (F3 (settled_not_nan s q S)) as (E1 & E2 & E3 & E4).
  apply (settled_frame s); auto. intros i Hi. apply N. congruence.
Qed.
Lemma only_trans r s1 s2 s3 : only_ring r s1 s2 -> (forall i, ring_of s2 i = Some r -> ring_of s1 i = Some r) -> only_ring r s2 s3 -> only_ring r s1 s3.
Proof.
  intros (A1 & A2 & A3 & A4) K (B1 & B2 & B3 & B4). split; [|split; [congruence|split; [|exact B4]]].
  - intros i H. rewrite B1; [apply A1, H|]. intros X. apply H, K, X.
  - intros q Q. destruct (A3 q Q) as (C1 & C2 & C3 & C4), (B3 q Q) as (D1 & D2 & D3 & D4).
    split; [congruence|]. split; [congruence|]. split; [|congruence]. intros N. destruct (C3 N) as (E1 & E2 & E3 & E4). destruct D3 as (G1 & G2 & G3 & G4); [congruence|].
    repeat split; congruence.
Qed.
(** [same_ringed] changes in which only [r] may get another parent *)
Definition hang (r : rid) (s s' : st) : Prop :=
  same_ringed s s' /\ (forall q, f_is_nan (r_area (ring_at s q)) = false -> stats_same s s' q) /\
  (forall q, q <> r -> parent_of s' q = parent_of s q) /\ (in_order s -> in_order s').
#[export] Instance hang_pre r : PreOrd (hang r).
Proof.
  split.
  - intros s. split; [apply R_refl|]. split; [|auto]. intros q _. repeat split.
  - intros s1 s2 s3 (A1 & A2 & A3 & A4) (B1 & B2 & B3 & B4). split; [eapply R_trans; eassumption|]. split; [|split; [|auto]].
    + intros q N. destruct (A2 q N) as (E1 & E2 & E3 & E4). destruct (B2 q) as (G1 & G2 & G3 & G4); [congruence|]. repeat split; congruence.
    + intros q N. rewrite B3, A3; auto.
Qed.
#[export] Hint Resolve hang_pre : pres.
Lemma hang_shelf {A} r (m : prog A) : pres shelf m -> pres (hang r) m.
Proof.
  intros H s a s' E. pose proof (H s a s' E) as Sh. destruct Sh as (S & K) eqn:X. split; [exact S|]. split; [intros q _; apply K|]. split; [intros q _; apply K|].
  apply in_order_shelf. exact Sh.
Qed.
Lemma calc_parent s s' q : calc s s' -> parent_of s' q = parent_of s q.
Proof. intros (_ & H & _). rewrite !parent_at. apply H. Qed.
Lemma calc_hang r s s' : calc s s' -> hang r s s'.
Proof.
  intros H. pose proof H as (S & T & K & I). split; [exact S|]. split; [|split; [intros q _; apply calc_parent; exact H|exact I]].
  intros q N. unfold stats_same. rewrite (K q N). auto.
Qed.
Lemma hang_calc {A} r (m : prog A) : pres calc m -> pres (hang r) m.
Proof. intros H s a s' E. apply calc_hang. exact (H s a s' E). Qed.
Lemma hang_only r s s' : hang r s s' -> in_order s -> only_ring r s s'.
Proof.
  intros (S & K & P & I) O. split; [intros i _; apply S|]. split; [apply S|]. split; [|exact (I O)].
  intros q Q. split; [apply (same_first _ _ _ S)|]. split; [apply P, Q|]. split; [apply K|apply S].
Qed.
Lemma rput_hang s r f : (forall x, r_node (f x) = r_node x) -> (forall x, r_corrected (f x) = r_corrected x) ->
  (forall x, r_size (f x) = r_size x /\ r_box (f x) = r_box x /\ r_area (f x) = r_area x /\ r_hole (f x) = r_hole x) -> hang r s (rput s r f).
Proof.
  intros H1 H2 H3.
  assert (S : same_ringed s (rput s r f)).
  { split; [reflexivity|]. split; [reflexivity|]. split; [reflexivity|]. split; [reflexivity|].
    intros q. rewrite ring_at_rput. destruct (Pos.eqb_spec r q) as [<-|_]; auto. }
  assert (K : forall q, stats_same s (rput s r f) q).
  { intros q. unfold stats_same. rewrite ring_at_rput. destruct (Pos.eqb_spec r q) as [<-|_]; [apply H3|auto]. }
  split; [exact S|]. split; [intros q _; apply K|]. split.
  - intros q Q. rewrite !parent_at, ring_at_rput. destruct (Pos.eqb_spec r q); [congruence|reflexivity].
  - intros I. apply (in_order_same s); [exact S| |exact I]. intros q _. right. left. apply K.
Qed.
(** ** Moving a ring *)
Lemma calc_clash fuel r p : pres calc (orientation_clash fuel r p). Proof. destruct p; un orientation_clash. Qed.
#[export] Hint Resolve calc_clash : pres.
Lemma reassign_hangs fuel r p s u s' : reassign_as_child fuel r p s = Ok (u, s') -> hang r s s' /\ parent_of s' r = p.
Proof.
  intros E. unfold reassign_as_child in E. inv_bind E c s1 Ea. destruct c; [discriminate|].
  pose proof (hang_calc r _ (calc_clash fuel r p) _ _ _ Ea) as H1. rewrite (bind_run _ _ _ _ _ (rg_run s1 r)) in E.
  inv_bind E v s2 Eb. pose proof (hang_shelf r _ (shelf_remove r _) _ _ _ Eb) as H2.
  inv_bind E w s3 Ec. pose proof (hang_shelf r _ (shelf_set r _) _ _ _ Ec) as H3.
  rewrite upd_ring_rput in E. injection E as _ <-. split.
  - eapply R_trans; [exact H1|]. eapply R_trans; [exact H2|]. eapply R_trans; [exact H3|]. apply rput_hang; auto.
  - rewrite parent_at, ring_at_rput, Pos.eqb_refl. reflexivity.
Qed.
(** ** Removing a ring *)
Definition removed (r : rid) (s s' : st) : Prop :=
  first_of s' r = None /\ f_is_nan (r_area (ring_at s' r)) = true /\ (forall i, ring_of s' i <> Some r) /\ (forall q, parent_of s' q = parent_of s q) /\
  (forall q, q <> r -> stats_same s s' q /\ r_corrected (ring_at s' q) = r_corrected (ring_at s q)).
(** nothing but the ring [r] changes *)
Definition frame_ring (r : rid) (s s' : st) : Prop :=
  (forall i, ring_of s i <> Some r -> node_at s' i = node_at s i) /\
  s_rnext s' = s_rnext s /\
  (forall q, q <> r -> first_of s' q = first_of s q /\ parent_of s' q = parent_of s q /\ stats_same s s' q /\
             r_corrected (ring_at s' q) = r_corrected (ring_at s q)) /\
  well_ringed s'.
Lemma remove_points_frame fuel d r b s u s' : remove_ring_and_points fuel d r false b s = Ok (u, s') -> well_ringed s ->
  first_of s r <> None -> frame_ring r s s' /\ removed r s s'.
Proof.
  intros E I F0. pose proof (kw_remove_points fuel d r b s u s' E I) as W'.
  destruct d as [|d]; [discriminate|]. cbn [remove_ring_and_points] in E.
  inv_bind E v s1 Ea. assert (H1 : shelf s s1).
  { refine (shelf_iter fuel (Some r) _ _ _ _ _ Ea). intros k c. pres_auto. }
  inv_bind E w s2 Eb. assert (H2 : shelf s1 s2).
  { revert Eb. destruct b; [|intros Eb; injection Eb as _ <-; apply R_refl]. intros Eb.
    assert (P : pres shelf (bind (rg r) (fun x => remove_from_children r (r_parent x)))) by pres_auto. exact (P _ _ _ Eb). }
  pose proof (R_trans _ _ _ H1 H2) as H. clear H1 H2 Ea Eb s1 v w.
  destruct H as (S & K).
  assert (I2 : well_ringed s2) by (apply (well_same s); assumption).
  rewrite (bind_run _ _ _ _ _ (rg_run s2 r)) in E.
  rewrite <- (same_first _ _ _ S) in F0. unfold first_of in F0. destruct (r_node (ring_at s2 r)) as [n|] eqn:En; [|contradiction].
  inv_bind E v s3 Ec. destruct (well_at s2 n r I2 (wr_first s2 I2 r n En)) as (l & C & M).
  destruct (clear_run s2 n l fuel v s3 C Ec) as (WP & SB).
  assert (RG : forall i, node_at s' i = node_at s3 i /\ s_rnext s' = s_rnext s3).
  { rewrite (bind_run _ _ _ _ _ (upd_ring_rput _ _ _)) in E. unfold reset_stats in E. rewrite upd_ring_rput in E. injection E as _ <-. intros i. split; reflexivity. }
  assert (RR : forall q, ring_at s' q = if Pos.eqb r q then (ring_at s' r) else ring_at s3 q).
  { rewrite (bind_run _ _ _ _ _ (upd_ring_rput _ _ _)) in E. unfold reset_stats in E. rewrite upd_ring_rput in E. injection E as _ <-.
    intros q. destruct (Pos.eqb_spec r q) as [<-|N]; [reflexivity|]. rewrite !ring_at_rput. destruct (Pos.eqb_spec r q); [congruence|reflexivity]. }
  assert (Rr : r_node (ring_at s' r) = None /\ f_is_nan (r_area (ring_at s' r)) = true /\ r_parent (ring_at s' r) = r_parent (ring_at s3 r)).
  { rewrite (bind_run _ _ _ _ _ (upd_ring_rput _ _ _)) in E. unfold reset_stats in E. rewrite upd_ring_rput in E. injection E as _ <-.
    rewrite !ring_at_rput, !Pos.eqb_refl. repeat split. }
  clear E. assert (R3 : forall q, ring_at s3 q = ring_at s2 q) by (intros q; unfold ring_at; rewrite SB; reflexivity).
  assert (ND : forall i, ring_of s i <> Some r -> node_at s' i = node_at s i).
  { intros i Hi. rewrite (proj1 (RG i)). rewrite <- (proj1 S i). apply WP. intros J. apply M in J. rewrite (same_ring_of _ _ _ S) in J. contradiction. }
  assert (NR : forall i, ring_of s' i <> Some r).
  { intros i Hi. unfold ring_of in Hi. rewrite (proj1 (RG i)) in Hi. fold (ring_of s3 i) in Hi. rewrite (wiped_ring _ _ _ i WP) in Hi.
    destruct (in_dec _ _ _) as [J|J]; [discriminate|]. apply J, M, Hi. }
  assert (Q : forall q, q <> r -> ring_at s' q = ring_at s2 q).
  { intros q N. rewrite RR, R3. destruct (Pos.eqb_spec r q); [congruence|reflexivity]. }
  assert (SS : forall q, q <> r -> stats_same s s' q) by (intros q N; unfold stats_same; rewrite (Q q N); apply K).
  assert (FF : forall q, q <> r -> first_of s' q = first_of s q) by (intros q N; unfold first_of; rewrite (Q q N); apply (same_first _ _ _ S)).
  assert (PP : forall q, parent_of s' q = parent_of s q).
  { intros q. rewrite <- (proj2 (K q)), !parent_at. destruct (Pos.eq_dec q r) as [->|N]; [rewrite (proj2 (proj2 Rr)), R3; reflexivity|rewrite (Q q N); reflexivity]. }
  split.
  - split; [exact ND|]. split; [destruct (RG 1%positive) as (_ & ->); rewrite SB; cbn; apply S|].
    split; [intros q N; split; [auto|split; [auto|split; [auto|rewrite (Q q N); apply S]]]|]. exact W'.
  - split; [exact (proj1 Rr)|]. split; [apply Rr|]. split; [exact NR|]. split; [exact PP|]. intros q N. split; [apply SS, N|].
    rewrite (Q q N). apply S.
Qed.
Lemma remove_points_removes fuel d r b s u s' : remove_ring_and_points fuel d r false b s = Ok (u, s') -> in_order s ->
  first_of s r <> None -> only_ring r s s' /\ removed r s s'.
Proof.
  intros E I F0. destruct (remove_points_frame fuel d r b s u s' E (proj1 I) F0) as ((ND & RN & FF & W') & RR). split; [|exact RR].
  split; [exact ND|]. split; [exact RN|]. split; [intros q N; destruct (FF q N) as (A & B & C & D); auto|]. split; [exact W'|]. apply settled_up. intros q m Fq.
  destruct (Pos.eq_dec q r) as [->|N]; [destruct RR as (RR & _); congruence|]. destruct (FF q N) as (A & B & (T1 & T2 & T3 & T4) & D). rewrite A in Fq.
  rewrite T3. destruct (f_is_nan (r_area (ring_at s q))) eqn:NN; [left; reflexivity|right].
  apply (settled_frame s); auto.
  - intros i Hi. apply ND. congruence.
  - apply I.
  - exact (up_settled s q m (proj2 I) Fq NN).
Qed.
(** ** Rings without an area *)
Lemma half_format : rnd (/ 2) = (/ 2)%R.
Proof.
  apply round_generic; [typeclasses eauto|]. change (/ 2)%R with (bpow radix2 (-1)).
  apply generic_format_bpow. vm_compute. discriminate.
Qed.
Lemma small_rank f : FloatP.good f -> Z.abs (UlpP.rank f) <= 4 -> (Rabs (val f) < / 2)%R.
Proof.
  intros (V & F) H. destruct f as [b|b| |b m e]; try discriminate.
  - unfold val, SF2R. rewrite Rabs_R0. lra.
  - pose proof (bounded_inv m e V) as (B1 & B2 & B3).
    assert (M : mag m e <= 4).
    { unfold UlpP.rank in H. assert (0 <= mag m e) by (unfold mag; destruct (Z.ltb_spec (Zpos m) (2 ^ 52)); lia). destruct b; lia. }
    assert (P : Zpos m <= 4 /\ e = -1074).
    { unfold mag in M. destruct (Z.ltb_spec (Zpos m) (2 ^ 52)); [|exfalso; nia]. split; [exact M|]. destruct B3; [lia|assumption]. }
    destruct P as (P & ->). unfold val, SF2R.
    assert (E : Rabs (F2R (Float radix2 (cond_Zopp b (Z.pos m)) (-1074))) = (IZR (Z.pos m) * bpow radix2 (-1074))%R).
    { rewrite <- F2R_Zabs. rewrite abs_cond_Zopp. reflexivity. }
    rewrite E. apply Rle_lt_trans with (4 * bpow radix2 (-4))%R.
    + apply Rmult_le_compat; [apply IZR_le; lia|apply bpow_ge_0|apply IZR_le; lia|]. apply bpow_le. lia.
    + change (bpow radix2 (-4)) with (/ 16)%R. lra.
Qed.
Lemma zero_area z f : int_truediv z 2 = Ok f -> almost_zero (NF f) = Ok (z =? 0).
Proof.
  intros E. destruct (truediv_spec z 2) as [(_ & g & E2 & G & V & _)|(_ & E2)]; [lia| |congruence].
  assert (g = f) by congruence. subst g.
  assert (NN : is_number f) by (destruct G as (G1 & G2); destruct f; try discriminate; split; try exact G1; reflexivity).
  unfold almost_zero, almost_equal. cbn [num_to_float rbind]. rewrite almost_equal_rank; [|exact NN|split; reflexivity]. f_equal.
  change (UlpP.rank f_zero) with 0. rewrite Z.sub_0_r. destruct (Z.eqb_spec z 0) as [->|N].
  - apply Z.leb_le. replace (IZR 0 / IZR 2)%R with 0%R in V by lra. change (val f = rnd 0) in V. rewrite rnd_0 in V.
    destruct f as [b|b| |b m e]; [cbn; lia|destruct G; discriminate|destruct G; discriminate|]. exfalso. unfold val, SF2R in V. apply eq_0_F2R in V. destruct b; discriminate.
  - apply Z.leb_gt. destruct (Z.le_gt_cases (Z.abs (UlpP.rank f)) 4) as [H|H]; [|exact H]. exfalso.
    pose proof (small_rank f G H) as K. rewrite V in K. clear V E E2. apply Rabs_lt_inv in K. destruct K as (K1 & K2).
    destruct (Z.lt_trichotomy z 0) as [L|[L|L]]; [|contradiction|].
    + assert (IZR z <= -1)%R by (apply IZR_le; lia). assert (Q : (rnd (IZR z / IZR 2) <= rnd (- / 2))%R) by (apply rnd_le; lra).
      unfold rnd in Q at 2. rewrite round_NE_opp in Q. fold (rnd (/ 2)) in Q. rewrite half_format in Q. lra.
    + assert (1 <= IZR z)%R by (apply IZR_le; lia). assert (Q : (rnd (/ 2) <= rnd (IZR z / IZR 2))%R) by (apply rnd_le; lra). rewrite half_format in Q. lra.
Qed.
Lemma small_area (vs : list point) : (length vs < 3)%nat -> area2 vs = 0.
Proof.
  destruct vs as [|a [|b [|c l]]]; cbn [length]; try lia; intros _; unfold area2, cyclic_pairs, zsum; cbn; unfold cross; ring.
Qed.
(** ** Looking for a parent *)
Lemma calc_good s s' q : calc s s' -> as_good s s' q.
Proof. intros (H & _) vs. apply same_outline. exact H. Qed.
Lemma hang_good r s s' q : hang r s s' -> as_good s s' q.
Proof. intros (H & _) vs. apply same_outline. exact H. Qed.
Lemma as_good_sym s s' q : as_good s s' q -> as_good s' s q.
Proof. intros G vs. symmetry. apply G. Qed.
Lemma settled_orient s r : settled s r -> if r_hole (ring_at s r) then hole s r else exterior s r.
Proof.
  intros S. destruct (settled_outline s r S) as (vs & O & _ & _ & _ & _ & H). rewrite H.
  destruct (Z.leb_spec 0 (area2 vs)); exists vs; auto.
Qed.
Lemma settled_opposite s r q : settled s r -> settled s q -> r_hole (ring_at s r) <> r_hole (ring_at s q) -> opposite s r q.
Proof.
  intros S S' N. pose proof (settled_orient s r S) as A. pose proof (settled_orient s q S') as B. unfold opposite.
  destruct (r_hole (ring_at s r)), (r_hole (ring_at s q)); try congruence; auto.
Qed.
Lemma not_both s r : exterior s r -> hole s r -> False.
Proof. intros (vs & O & A) (ws & O' & B). rewrite (outline_fun s r ws vs O' O) in B. lia. Qed.
Lemma settled_alike s r q : settled s r -> settled s q -> r_hole (ring_at s r) = r_hole (ring_at s q) -> ~ opposite s r q.
Proof.
  intros S S' N. pose proof (settled_orient s r S) as A. pose proof (settled_orient s q S') as B. unfold opposite.
  intros [(X & Y)|(X & Y)]; destruct (r_hole (ring_at s r)), (r_hole (ring_at s q)); try discriminate; first [apply (not_both s r); assumption|apply (not_both s q); assumption].
Qed.
Lemma inside_gone fuel r q s b s' : first_of s q = None -> inside_of fuel r q s = Ok (b, s') -> b = false.
Proof.
  intros F E. rewrite inside_of_rest in E. rewrite (bind_run _ _ _ _ _ (rg_run s r)), (bind_run _ _ _ _ _ (rg_run s q)) in E.
  destruct (negb _); [injection E as <- _; reflexivity|]. inv_bind E oa s1 Ea. inv_bind E ra s2 Eb.
  pose proof (R_trans _ _ _ (calc_area fuel q _ _ _ Ea) (calc_area fuel r _ _ _ Eb)) as C. destruct (num_ltb _ _); [injection E as <- _; reflexivity|].
  unfold inside_rest in E. rewrite (bind_run _ _ _ _ _ (rg_run s2 r)), (bind_run _ _ _ _ _ (rg_run s2 q)) in E.
  inv_bind E xn s3 Ec. inv_bind E ff s4 Ed. assert (N : r_node (ring_at s2 q) = None).
  { change (first_of s2 q = None). rewrite (same_first _ _ _ (proj1 C)). exact F. }
  rewrite N in E. discriminate.
Qed.
Definition passed_over (s : st) (r : rid) (l : list rid) : Prop :=
  forall q, In q l -> has_points s q -> opposite s r q -> lies_in s r q false.
Lemma passed_good s s' r l : (forall q, as_good s s' q) -> passed_over s r l -> passed_over s' r l.
Proof.
  intros G P q Hq HP O. apply (lies_good s s' r q false (G r) (G q)). apply P; [exact Hq| |].
  - apply (points_good _ _ _ (G q)). exact HP.
  - apply (opposite_good _ _ _ _ (G r) (G q)). exact O.
Qed.
Lemma find_parent_finds fuel r l : forall s b s', in_order s -> settled s r -> find_parent fuel r l s = Ok (b, s') ->
  hang r s s' /\ settled s' r /\
  if b then exists l1 q l2, l = l1 ++ q :: l2 /\ passed_over s r l1 /\ opposite s r q /\ lies_in s r q true /\ parent_of s' r = Some q
  else passed_over s r l /\ parent_of s' r = parent_of s r.
Proof.
  induction l as [|q l IH]; intros s b s' I S E; cbn [find_parent] in E.
  - injection E as <- <-. split; [apply R_refl|]. split; [exact S|]. split; [|reflexivity]. intros q [].
  - rewrite (bind_run _ _ _ _ _ (hole_settled fuel r s S)) in E. inv_bind E h2 s1 Ea.
    destruct (reads_hole fuel q s h2 s1 Ea) as (C1 & Hh & Sq). pose proof (settled_calc s s1 r C1 S) as (S1 & R1).
    assert (I1 : in_order s1) by (apply C1, I).
    assert (G1 : forall k, as_good s s1 k) by (intros k; apply calc_good; exact C1).
    (* the current ring is skipped *)
    assert (SKIP : forall s2, calc s1 s2 -> find_parent fuel r l s2 = Ok (b, s') -> passed_over s r [q] ->
      hang r s s' /\ settled s' r /\
      if b then exists l1 q0 l2, q :: l = l1 ++ q0 :: l2 /\ passed_over s r l1 /\ opposite s r q0 /\ lies_in s r q0 true /\ parent_of s' r = Some q0
      else passed_over s r (q :: l) /\ parent_of s' r = parent_of s r).
    { intros s2 C2 E2 P1. pose proof (R_trans _ _ _ C1 C2) as C. destruct (settled_calc s s2 r C S) as (S2 & _).
      assert (G : forall k, as_good s2 s k) by (intros k; apply as_good_sym, calc_good; exact C).
      destruct (IH s2 b s' (proj2 (proj2 (proj2 C)) I) S2 E2) as (H & S' & Q).
      split; [eapply R_trans; [apply calc_hang; exact C|exact H]|]. split; [exact S'|]. destruct b.
      - destruct Q as (l1 & q0 & l2 & -> & P & O & L & PA). exists (q :: l1), q0, l2. split; [reflexivity|].
        split; [|split; [apply (opposite_good s2 s); auto|split; [apply (lies_good s2 s); auto|exact PA]]].
        intros k [<-|Hk]; [apply P1; left; reflexivity|]. apply (passed_good s2 s r l1 G P); exact Hk.
      - destruct Q as (P & PA). split; [|rewrite PA; apply calc_parent; exact C].
        intros k [<-|Hk]; [apply P1; left; reflexivity|]. apply (passed_good s2 s r l G P); exact Hk. }
    assert (HP : has_points s q -> settled s1 q).
    { intros (vs & n & k & Fn & _). apply Sq; [exact I|congruence]. }
    destruct (Bool.eqb _ h2) eqn:Eh.
    + apply (SKIP s1); [apply R_refl|exact E|]. apply Bool.eqb_prop in Eh. intros k [<-|[]] P O. exfalso.
      apply (settled_alike s1 r q S1 (HP P)); [congruence|]. apply (opposite_good s s1); auto.
    + inv_bind E bb s2 Eb. pose proof (calc_inside fuel r q _ _ _ Eb) as C2. destruct bb.
      * destruct (first_of s1 q) as [n|] eqn:Fq; [|pose proof (inside_gone fuel r q s1 _ s2 Fq Eb) as X; discriminate X].
        assert (Hq : settled s1 q) by (apply Sq; [exact I|rewrite <- (same_first _ _ q (proj1 C1)); congruence]).
        pose proof (inside_lies fuel r q s1 true s2 S1 Hq Eb) as L.
        assert (O : opposite s1 r q). { apply settled_opposite; auto. intros X. rewrite R1, <- Hh in X. rewrite X, Bool.eqb_reflx in Eh. discriminate. }
        inv_bind E u s3 Ec. injection E as <- <-. destruct (reassign_hangs fuel r (Some q) s2 u s3 Ec) as (H & PA).
        pose proof (R_trans _ _ _ C1 C2) as C. pose proof (R_trans _ _ _ (calc_hang r _ _ C) H) as HH.
        split; [exact HH|]. split.
        { destruct (settled_calc s s2 r C S) as (S2 & _). destruct (proj1 (proj2 H) r (settled_not_nan s2 r S2)) as (Q1 & Q2 & Q3 & Q4).
          assert (I2 : in_order s2) by (apply C, I).
          apply (settled_frame s2); auto; [apply (same_first _ _ _ (proj1 H))|intros; apply (proj1 H)|apply I2]. }
        exists [], q, l. split; [reflexivity|]. split; [intros k []|]. split; [apply (opposite_good s s1); auto|]. split; [apply (lies_good s s1); auto|exact PA].
      * apply (SKIP s2); [exact C2|exact E|]. intros k [<-|[]] P O.
        apply (lies_good s s1); auto. exact (inside_lies fuel r q s1 false s2 S1 (HP P) Eb).
Qed.
(** ** One ring *)
Lemma size_settled fuel r s : settled s r -> ring_size fuel r s = Ok (r_size (ring_at s r), s).
Proof. intros S. unfold ring_size. rewrite (bind_run _ _ _ _ _ (ensure_settled fuel r s S)). reflexivity. Qed.
Lemma hang_settled r s s' q : hang r s s' -> in_order s -> settled s q -> settled s' q.
Proof.
  intros (H & K & _) I S. destruct (K q (settled_not_nan s q S)) as (Q1 & Q2 & Q3 & Q4).
  apply (settled_frame s); auto; [apply (same_first _ _ _ H)|intros; apply H|apply I].
Qed.
Lemma rput_only r f s : (forall x, r_node (f x) = r_node x) ->
  (forall x, r_size (f x) = r_size x /\ r_box (f x) = r_box x /\ r_area (f x) = r_area x /\ r_hole (f x) = r_hole x) ->
  in_order s -> only_ring r s (rput s r f) /\ (forall q, as_good s (rput s r f) q) /\ (settled s r -> settled (rput s r f) r).
Proof.
  intros H1 H3 I.
  assert (F : forall q, first_of (rput s r f) q = first_of s q) by (intros q; rewrite first_rput; destruct (Pos.eqb_spec r q) as [<-|_]; [rewrite H1|]; reflexivity).
  assert (K : forall q, stats_same s (rput s r f) q).
  { intros q. unfold stats_same. rewrite ring_at_rput. destruct (Pos.eqb_spec r q) as [<-|_]; [apply H3|auto]. }
  assert (W : well_ringed (rput s r f)) by (apply well_rput; [apply I|]; intros n Hn; rewrite H1 in Hn; apply (wr_first s (proj1 I)); exact Hn).
  assert (SS : forall q, settled s q -> settled (rput s r f) q).
  { intros q S. destruct (K q) as (Q1 & Q2 & Q3 & Q4). apply (settled_frame s); auto. apply I. }
  split; [|split; [|apply SS]].
  - split; [reflexivity|]. split; [reflexivity|]. split.
    + intros q Q. split; [apply F|]. split; [|split; [intros _; apply K|]]; rewrite ?parent_at, ring_at_rput; (destruct (Pos.eqb_spec r q); [congruence|reflexivity]).
    + split; [exact W|]. apply settled_up. intros q n Fq. rewrite F in Fq. destruct (K q) as (_ & _ & K3 & _). rewrite K3.
      destruct (f_is_nan (r_area (ring_at s q))) eqn:N; [left; reflexivity|right]. apply SS. exact (up_settled s q n (proj2 I) Fq N).
  - intros q vs. unfold outline_of. split; intros (n & l & Fn & C & E); exists n, l; (split; [rewrite F in *; exact Fn|]); (split; [|exact E]); eapply circle_same; try exact C; reflexivity.
Qed.
Definition tree_step (r : rid) (before : list rid) (s s' : st) : Prop :=
  only_ring r s s' /\
  (first_of s r = None -> first_of s' r = None) /\
  (forall vs, outline_of s r vs -> area2 vs = 0 -> first_of s' r = None) /\
  (forall vs, outline_of s r vs -> area2 vs <> 0 ->
     outline_of s' r vs /\ settled s' r /\ placed s' before r /\ r_corrected (ring_at s' r) = true).
Lemma tree_ring_step fuel rb r s u s' : in_order s -> correct_tree_ring fuel rb r s = Ok (u, s') -> tree_step r (rev rb) s s'.
Proof.
  intros I E. unfold correct_tree_ring in E. rewrite (bind_run _ _ _ _ _ (rg_run s r)) in E. unfold tree_step.
  change (r_node (ring_at s r)) with (first_of s r) in E. destruct (first_of s r) as [n|] eqn:Fn; cbn [is_none] in E.
  2:{ injection E as _ <-. split; [|split; [auto|split; intros vs (n & l & F & _); congruence]].
      split; [reflexivity|]. split; [reflexivity|]. split; [|exact I]. intros q Q. repeat split. }
  inv_bind E size s1 Ea. destruct (reads_size fuel r s size s1 Ea) as (C1 & -> & Sr). specialize (Sr I ltac:(congruence)).
  assert (I1 : in_order s1) by (apply C1, I).
  assert (G1 : forall q, as_good s s1 q) by (intros q; apply calc_good; exact C1).
  destruct (settled_outline s1 r Sr) as (vs & O & NE & LEN & T & A & H).
  inv_bind E small s2 Eb.
  assert (X : s2 = s1 /\ small = (area2 vs =? 0)).
  { destruct (Nat.ltb_spec (r_size (ring_at s1 r)) 3) as [L|L].
    - injection Eb as <- <-. split; [reflexivity|]. symmetry. apply Z.eqb_eq. apply small_area. lia.
    - rewrite (bind_run _ _ _ _ _ (area_settled fuel r s1 Sr)) in Eb. rewrite (zero_area _ _ A) in Eb. injection Eb as <- <-. split; [reflexivity|].
      destruct (Z.eqb_spec (- area2 vs) 0), (Z.eqb_spec (area2 vs) 0); lia || reflexivity. }
  destruct X as (-> & ->). clear Eb.
  assert (OS : outline_of s r vs) by (apply G1; exact O).
  assert (C1o : only_ring r s s1) by (apply hang_only; [apply calc_hang; exact C1|exact I]).
  assert (RO : forall i, ring_of s1 i = Some r -> ring_of s i = Some r) by (intros i; rewrite (same_ring_of _ _ _ (proj1 C1)); auto).
  destruct (Z.eqb_spec (area2 vs) 0) as [Z|Z].
  - destruct (remove_points_removes fuel fuel r true s1 u s' E I1) as (OR & (F' & _)).
    { rewrite (same_first _ _ _ (proj1 C1)). congruence. }
    split; [apply (only_trans r s s1); assumption|]. split; [congruence|]. split; [auto|].
    intros ws OW NW. rewrite (outline_fun s r ws vs OW OS) in NW. contradiction.
  - rewrite (bind_run _ _ _ _ _ (upd_ring_rput _ _ _)) in E.
    set (s2 := rput s1 r (fun x => x <| r_corrected := true |>)) in *.
    assert (R2 : only_ring r s1 s2 /\ (forall q, as_good s1 s2 q) /\ (settled s1 r -> settled s2 r)) by (apply rput_only; auto).
    destruct R2 as (O2 & G2 & S2). specialize (S2 Sr). assert (I2 : in_order s2) by apply O2.
    assert (Co2 : r_corrected (ring_at s2 r) = true) by (unfold s2; rewrite ring_at_rput, Pos.eqb_refl; reflexivity).
    inv_bind E found s3 Ec. destruct (find_parent_finds fuel r rb s2 found s3 I2 S2 Ec) as (H3 & S3 & Q).
    assert (FIN : forall s'', hang r s3 s'' -> only_ring r s s'' /\ outline_of s'' r vs /\ settled s'' r /\ r_corrected (ring_at s'' r) = true /\ (forall q, as_good s2 s'' q)).
    { intros s'' H4. pose proof (R_trans _ _ _ H3 H4) as HH. assert (OW : outline_of s2 r vs) by (apply G2; exact O).
      split; [|split; [apply (hang_good _ _ _ r HH); exact OW|split; [apply (hang_settled r s2); assumption|split; [|intros q; apply (hang_good r); exact HH]]]].
      - apply (only_trans r s s1); [exact C1o|exact RO|]. apply (only_trans r s1 s2); [exact O2|auto|]. apply hang_only; assumption.
      - rewrite <- Co2. apply HH. }
    destruct found.
    + injection E as _ <-. destruct Q as (l1 & q & l2 & -> & P & OP & L & PA). destruct (FIN s3 (R_refl _)) as (F1 & F2 & F3 & F4 & F5).
      split; [exact F1|]. split; [congruence|]. split; [intros ws OW ZW; rewrite (outline_fun s r ws vs OW OS) in ZW; contradiction|].
      intros ws OW _. rewrite (outline_fun s r ws vs OW OS). split; [exact F2|]. split; [exact F3|]. split; [|exact F4].
      unfold placed. rewrite PA. exists (rev l2), (rev l1). split; [rewrite rev_app_distr; cbn [rev]; rewrite <- app_assoc; reflexivity|].
      split; [apply (opposite_good s2 s3); auto|]. split; [apply (lies_good s2 s3); auto|].
      intros k Hk. apply in_rev in Hk. revert k Hk. exact (passed_good s2 s3 r l1 F5 P).
    + destruct Q as (P & PA). rewrite (bind_run _ _ _ _ _ (hole_settled fuel r s3 S3)) in E.
      pose proof (settled_orient s3 r S3) as OR. destruct (r_hole (ring_at s3 r)); [discriminate|].
      destruct (reassign_hangs fuel r None s3 u s' E) as (H4 & PA'). destruct (FIN s' H4) as (F1 & F2 & F3 & F4 & F5).
      split; [exact F1|]. split; [congruence|]. split; [intros ws OW ZW; rewrite (outline_fun s r ws vs OW OS) in ZW; contradiction|].
      intros ws OW _. rewrite (outline_fun s r ws vs OW OS). split; [exact F2|]. split; [exact F3|]. split; [|exact F4].
      unfold placed. rewrite PA'. split; [apply (exterior_good s3 s'); [apply (hang_good r); exact H4|exact OR]|].
      intros k Hk. apply in_rev in Hk. revert k Hk. exact (passed_good s2 s' r rb F5 P).
Qed.
(** ** All rings *)
Definition tree_inv (s0 : st) (rb : list rid) (s : st) : Prop :=
  in_order s /\ s_rnext s = s_rnext s0 /\
  (forall q, ~ In q rb -> as_good s0 s q /\ parent_of s q = parent_of s0 q) /\
  (forall l1 q l2, rb = l1 ++ q :: l2 ->
     (first_of s0 q = None -> first_of s q = None) /\
     (forall vs, outline_of s0 q vs -> area2 vs = 0 -> first_of s q = None) /\
     (forall vs, outline_of s0 q vs -> area2 vs <> 0 ->
        outline_of s q vs /\ settled s q /\ placed s (rev l2) q /\ r_corrected (ring_at s q) = true)).
Lemma as_good_trans s1 s2 s3 q : as_good s1 s2 q -> as_good s2 s3 q -> as_good s1 s3 q.
Proof. intros A B vs. rewrite (A vs). apply B. Qed.
Lemma outline_first s r : well_ringed s -> (first_of s r = None <-> ~ has_points s r).
Proof.
  intros W. split.
  - intros F (vs & n & l & Fn & _). congruence.
  - intros H. destruct (first_of s r) as [n|] eqn:Fn; [|reflexivity]. exfalso. apply H.
    destruct (well_at s n r W (wr_first s W r n Fn)) as (l & C & _). exists (vertices s (n :: l)), n, l. auto.
Qed.
Lemma good_first s s' r : well_ringed s -> well_ringed s' -> as_good s s' r -> first_of s r = None -> first_of s' r = None.
Proof. intros W W' G. rewrite (outline_first s r W), (outline_first s' r W'), (points_good _ _ _ G). auto. Qed.
Lemma tree_inv_step s0 rb r s s' : well_ringed s0 -> tree_inv s0 rb s -> ~ In r rb -> tree_step r (rev rb) s s' -> tree_inv s0 (r :: rb) s'.
Proof.
  intros W0 (I & RN & U & P) NI (OR & A & B & C). pose proof OR as (O1 & O2 & O3 & O4).
  split; [exact O4|]. split; [congruence|]. split.
  - intros q Nq. assert (q <> r) by (intros ->; apply Nq; left; reflexivity). destruct (U q) as (U1 & U2); [intros X; apply Nq; right; exact X|].
    split; [apply (as_good_trans s0 s s' q U1); apply (only_good r s s' q I OR); assumption|]. rewrite <- U2. apply O3. assumption.
  - intros l1 q l2 E. destruct l1 as [|r' l1]; injection E as <- E.
    + subst l2. destruct (U r NI) as (G & _). split; [intros F; apply A; apply (good_first s0); auto; apply I|].
      split; intros vs O; apply G in O; [apply B; exact O|apply C; exact O].
    + assert (Q : q <> r). { intros ->. apply NI. rewrite E, in_app_iff. right. left. reflexivity. }
      destruct (P l1 q l2 E) as (P1 & P2 & P3). destruct (O3 q Q) as (F1 & F2 & F3 & F4). rewrite F1.
      split; [exact P1|]. split; [exact P2|]. intros vs O NZ. destruct (P3 vs O NZ) as (Q1 & Q2 & Q3 & Q4).
      assert (G : forall k, k <> r -> as_good s s' k) by (intros k Hk; apply (only_good r s s' k I OR Hk)).
      split; [apply (G q Q); exact Q1|]. split; [apply (only_settled r s s' q I OR Q Q2)|]. split; [|congruence].
      apply (placed_good s s'); [apply G; exact Q| |exact F2|exact Q3]. intros k Hk. apply G. intros ->. apply NI. apply in_rev in Hk. rewrite E, in_app_iff. right. right. exact Hk.
Qed.
Lemma tree_loop fuel s0 l : well_ringed s0 -> forall rb s u s', tree_inv s0 rb s -> NoDup (rev l ++ rb) -> correct_tree_loop fuel rb l s = Ok (u, s') ->
  tree_inv s0 (rev l ++ rb) s'.
Proof.
  intros W0. induction l as [|r l IH]; intros rb s u s' I ND E; cbn [correct_tree_loop] in E.
  - injection E as _ <-. exact I.
  - inv_bind E v s1 Ea. cbn [rev] in *. rewrite <- app_assoc in *. cbn [app] in *.
    pose proof (tree_ring_step fuel rb r s v s1 (proj1 I) Ea) as ST.
    assert (NI : ~ In r rb). { apply NoDup_remove_2 in ND. intros H. apply ND. rewrite in_app_iff. right. exact H. }
    apply (IH (r :: rb) s1 u s'); [apply (tree_inv_step s0 rb r s s1); assumption|exact ND|exact E].
Qed.
Lemma tree_inv_start s0 s : in_order s0 -> calc s0 s -> tree_inv s0 [] s.
Proof.
  intros I C. split; [apply C, I|]. split; [apply (proj1 C)|]. split.
  - intros q _. split; [apply calc_good; exact C|apply calc_parent; exact C].
  - intros [|? ?] q l2 X; discriminate.
Qed.
(** ** The order of the rings *)
Section EffSort.
  Context {A : Type} (ltM : A -> A -> prog bool) (lt : A -> A -> bool) (Inv : st -> Prop).
  Hypothesis agree : forall a b s x s', Inv s -> ltM a b s = Ok (x, s') -> Inv s' /\ x = lt a b.
  Let lp (a b : A) : M unit bool := ret (lt a b).
  Lemma count_agree d l : forall p s x s', Inv s -> count_run ltM d p l s = Ok (x, s') -> Inv s' /\ count_run lp d p l tt = Ok (x, tt).
  Proof.
    induction l as [|y l IH]; intros p s x s' I E; cbn [count_run] in *.
    - injection E as <- <-. auto.
    - unfold bind at 1 in E. destruct (ltM y p s) as [[b s1]| |] eqn:Eb; try discriminate. destruct (agree _ _ _ _ _ I Eb) as (I1 & ->).
      unfold bind at 1, lp at 1, ret at 1. cbv iota beta in E |- *. destruct (Bool.eqb (lt y p) d); [|injection E as <- <-; auto].
      unfold bind at 1 in E. destruct (count_run ltM d y l s1) as [[[run rest] s2]| |] eqn:Ec; try discriminate. destruct (IH y s1 _ s2 I1 Ec) as (I2 & E2).
      unfold bind at 1. rewrite E2. injection E as <- <-. auto.
  Qed.
  Lemma search_agree fuel pre y : forall lo hi s x s', Inv s -> bin_search ltM fuel pre y lo hi s = Ok (x, s') -> Inv s' /\ bin_search lp fuel pre y lo hi tt = Ok (x, tt).
  Proof.
    induction fuel as [|fuel IH]; intros lo hi s x s' I E; cbn [bin_search] in *.
    - injection E as <- <-. auto.
    - destruct (lo <? hi)%nat; [|injection E as <- <-; auto]. cbn zeta in *. destruct (nth_error pre _) as [z|]; [|discriminate].
      unfold bind at 1 in E. destruct (ltM y z s) as [[b s1]| |] eqn:Eb; try discriminate. destruct (agree _ _ _ _ _ I Eb) as (I1 & ->).
      unfold bind at 1, lp at 1, ret at 1. cbv iota beta in E |- *. destruct (lt y z); apply (IH _ _ s1); assumption.
  Qed.
  Lemma insertion_agree l : forall pre s x s', Inv s -> binary_insertion ltM pre l s = Ok (x, s') -> Inv s' /\ binary_insertion lp pre l tt = Ok (x, tt).
  Proof.
    induction l as [|y l IH]; intros pre s x s' I E; cbn [binary_insertion] in *.
    - injection E as <- <-. auto.
    - unfold bind at 1 in E. destruct (bin_search ltM (length pre) pre y 0 (length pre) s) as [[i s1]| |] eqn:Eb; try discriminate.
      destruct (search_agree _ _ _ _ _ _ _ _ I Eb) as (I1 & E1'). unfold bind at 1. rewrite E1'. apply (IH _ s1); assumption.
  Qed.
  Lemma sort_agree l s x s' : Inv s -> py_sort ltM l s = Ok (x, s') -> Inv s' /\ pure_sort lt l = x.
  Proof.
    intros I E. unfold pure_sort, py_sort in *. destruct l as [|a [|b l]].
    - injection E as <- <-. auto.
    - injection E as <- <-. auto.
    - unfold bind at 1 in E. destruct (ltM b a s) as [[d s1]| |] eqn:Eb; try discriminate. destruct (agree _ _ _ _ _ I Eb) as (I1 & ->).
      unfold bind at 1 in E. cbv iota beta in E. destruct (count_run ltM (lt b a) b l s1) as [[[run rest] s2]| |] eqn:Ec; try discriminate.
      destruct (count_agree _ _ _ _ _ _ I1 Ec) as (I2 & E2'). cbv iota beta in E.
      destruct (insertion_agree _ _ _ _ _ I2 E) as (I3 & E3'). split; [exact I3|].
      change (match bind (ret (lt b a)) (fun desc => bind (count_run lp desc b l) (fun p => let '(run, rest) := p in
                binary_insertion lp (if desc then rev (a :: b :: run) else a :: b :: run) rest)) tt with Ok (l', _) => l' | _ => a :: b :: l end = x).
      unfold bind at 1, ret at 1. unfold bind at 1. rewrite E2'. cbv iota beta. rewrite E3'. reflexivity.
  Qed.
  Lemma sort_rev_agree l s x s' : Inv s -> py_sort_rev ltM l s = Ok (x, s') -> Inv s' /\ pure_sort_rev lt l = x.
  Proof.
    intros I E. unfold py_sort_rev in E. inv_bind E y s1 Ea. destruct (sort_agree _ _ _ _ I Ea) as (I1 & <-). injection E as <- <-. split; [exact I1|reflexivity].
  Qed.
End EffSort.
Lemma all_rings_in s r : (r < s_rnext s)%positive -> In r (all_rings s).
Proof.
  intros H. unfold all_rings. apply in_map_iff. exists (Nat.pred (Pos.to_nat r)). split; [|apply in_seq; lia].
  rewrite <- (Pos2Nat.id r) at 2. destruct (Pos2Nat.is_succ r) as (n & E). rewrite E. cbn [Nat.pred]. rewrite <- Pos.of_nat_succ. reflexivity.
Qed.
Lemma all_rings_nodup s : NoDup (all_rings s).
Proof.
  unfold all_rings. generalize (seq_NoDup (Nat.pred (Pos.to_nat (s_rnext s))) 0). generalize (seq 0 (Nat.pred (Pos.to_nat (s_rnext s)))).
  induction l as [|n l IH]; intros N; cbn [map]; [constructor|]. inversion N as [|? ? A B]; subst. constructor; [|apply IH; exact B].
  intros H. apply in_map_iff in H. destruct H as (m & E & Hm). apply SuccNat2Pos.inj in E. congruence.
Qed.
Lemma points_in s r : well_ringed s -> first_of s r <> None -> In r (all_rings s).
Proof. intros W F. apply all_rings_in. destruct (first_of s r) as [n|] eqn:E; [|contradiction]. apply (wr_known s W n r). apply (wr_first s W). exact E. Qed.
Lemma abs_area_fun s r x y : abs_area s r x -> abs_area s r y -> x = y.
Proof. intros (vs & f & O & E & ->) (ws & g & O' & E' & ->). rewrite (outline_fun s r ws vs O' O) in E'. congruence. Qed.
Lemma abs_area_points s r x : abs_area s r x -> first_of s r <> None.
Proof. intros (vs & f & (n & l & F & _) & _). congruence. Qed.
Lemma keys s (l : list rid) : well_ringed s -> exists k : rid -> Rdefinitions.R, forall r x, In r l -> abs_area s r x -> x = k r.
Proof.
  intros W. induction l as [|q l (k & K)]; [exists (fun _ => 0%R); intros r x []|].
  assert (exists z, forall x, abs_area s q x -> x = z) as (z & Z).
  { destruct (first_of s q) as [n|] eqn:F.
    - destruct (well_at s n q W (wr_first s W q n F)) as (m & C & _).
      assert (O : outline_of s q (vertices s (n :: m))) by (exists n, m; auto).
      destruct (int_truediv (- area2 (vertices s (n :: m))) 2) as [f|e|] eqn:E.
      + exists (Rabs (val f)). intros x X. apply (abs_area_fun s q); [exact X|]. exists (vertices s (n :: m)), f. auto.
      + exists 0%R. intros x (vs & f & O' & E' & _). rewrite (outline_fun s q vs _ O' O) in E'. congruence.
      + exists 0%R. intros x (vs & f & O' & E' & _). rewrite (outline_fun s q vs _ O' O) in E'. congruence.
    - exists 0%R. intros x X. apply abs_area_points in X. congruence. }
  exists (fun r => if Pos.eqb r q then z else k r). intros r x Hr X. destruct (Pos.eqb_spec r q) as [->|N]; [apply Z; exact X|].
  destruct Hr as [->|Hr]; [congruence|]. apply K; assumption.
Qed.
Section Order.
  Context (s0 : st) (k : rid -> Rdefinitions.R) (I0 : in_order s0) (K : forall r x, In r (all_rings s0) -> abs_area s0 r x -> x = k r).
  Definition before_lt (a b : rid) : bool :=
    match first_of s0 a, first_of s0 b with
    | Some _, Some _ => Rlt_bool (k a) (k b)
    | Some _, None => true
    | None, _ => false
    end.
  Lemma key_at s r : calc s0 s -> settled s r -> Rabs (val (r_area (ring_at s r))) = k r.
  Proof.
    intros C S. destruct (abs_area_settled s r S) as (A & _). apply (abs_good s0 s r _ (calc_good _ _ r C)) in A.
    apply K; [|exact A]. apply points_in; [apply I0|]. exact (abs_area_points _ _ _ A).
  Qed.
  Lemma ring_lt_agree fuel a b s x s' : calc s0 s -> ring_lt fuel a b s = Ok (x, s') -> calc s0 s' /\ x = before_lt a b.
  Proof.
    intros C E. split; [eapply R_trans; [exact C|apply (calc_ring_lt fuel a b _ _ _ E)]|]. unfold ring_lt in E.
    rewrite (bind_run _ _ _ _ _ (rg_run s a)), (bind_run _ _ _ _ _ (rg_run s b)) in E. unfold before_lt.
    rewrite <- (same_first _ _ a (proj1 C)), <- (same_first _ _ b (proj1 C)). unfold first_of.
    destruct (r_node (ring_at s a)) as [n|] eqn:Fa; [destruct (r_node (ring_at s b)) as [m|] eqn:Fb|]; cbn [is_none is_some orb] in E;
      [|injection E as <- _; reflexivity|injection E as <- _; reflexivity].
    assert (I : in_order s) by (apply C, I0).
    inv_bind E aa s1 Ea. destruct (reads_area fuel a s aa s1 Ea) as (C1 & -> & Sa). specialize (Sa I ltac:(unfold first_of; congruence)).
    inv_bind E ab s2 Eb. destruct (reads_area fuel b s1 ab s2 Eb) as (C2 & -> & Sb).
    specialize (Sb (proj2 (proj2 (proj2 C1)) I) ltac:(rewrite (same_first _ _ b (proj1 C1)); unfold first_of; congruence)).
    destruct (settled_calc s1 s2 a C2 Sa) as (Sa2 & Ra). rewrite <- Ra in E. rewrite (abs_lt_settled s2 a b Sa2 Sb) in E. injection E as <- _.
    assert (C' : calc s0 s2) by (eapply R_trans; [exact C|]; eapply R_trans; eassumption).
    rewrite (key_at s2 a C' Sa2), (key_at s2 b C' Sb). reflexivity.
  Qed.
  Lemma before_asym a b : before_lt a b = true -> before_lt b a = false.
  Proof.
    unfold before_lt. destruct (first_of s0 a), (first_of s0 b); try congruence. intros H.
    destruct (Rlt_bool_spec (k a) (k b)); [|discriminate]. apply Rlt_bool_false. lra.
  Qed.
  Lemma before_trans a b c : before_lt b a = false -> before_lt c b = false -> before_lt c a = false.
  Proof.
    unfold before_lt. destruct (first_of s0 a), (first_of s0 b), (first_of s0 c); try congruence.
    destruct (Rlt_bool_spec (k b) (k a)); [discriminate|]. destruct (Rlt_bool_spec (k c) (k b)); [discriminate|]. intros _ _. apply Rlt_bool_false. lra.
  Qed.
End Order.
Definition not_smaller (s : st) (a b : rid) : Prop := forall x y, abs_area s a x -> abs_area s b y -> (y <= x)%R.
Lemma reversed_sorted_sorts fuel s l s' : in_order s -> reversed_sorted_rings fuel s = Ok (l, s') ->
  calc s s' /\ Permutation (all_rings s) l /\ StronglySorted (not_smaller s) l.
Proof.
  intros I E. destruct (keys s (all_rings s) (proj1 I)) as (k & K). unfold reversed_sorted_rings in E. inv_bind E t s1 Ea. injection Ea as <- <-.
  destruct (sort_rev_agree (ring_lt fuel) (before_lt s k) (calc s) (fun a b t x t' => ring_lt_agree s k I K fuel a b t x t') _ _ _ _ (R_refl s) E) as (C & <-).
  split; [exact C|]. destruct (pure_sort_rev_spec (before_lt s k) (before_asym s k) (before_trans s k) (all_rings s)) as (P & S). split; [exact P|].
  revert S. generalize (pure_sort_rev (before_lt s k) (all_rings s)). intros l S. induction S as [|a l S IH F]; constructor; [exact IH|].
  revert F. apply Forall_impl. intros b L x y X Y. unfold le, before_lt in L.
  pose proof (abs_area_points _ _ _ X) as Fa. pose proof (abs_area_points _ _ _ Y) as Fb.
  rewrite (K a x (points_in s a (proj1 I) Fa) X), (K b y (points_in s b (proj1 I) Fb) Y).
  destruct (first_of s a); [|contradiction]. destruct (first_of s b); [|contradiction]. destruct (Rlt_bool_spec (k a) (k b)); [discriminate|assumption].
Qed.
Lemma sorted_rev_split {A} (R : A -> A -> Prop) l1 a l2 : StronglySorted R (l1 ++ a :: l2) -> forall b, In b l2 -> R a b.
Proof. induction l1 as [|x l1 IH]; intros S; inversion S as [|? ? S' F]; subst; [apply Forall_forall; exact F|apply IH; exact S']. Qed.
Lemma tree_nests fuel s u s' : in_order s -> correct_tree fuel s = Ok (u, s') ->
  in_order s' /\ s_rnext s' = s_rnext s /\ exists order, Permutation (all_rings s) order /\ StronglySorted (not_smaller s) order /\
    (forall r, first_of s r = None -> first_of s' r = None) /\
    (forall r vs, outline_of s r vs -> area2 vs = 0 -> first_of s' r = None) /\
    (forall r vs, outline_of s r vs -> area2 vs <> 0 -> outline_of s' r vs /\ settled s' r /\ r_corrected (ring_at s' r) = true) /\
    (forall before r after, order = before ++ r :: after -> has_points s' r -> placed s' before r).
Proof.
  intros I E. unfold correct_tree in E. inv_bind E l s1 Ea. destruct (reversed_sorted_sorts fuel s l s1 I Ea) as (C & P & S).
  assert (ND : NoDup (rev l ++ [])). { rewrite app_nil_r. apply NoDup_rev. apply (Permutation_NoDup P). apply all_rings_nodup. }
  pose proof (tree_loop fuel s l (proj1 I) [] s1 u s' (tree_inv_start s s1 I C) ND E) as T. rewrite app_nil_r in T.
  destruct T as (I' & RN & U & V). split; [exact I'|]. split; [exact RN|]. exists l. split; [exact P|]. split; [exact S|].
  assert (SP : forall r, In r l -> exists l1 l2, rev l = l1 ++ r :: l2). { intros r Hr. apply in_split. apply in_rev in Hr. exact Hr. }
  assert (IN : forall r, first_of s r <> None -> In r l) by (intros r F; apply (Permutation_in _ P); apply points_in; [apply I|exact F]).
  assert (HN : forall r, first_of s r = None -> first_of s' r = None).
  { intros r F. destruct (in_dec Pos.eq_dec r (rev l)) as [J|J].
    - apply in_split in J. destruct J as (l1 & l2 & J). destruct (V l1 r l2 J) as (V1 & _). auto.
    - destruct (U r J) as (G & _). apply (good_first s); auto; [apply I|apply I']. }
  split; [exact HN|]. split; [|split].
  - intros r vs O Z. assert (F : first_of s r <> None) by (destruct O as (n & m & F & _); congruence).
    destruct (SP r (IN r F)) as (l1 & l2 & J). destruct (V l1 r l2 J) as (_ & V2 & _). exact (V2 vs O Z).
  - intros r vs O Z. assert (F : first_of s r <> None) by (destruct O as (n & m & F & _); congruence).
    destruct (SP r (IN r F)) as (l1 & l2 & J). destruct (V l1 r l2 J) as (_ & _ & V3). destruct (V3 vs O Z) as (A & B & _ & D). auto.
  - intros before r after EQ HP.
    assert (J : rev l = rev after ++ r :: rev before) by (rewrite EQ, rev_app_distr; cbn [rev]; rewrite <- app_assoc; reflexivity).
    destruct (V _ r _ J) as (V1 & V2 & V3). rewrite rev_involutive in V3.
    destruct (first_of s r) as [n|] eqn:F.
    + destruct (well_at s n r (proj1 I) (wr_first s (proj1 I) r n F)) as (m & Cm & _).
      assert (O : outline_of s r (vertices s (n :: m))) by (exists n, m; auto).
      destruct (Z.eq_dec (area2 (vertices s (n :: m))) 0) as [Z|Z]; [|apply (V3 _ O Z)].
      exfalso. apply (outline_first s' r (proj1 I')); [apply (V2 _ O Z)|exact HP].
    + exfalso. apply (outline_first s' r (proj1 I')); [apply V1; reflexivity|exact HP].
Qed.
