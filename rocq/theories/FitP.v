(** * The stored statistics stay up to date while rings are cut, joined and thinned *)
From Coq Require Import ZArith List Bool Lia FMapPositive Permutation.
From Coq Require Import Floats.SpecFloat.
From RecordUpdate Require Import RecordSet.
From Verif Require Import Py Monad Utils Geometry LinearRingM BoundM LocalMinimumM
     StateM PointNodeM RingM SweepM TopologyM WagyuM HoareP SpecRing SpecHeap SpecRings SpecTree SweepFrameP CalmP OrderP VatP FuelP PipP SortP
     CircleP HeapOpsP StatsP SplitP LinearRingP NodeFrameP RingedP RingedTopP RingedCutP RingedPathP RingedFixP RingedArcP RingedSameP RingedOtherP RingedTreeP TreeP
     NestP NestTreeP OrientP RegionP SpecNest.
Import ListNotations RecordSetNotations.
Open Scope Z_scope.

(** ** Bystanders *)
Definition among (s : st) (R : rid -> Prop) (r : rid) : Prop := R r \/ (s_rnext s <= r)%positive.
Definition inside (s : st) (R : rid -> Prop) (k : nid) : Prop := exists r, among s R r /\ ring_of s k = Some r.
Lemma region_start s (R : rid -> Prop) : well_ringed s -> region s (inside s R) (among s R) s.
Proof.
  intros W. split; auto.
  - intros k (r & Ar & Rk). destruct (well_at s k r W Rk) as (l & C & M). split; [|split].
    + destruct (n_next (node_at s k)) as [j|] eqn:E; [|exact Logic.I]. destruct (well_next s k j r W Rk E) as (Rj & _). exists r. auto.
    + destruct (n_prev (node_at s k)) as [j|] eqn:E; [|exact Logic.I]. destruct (well_prev s k j r W Rk E) as (Rj & _). exists r. auto.
    + change (okr (among s R) (ring_of s k)). rewrite Rk. exact Ar.
  - intros r Ar. destruct (first_of s r) as [n|] eqn:F; [|exact Logic.I]. exists r. split; [exact Ar|]. apply (wr_first s W). exact F.
  - intros r _. repeat split.
  - intros r H. right. exact H.
Qed.
Definition bystander (s s' : st) (q : rid) : Prop :=
  (forall i, ring_of s i = Some q -> node_at s' i = node_at s i) /\ first_of s' q = first_of s q /\ stats_same s s' q /\
  r_corrected (ring_at s' q) = r_corrected (ring_at s q).
Lemma region_bystander s (R : rid -> Prop) s' q : region s (inside s R) (among s R) s' -> ~ R q -> (q < s_rnext s)%positive -> bystander s s' q.
Proof.
  intros RG NR L. assert (NA : ~ among s R q) by (intros [H|H]; [contradiction|lia]).
  split; [|apply (rn_rings _ _ _ _ RG q NA)]. intros i Hi. apply (rn_out _ _ _ _ RG). intros (r & Ar & E). congruence.
Qed.
Lemma bystander_settled s s' q : well_ringed s -> bystander s s' q -> settled s q -> settled s' q.
Proof. intros W (N & F & (A & B & C & D) & _) S. apply (settled_frame s); auto. Qed.
(** ** Rings that were measured again, or have lost their points *)
Definition fit (s : st) (q : rid) : Prop := first_of s q = None \/ settled s q.
Lemma order_from s s' (R : rid -> Prop) : in_order s -> (forall q, R q \/ ~ R q) -> region s (inside s R) (among s R) s' -> well_ringed s' ->
  (forall q, among s R q -> fit s' q) -> in_order s'.
Proof.
  intros (W & U) DR RG W' H. split; [exact W'|]. apply settled_up. intros r n F.
  assert (D : among s R r \/ ~ R r /\ (r < s_rnext s)%positive).
  { unfold among. destruct (DR r); [auto|]. destruct (Pos.leb_spec (s_rnext s) r); auto. }
  destruct D as [A|(NR & L)].
  - destruct (H r A) as [N|S]; [congruence|auto].
  - pose proof (region_bystander s R s' r RG NR L) as B. pose proof B as (_ & Fr & (_ & _ & Ar & _) & _). rewrite Fr in F.
    destruct (f_is_nan (r_area (ring_at s r))) eqn:NN; [left; congruence|right].
    apply (bystander_settled s); [exact W|exact B|]. exact (up_settled s r n U F NN).
Qed.
Lemma unborn s q : well_ringed s -> (s_rnext s <= q)%positive -> first_of s q = None.
Proof.
  intros W L. destruct (first_of s q) as [n|] eqn:F; [|reflexivity]. pose proof (wr_first s W q n F) as H. destruct (wr_known s W n q H). lia.
Qed.
(** ** Renaming and pointing elsewhere *)
Definition links (s s' : st) : Prop :=
  (forall i, n_next (node_at s' i) = n_next (node_at s i) /\ n_prev (node_at s' i) = n_prev (node_at s i) /\ npos (node_at s' i) = npos (node_at s i)) /\
  s_rings s' = s_rings s /\ s_rnext s' = s_rnext s.
#[export] Instance links_pre : PreOrd links.
Proof.
  split; [intros s; repeat split|]. intros s1 s2 s3 (A1 & A2 & A3) (B1 & B2 & B3). repeat split; try congruence; destruct (A1 i) as (? & ? & ?), (B1 i) as (? & ? & ?); congruence.
Qed.
#[export] Hint Resolve links_pre : pres.
Lemma links_nring i o : pres links (set_nring i o).
Proof.
  intros s u s' E. injection E as _ <-. change (links s (put s i (fun n => n <| n_ring := o |>))). split; [|split; reflexivity]. intros k. rewrite node_at_put. destruct (Pos.eqb_spec i k) as [<-|_]; repeat split.
Qed.
Lemma links_update fuel r : pres links (update_points fuel r).
Proof.
  unfold update_points. apply pres_bind; [typeclasses eauto|apply pres_gets; typeclasses eauto|]. intros x. destruct (r_node x); [|apply pres_raise].
  unfold iter_nodes. apply pres_loopM; [typeclasses eauto|]. intros c. apply pres_bind; [typeclasses eauto|pres_auto|]. intros k.
  apply pres_bind; [typeclasses eauto|apply links_nring|]. intros _. apply pres_bind; [typeclasses eauto|apply pres_gets; typeclasses eauto|]. intros m. pres_auto.
Qed.
Lemma vertices_pos s s' l : (forall i, npos (node_at s' i) = npos (node_at s i)) -> vertices s' l = vertices s l.
Proof. intros H. unfold vertices. apply map_ext. exact H. Qed.
Lemma settled_carry s s' r : (forall i, n_next (node_at s' i) = n_next (node_at s i) /\ n_prev (node_at s' i) = n_prev (node_at s i) /\ npos (node_at s' i) = npos (node_at s i)) ->
  first_of s' r = first_of s r -> stats_same s s' r -> settled s r -> settled s' r.
Proof.
  intros L F (E1 & E2 & E3 & E4) (n & l & Fn & C & H1 & H2 & H3 & H4). exists n, l. rewrite F. split; [exact Fn|].
  split; [revert C; apply circle_frame; intros k _; destruct (L k) as (A & B & _); auto|]. rewrite (vertices_pos s s' (n :: l)) by (intros i; apply L).
  rewrite E1, E2, E3, E4. auto.
Qed.
Lemma settled_links s s' r : links s s' -> settled s r -> settled s' r.
Proof. intros (L & R & _). apply settled_carry; [exact L|unfold first_of, ring_at; rewrite R; reflexivity|unfold stats_same, ring_at; rewrite R; repeat split]. Qed.
Lemma settled_rput s r q f : r <> q -> settled s q -> settled (rput s r f) q.
Proof.
  intros N. apply settled_carry; [intros i; repeat split|rewrite first_rput; destruct (Pos.eqb_spec r q); [congruence|reflexivity]|].
  unfold stats_same. rewrite ring_at_rput. destruct (Pos.eqb_spec r q); [congruence|repeat split].
Qed.
Lemma recalc_circle fuel r n l s u s' : first_of s r = Some n -> circle s (n :: l) -> recalculate_stats fuel r s = Ok (u, s') ->
  settled s' r /\ (forall q, q <> r -> settled s q -> settled s' q) /\ s_rnext s' = s_rnext s /\ (forall q, first_of s' q = first_of s q).
Proof.
  intros F C E. destruct (recalc_run fuel r s u s' E) as [(N & _)|(m & t & Fm & Et & ->)]; [congruence|]. assert (m = n) by congruence. subst m.
  split; [exact (settled_measured fuel r n l t s F C Et)|]. split; [intros q Q; apply settled_rput; congruence|]. split; [reflexivity|].
  intros q. rewrite first_rput. destruct (Pos.eqb_spec r q) as [<-|_]; reflexivity.
Qed.
(** ** Removing rings *)
Lemma remove_ring_gone fuel d r b s u s' : remove_ring fuel d r false b s = Ok (u, s') ->
  first_of s' r = None /\ s_rnext s' = s_rnext s /\ (forall q, q <> r -> first_of s' q = first_of s q) /\ (forall q, q <> r -> settled s q -> settled s' q).
Proof.
  intros E. destruct d as [|d]; [discriminate|]. cbn [remove_ring] in E.
  inv_bind E v s1 Ea. assert (H1 : shelf s s1).
  { refine (shelf_iter fuel (Some r) _ _ _ _ _ Ea). intros k c. pres_auto. }
  inv_bind E w s2 Eb. assert (H2 : shelf s1 s2).
  { revert Eb. destruct b; [|intros Eb; injection Eb as _ <-; apply R_refl]. intros Eb.
    assert (P : pres shelf (bind (rg r) (fun x => remove_from_children r (r_parent x)))) by pres_auto. exact (P _ _ _ Eb). }
  pose proof (R_trans _ _ _ H1 H2) as (S & K).
  rewrite (bind_run _ _ _ _ _ (upd_ring_rput _ _ _)) in E. unfold reset_stats in E. rewrite upd_ring_rput in E. injection E as _ <-.
  split; [rewrite !first_rput, Pos.eqb_refl; unfold first_of; rewrite ring_at_rput, Pos.eqb_refl; reflexivity|].
  split; [cbn; apply S|]. split.
  - intros q Q. rewrite !first_rput. destruct (Pos.eqb_spec r q); [congruence|]. apply (same_first _ _ _ S).
  - intros q Q Sq. apply settled_rput; [congruence|]. apply settled_rput; [congruence|]. revert Sq. apply settled_carry; [|apply (same_first _ _ _ S)|apply K].
    intros i. rewrite (proj1 S i). auto.
Qed.
Lemma remove_points_gone fuel d r b s u s' : remove_ring_and_points fuel d r false b s = Ok (u, s') -> first_of s' r = None /\ s_rnext s' = s_rnext s /\ (forall q, q <> r -> first_of s' q = first_of s q).
Proof.
  intros E. destruct d as [|d]; [discriminate|]. cbn [remove_ring_and_points] in E.
  inv_bind E v s1 Ea. assert (H1 : shelf s s1).
  { refine (shelf_iter fuel (Some r) _ _ _ _ _ Ea). intros k c. pres_auto. }
  inv_bind E w s2 Eb. assert (H2 : shelf s1 s2).
  { revert Eb. destruct b; [|intros Eb; injection Eb as _ <-; apply R_refl]. intros Eb.
    assert (P : pres shelf (bind (rg r) (fun x => remove_from_children r (r_parent x)))) by pres_auto. exact (P _ _ _ Eb). }
  pose proof (R_trans _ _ _ H1 H2) as (S & K). rewrite (bind_run _ _ _ _ _ (rg_run s2 r)) in E.
  inv_bind E x s3 Ec.
  assert (H3 : s_rings s3 = s_rings s2 /\ s_rnext s3 = s_rnext s2).
  { revert Ec. destruct (r_node (ring_at s2 r)) as [n|]; [|intros Ec; injection Ec as _ <-; auto].
    set (RR := fun s s' : st => s_rings s' = s_rings s /\ s_rnext s' = s_rnext s).
    assert (PO : PreOrd RR) by (split; [split; reflexivity|intros a1 a2 a3 (X1 & X2) (Y1 & Y2); split; congruence]).
    assert (P : pres RR (clear_nodes fuel n)).
    { unfold clear_nodes, prev_of, set_next. repeat first [progress pres_step|apply pres_modify; intros ?; split; reflexivity|apply pres_gets; typeclasses eauto]. }
    intros Ec. exact (P _ _ _ Ec). }
  destruct H3 as (H3 & H4). assert (Q3 : forall q, ring_at s3 q = ring_at s2 q) by (intros q; unfold ring_at; rewrite H3; reflexivity).
  rewrite (bind_run _ _ _ _ _ (upd_ring_rput _ _ _)) in E. unfold reset_stats in E. rewrite upd_ring_rput in E. injection E as _ <-.
  split; [rewrite !first_rput, Pos.eqb_refl; unfold first_of; rewrite ring_at_rput, Pos.eqb_refl; reflexivity|].
  split; [cbn; rewrite H4; apply S|].
  intros q Q. rewrite !first_rput. destruct (Pos.eqb_spec r q); [congruence|]. unfold first_of. rewrite Q3. apply (same_first _ _ _ S).
Qed.
(** ** One ring *)
Lemma same_rest_fits fuel r f N : tri (fun s => fixed_same r f s /\ s_rnext s = N /\ (r < N)%positive) (same_rest fuel r f)
  (fun _ s => fit s r /\ fit s N /\ (s_rnext s = N \/ s_rnext s = Pos.succ N)).
Proof.
  assert (RM : forall s u s', s_rnext s = N -> (r < N)%positive -> well_but (eq r) s -> remove_ring fuel fuel r false true s = Ok (u, s') ->
     fit s' r /\ fit s' N /\ (s_rnext s' = N \/ s_rnext s' = Pos.succ N)).
  { intros s u s' RN L W E. destruct (remove_ring_gone _ _ _ _ _ _ _ E) as (F & RN' & FF & _).
    split; [left; exact F|]. split; [left|left; congruence]. rewrite FF by lia.
    destruct (first_of s N) as [n|] eqn:Fn; [|reflexivity]. assert (NE : r <> N) by lia. pose proof (wb_first _ s W N n NE Fn) as Rn.
    destruct (wb_known _ s W n N Rn). lia. }
  destruct f as [[p|] [q|]]; cbn [fixed_same same_rest].
  - intros s u s' ((D & H & SI) & RN & L) E. unfold bind at 1 in E. rewrite create_ring_run in E.
    assert (PA : parted r N (p :: D) (q :: H) (alloc_ring s)).
    { rewrite <- RN. apply (split_create r (p :: D) (q :: H) s (s_rnext s) (alloc_ring s) SI). apply create_ring_run. }
    assert (R1 : s_rnext (alloc_ring s) = Pos.succ N) by (rewrite <- RN; reflexivity). revert E R1 PA. rewrite RN. generalize (alloc_ring s). clear s SI RN. intros s E R1 PA. cbv iota beta in E.
    rewrite (bind_run _ _ _ _ _ (upd_ring_rput _ _ _)) in E.
    set (s1 := rput s N (fun x => x <| r_node := Some q |>)) in *.
    assert (P1 : parted r N (p :: D) (q :: H) s1) by (apply parted_rput; auto).
    assert (F1 : first_of s1 N = Some q) by (unfold s1; rewrite first_rput, Pos.eqb_refl; reflexivity).
    inv_bind E v s2 Ea. destruct (recalc_circle fuel N q H s1 v s2 F1 (pa_right _ _ _ _ _ P1) Ea) as (S2 & _ & R2 & F2).
    assert (P2 : parted r N (p :: D) (q :: H) s2).
    { apply (parted_same r N _ _ s1); [|exact P1]. exact ((ltac:(nf_auto) : pres same_ringed (recalculate_stats fuel N)) _ _ _ Ea). }
    inv_bind E w s3 Eb. assert (F2' : first_of s2 N = Some q) by (rewrite F2; exact F1).
    destruct (parted_relabel r N q H (p :: D) s2 fuel w s3 (parted_swap _ _ _ _ _ P2) F2' Eb) as (W3 & M3 & F3).
    pose proof (links_update fuel N s2 w s3 Eb) as L3. pose proof (settled_links _ _ _ L3 S2) as S3.
    rewrite (bind_run _ _ _ _ _ (upd_ring_rput _ _ _)) in E. set (s4 := rput s3 r (fun x => x <| r_node := Some p |>)) in *.
    assert (S4 : settled s4 N) by (apply settled_rput; [lia|exact S3]).
    assert (W4 : well_ringed s4).
    { apply (parted_close r _ (p :: D) p); [apply but_rput; [exact W3|congruence]|exact M3|unfold s4; rewrite first_rput, Pos.eqb_refl; reflexivity|left; reflexivity]. }
    assert (F4 : first_of s4 r = Some p) by (unfold s4; rewrite first_rput, Pos.eqb_refl; reflexivity).
    destruct (well_at s4 p r W4 (wr_first s4 W4 r p F4)) as (l & C4 & _).
    destruct (recalc_circle fuel r p l s4 u s' F4 C4 E) as (S5 & K5 & R5 & F5).
    split; [right; exact S5|]. split; [right; apply K5; [lia|exact S4]|]. right. rewrite R5. change (s_rnext s4) with (s_rnext s3).
    destruct L3 as (_ & _ & L3). rewrite L3, R2. exact R1.
  - intros s u s' (FS & RN & L) E. rewrite (bind_run _ _ _ _ _ (upd_ring_rput _ _ _)) in E. set (s1 := rput s r (fun x => x <| r_node := Some p |>)) in *.
    assert (F1 : first_of s1 r = Some p) by (unfold s1; rewrite first_rput, Pos.eqb_refl; reflexivity).
    destruct FS as [(W & M)|(l & Le & Nl)]; [|exfalso; exact (recalculate_open s1 r p l fuel _ F1 (ends_rput _ _ _ _ _ Le) Nl E)].
    assert (W1 : well_ringed s1).
    { apply (parted_close r _ [p] p); [apply but_rput; [exact W|congruence]|intros i [<-|[]]; exact M|exact F1|left; reflexivity]. }
    destruct (well_at s1 p r W1 (wr_first s1 W1 r p F1)) as (l & C1 & _).
    destruct (recalc_circle fuel r p l s1 u s' F1 C1 E) as (S5 & K5 & R5 & F5).
    split; [right; exact S5|]. split; [left|left; rewrite R5; exact RN]. rewrite F5. apply unborn; [exact W1|]. change (s_rnext s1) with (s_rnext s). lia.
  - intros s u s' (W & RN & L) E. exact (RM s u s' RN L W E).
  - intros s u s' (W & RN & L) E. exact (RM s u s' RN L W E).
Qed.
Lemma pass_up s s' q : same_ringed s s' -> well_but q s -> well_but q s'. Proof. apply but_same. Qed.
(** ** Two rings *)
Lemma union_fits fuel u o p l N : tri (fun s => pooled u o l s /\ In p l /\ s_rnext s = N) (union_rest fuel u o p)
  (fun _ s => fit s u /\ fit s o /\ s_rnext s = N).
Proof.
  intros s x s' (P & I & RN) E. unfold union_rest in E. rewrite (bind_run _ _ _ _ _ (upd_ring_rput _ _ _)) in E.
  set (s1 := rput s u (fun x => x <| r_node := Some p |>)) in *.
  assert (P1 : pooled u o l s1) by (apply pooled_rput; exact P). assert (F1 : first_of s1 u = Some p) by (unfold s1; rewrite first_rput, Pos.eqb_refl; reflexivity).
  pose proof (po_neq _ _ _ _ P) as Nuo.
  inv_bind E v s2 Ea. destruct (pooled_relabel u o p l s1 fuel v s2 P1 I F1 Ea) as (W2 & _).
  destruct (links_update fuel u s1 v s2 Ea) as (L2 & L2r & L2n).
  assert (F2 : first_of s2 u = Some p) by (unfold first_of, ring_at in *; rewrite L2r; exact F1).
  assert (Nou : ~ o = u) by congruence.
  destruct (but_at _ s2 p u W2 (wb_first _ s2 W2 u p Nou F2)) as (m & C2 & _).
  inv_bind E w s3 Eb. destruct (recalc_circle fuel u p m s2 w s3 F2 C2 Eb) as (S3 & K3 & R3 & F3).
  rewrite (bind_run _ _ _ _ _ (size_settled fuel u s3 S3)) in E. inv_bind E y s4 Ec.
  assert (H4 : fit s4 u /\ s_rnext s4 = s_rnext s3).
  { revert Ec. destruct (_ <? _)%nat; [|intros Ec; injection Ec as _ <-; split; [right; exact S3|reflexivity]].
    intros Ec. destruct (remove_points_gone _ _ _ _ _ _ _ Ec) as (A & B & _). split; [left; exact A|exact B]. }
  destruct H4 as (H4 & R4). destruct (remove_ring_gone _ _ _ _ _ _ _ E) as (A & B & C & D).
  split; [destruct H4 as [H4|H4]; [left; rewrite C by congruence; exact H4|right; apply D; [congruence|exact H4]]|]. split; [left; exact A|].
  rewrite B, R4, R3, L2n. exact RN.
Qed.
Lemma other_fits fuel larger r1 r2 f l N :
  tri (fun s => pooled r1 r2 l s /\ match fst f with None => l = [] | Some p => In p l end /\ s_rnext s = N) (other_rest fuel larger r1 r2 f)
    (fun _ s => fit s r1 /\ fit s r2 /\ s_rnext s = N).
Proof.
  unfold other_rest. destruct (fst f) as [p|].
  - destruct larger; [exact (union_fits fuel r1 r2 p l N)|].
    intros s u s' (P & I & RN) E. destruct (union_fits fuel r2 r1 p l N s u s' (conj (pooled_sym _ _ _ _ P) (conj I RN)) E) as (A & B & C). auto.
  - intros s u s' (P & I & RN) E. pose proof (po_neq _ _ _ _ P) as Nuo. inv_bind E v s1 Ea. destruct (remove_ring_gone _ _ _ _ _ _ _ Ea) as (A & B & C & D).
    destruct (remove_ring_gone _ _ _ _ _ _ _ E) as (A' & B' & C' & D'). split; [left; rewrite C' by congruence; exact A|]. split; [left; exact A'|congruence].
Qed.
