(** * Correcting collinear edges and self intersections keeps rings and statistics in order *)
From Coq Require Import ZArith List Bool Lia FMapPositive Permutation.
From Coq Require Import Floats.SpecFloat.
From RecordUpdate Require Import RecordSet.
From Verif Require MiscP IntersectP.
From Verif Require Import Py Monad Utils Geometry LinearRingM BoundM LocalMinimumM
     StateM PointNodeM RingM SweepM TopologyM WagyuM HoareP SpecRing SpecHeap SpecRings SpecTree SweepFrameP CalmP OrderP VatP FuelP PipP SortP PointersP
     CircleP HeapOpsP StatsP SplitP LinearRingP NodeFrameP RingedP RingedTopP RingedCutP RingedPathP RingedFixP RingedArcP RingedSameP RingedOtherP RingedTreeP TreeP
     NestP NestTreeP OrientP RegionP FitP SpecNest.
Import ListNotations RecordSetNotations.
Open Scope Z_scope.

(** ** Positions never change *)
Definition unmoved (s s' : st) : Prop := forall i, npos (node_at s' i) = npos (node_at s i).
#[export] Instance unmoved_pre : PreOrd unmoved.
Proof. split; [intros s i; reflexivity|]. intros a b c H K i. rewrite K, H. reflexivity. Qed.
#[export] Instance unmoved_rel : NodeRel unmoved.
Proof. split; [typeclasses eauto|]. intros s s' H i. rewrite (proj1 H). reflexivity. Qed.
#[export] Hint Resolve unmoved_pre unmoved_rel : pres.
Lemma unmoved_keeps {A} (m : prog A) : (forall W, PointersP.keeps (fun _ => True) W m T) -> pres unmoved m.
Proof.
  intros H s a s' E i. refine (pt_place _ _ _ (proj1 (H (place s) s a s' _ E)) i).
  split; try (intros; exact Logic.I); try (intros ? ? ?; exact Logic.I).
  - intros k. split; intros ? ?; exact Logic.I.
  - apply Forall_forall. trivial.
  - intros r. apply Forall_forall. intros p _. split; exact Logic.I.
  - reflexivity.
Qed.
(** ** Cutting *)
Lemma settled_with s r n l t x : first_of s r = Some n -> circle s (n :: l) -> stats_of s (n :: l) t -> ring_at s r = with_stats t x -> settled s r.
Proof.
  intros F C S E. destruct (measured_with s r (n :: l) t x S E) as (H1 & H2 & H3 & H4). exists n, l. split; [exact F|]. split; [exact C|]. split; [lia|]. auto.
Qed.
Lemma stats_of_pos s s' l t : unmoved s s' -> stats_of s l t -> stats_of s' l t.
Proof. intros H. apply stats_of_same. exact H. Qed.
Lemma cut_fits fuel r i j N : tri (fun s => (exists l1 l2, split_in r (i :: l1) (j :: l2) s) /\ s_rnext s = N /\ (r < N)%positive) (cut_rest fuel r i j)
  (fun _ s => fit s r /\ fit s N /\ s_rnext s = Pos.succ N).
Proof.
  intros s o s' ((l1 & l2 & SI) & RN & L) E. unfold cut_rest in E. unfold bind at 1 in E. rewrite create_ring_run in E.
  assert (PA : parted r N (i :: l1) (j :: l2) (alloc_ring s)).
  { rewrite <- RN. apply (split_create r (i :: l1) (j :: l2) s (s_rnext s) (alloc_ring s) SI). apply create_ring_run. }
  assert (R1 : s_rnext (alloc_ring s) = Pos.succ N) by (rewrite <- RN; reflexivity). revert E R1 PA. rewrite RN. generalize (alloc_ring s). clear s SI RN. intros s E R1 PA. cbv iota beta in E.
  pose proof (pa_left _ _ _ _ _ PA) as C1. pose proof (pa_right _ _ _ _ _ PA) as C2.
  inv_bind E t1 sa Ea. destruct (node_stats_any s i l1 fuel t1 sa C1 Ea) as (-> & S1).
  inv_bind E t2 sb Eb. destruct (node_stats_any s j l2 fuel t2 sb C2 Eb) as (-> & S2). clear Ea Eb.
  assert (G : forall x y lx ly tx ty u sc, circle s (x :: lx) -> circle s (y :: ly) -> stats_of s (x :: lx) tx -> stats_of s (y :: ly) ty ->
     bind (upd_ring r (fun z => z <| r_node := Some x |>)) (fun _ => bind (set_stats r tx) (fun _ =>
          bind (upd_ring N (fun z => z <| r_node := Some y |>)) (fun _ => set_stats N ty))) s = Ok (u, sc) -> settled sc r /\ settled sc N /\ s_rnext sc = Pos.succ N).
  { intros x y lx ly tx ty u sc Cx Cy Sx Sy Ec. unfold set_stats in Ec. rewrite (bind_run _ _ _ _ _ (upd_ring_rput _ _ _)) in Ec.
    rewrite (bind_run _ _ _ _ _ (upd_ring_rput _ _ _)) in Ec. rewrite (bind_run _ _ _ _ _ (upd_ring_rput _ _ _)) in Ec. rewrite upd_ring_rput in Ec. injection Ec as _ <-.
    assert (NE : N <> r) by lia. assert (NE' : r <> N) by lia.
    match goal with |- settled ?ss _ /\ _ => set (sx := ss) end.
    assert (U : forall k, node_at sx k = node_at s k) by (intros k; reflexivity).
    split; [|split; [|exact R1]].
    - eapply (settled_with sx r x lx tx (ring_at s r <| r_node := Some x |>)).
      + unfold sx. rewrite !first_rput. destruct (Pos.eqb_spec N r); [congruence|]. rewrite Pos.eqb_refl. rewrite ring_at_rput, Pos.eqb_refl. reflexivity.
      + apply (circle_same s); [intros; apply U|exact Cx].
      + revert Sx. apply stats_of_pos. intros k. rewrite U. reflexivity.
      + unfold sx. rewrite !ring_at_rput. destruct (Pos.eqb_spec N r); [congruence|]. rewrite Pos.eqb_refl. reflexivity.
    - eapply (settled_with sx N y ly ty (ring_at s N <| r_node := Some y |>)).
      + unfold sx. rewrite first_rput, Pos.eqb_refl, ring_at_rput, Pos.eqb_refl. reflexivity.
      + apply (circle_same s); [intros; apply U|exact Cy].
      + revert Sy. apply stats_of_pos. intros k. rewrite U. reflexivity.
      + unfold sx. rewrite !ring_at_rput. rewrite Pos.eqb_refl. destruct (Pos.eqb_spec r N); [congruence|]. reflexivity. }
  inv_bind E u sc Ec. assert (H : settled sc r /\ settled sc N /\ s_rnext sc = Pos.succ N).
  { revert Ec. destruct (num_gtb _ _); intros Ec; refine (G _ _ _ _ _ _ _ _ _ _ _ _ Ec); eassumption. }
  clear Ec G. destruct H as (H1 & H2 & H3). inv_bind E v sd Ed. injection E as <- <-. pose proof (links_update fuel N sc v sd Ed) as LK.
  split; [right; apply (settled_links _ _ _ LK H1)|]. split; [right; apply (settled_links _ _ _ LK H2)|]. destruct LK as (_ & _ & ->). exact H3.
Qed.
Lemma cut_cases fuel i j s o s' : i <> j -> well_ringed s -> correct_self_intersection fuel i j s = Ok (o, s') ->
  (s' = s /\ o = None /\ opt_is (ring_of s i) (ring_of s j) = false) \/
  (exists r l1 l2 s1, ring_of s i = Some r /\ ring_of s j = Some r /\ circle s (i :: l1 ++ j :: l2) /\ members s r (i :: l1 ++ j :: l2) /\
     split_in r (i :: l1) (j :: l2) s1 /\ s_rnext s1 = s_rnext s /\ s_rings s1 = s_rings s /\ (unmoved s s1 /\ forall k, ring_of s1 k = ring_of s k) /\ cut_rest fuel r i j s1 = Ok (o, s')).
Proof.
  intros Nij W E. unfold correct_self_intersection in E. rewrite (bind_run _ _ _ _ _ (nd_run s i)), (bind_run _ _ _ _ _ (nd_run s j)) in E.
  change (n_ring (node_at s i)) with (ring_of s i) in E. change (n_ring (node_at s j)) with (ring_of s j) in E.
  destruct (opt_is (ring_of s i) (ring_of s j)) eqn:T; cbn [negb] in E; [|left; injection E as <- <-; auto].
  right. destruct (ring_of s i) as [r|] eqn:Ri; [|discriminate]. 
  assert (Rj : ring_of s j = Some r).
  { destruct (ring_of s j) as [q|]; [|discriminate]. cbn in T. apply Pos.eqb_eq in T. congruence. }
  cbn [deref] in E. rewrite (bind_run _ _ _ r s) in E by reflexivity.
  destruct (well_at s i r W Ri) as (m & C & M).
  assert (I : In j m) by (destruct (proj1 (M j) Rj) as [HK|HK]; [congruence|exact HK]). apply in_split in I as (l1 & l2 & ->).
  destruct (n_prev (node_at s i)) as [third|] eqn:P3; [|unfold bind at 1, prev_of at 1 in E; rewrite (bind_run _ _ _ _ _ (nd_run s i)) in E; rewrite P3 in E; discriminate].
  rewrite (bind_run _ _ _ _ _ (prev_of_run _ _ _ P3)) in E.
  destruct (n_prev (node_at s j)) as [fourth|] eqn:P4; [|unfold bind at 1, prev_of at 1 in E; rewrite (bind_run _ _ _ _ _ (nd_run s j)) in E; rewrite P4 in E; discriminate].
  rewrite (bind_run _ _ _ _ _ (prev_of_run _ _ _ P4)) in E.
  pose proof (circle_prev _ _ _ _ C P3) as E3.
  assert (E4 : fourth = List.last l1 i).
  { destruct C as (_ & C). rewrite <- app_assoc in C. cbn [app] in C. apply chained_app in C as (C & _). apply chained_last in C. destruct C as (_ & C). congruence. }
  assert (E3' : third = List.last l2 j) by (rewrite E3; clear; rewrite last_last_app; reflexivity).
  rewrite (bind_run _ _ _ _ _ (set_prev_s s i (Some fourth))) in E.
  rewrite (bind_run _ _ _ _ _ (set_next_s _ fourth (Some i))) in E.
  rewrite (bind_run _ _ _ _ _ (set_prev_s _ j (Some third))) in E.
  rewrite (bind_run _ _ _ _ _ (set_next_s _ third (Some j))) in E.
  match type of E with bind _ _ ?x = _ => set (s1 := x) in * end.
  assert (RL : relinked s s1 (List.last l1 i) i (List.last l2 j) j).
  { unfold s1. rewrite <- E4, <- E3'. apply relinked_pnpn; [|exact Nij].
    intros X. rewrite E4, E3' in X. pose proof C as (ND & _). apply (nodup_app (i :: l1) (j :: l2)) in ND as (_ & _ & D).
    apply (D (List.last l1 i)); [apply CircleP.last_in|rewrite X; apply CircleP.last_in]. }
  exists r, l1, l2, s1. do 4 (split; [first [assumption|reflexivity]|]). split; [apply (relinked_split s s1 r i l1 j l2 W M C RL)|].
  split; [reflexivity|]. split; [reflexivity|]. split; [|exact E]. destruct RL as (_ & _ & SV & _). split; intros k; [apply same_vertices_npos; exact SV|apply (SV k)].
Qed.
Lemma cut_order fuel i j s o s' : i <> j -> in_order s -> correct_self_intersection fuel i j s = Ok (o, s') -> in_order s'.
Proof.
  intros N I E. pose proof I as (W & U). pose proof (well_cut fuel i j N s o s' W E) as W'.
  destruct (cut_cases fuel i j s o s' N W E) as [(-> & _)|(r & l1 & l2 & s1 & Ri & Rj & C & M & SI & RN & _ & _ & Ec)]; [exact I|].
  destruct (wr_known s W i r Ri) as (_ & L).
  apply (order_from s s' (eq r) I); [intros q; destruct (Pos.eq_dec r q); auto| |exact W'|].
  - refine (proj1 (rt_cut s (inside s (eq r)) (among s (eq r)) fuel i j _ _ s o s' (region_start s _ W) E)); (exists r; split; [left; reflexivity|assumption]).
  - intros q A. destruct (cut_fits fuel r i j (s_rnext s) s1 o s') as (F1 & F2 & F3); [|exact Ec|].
    { split; [exists l1, l2; exact SI|]. split; [exact RN|exact L]. }
    destruct A as [<-|A]; [exact F1|]. destruct (Pos.eq_dec q (s_rnext s)) as [->|NE]; [exact F2|]. left. apply unborn; [exact W'|lia].
Qed.

(** ** Collinear edges *)
Lemma path_rnext fuel i j : pres same_tree (collinear_path fuel i j). Proof. pres_auto. Qed.
Lemma fix_rnext fuel p : pres same_tree (fix_collinear_path fuel p). Proof. pres_auto. Qed.
Lemma same_order fuel i j s u s' : i <> j -> in_order s -> (exists r, ring_of s i = Some r /\ ring_of s j = Some r) ->
  collinear_same_ring fuel i j s = Ok (u, s') -> in_order s'.
Proof.
  intros N I (r & Ri & Rj) E. pose proof I as (W & U). pose proof (well_same_ring fuel i j N s u s' (conj W (ex_intro _ r (conj Ri Rj))) E) as W'.
  destruct (wr_known s W i r Ri) as (_ & L).
  assert (RG : region s (inside s (eq r)) (among s (eq r)) s').
  { refine (proj1 (rt_same_ring s (inside s (eq r)) (among s (eq r)) fuel i j _ _ s u s' (region_start s _ W) E)); (exists r; split; [left; reflexivity|assumption]). }
  assert (FT : fit s' r /\ fit s' (s_rnext s) /\ (s_rnext s' = s_rnext s \/ s_rnext s' = Pos.succ (s_rnext s))).
  { unfold collinear_same_ring in E. rewrite (bind_run _ _ _ _ _ (nd_run s i)) in E.
    change (n_ring (node_at s i)) with (ring_of s i) in E. rewrite Ri in E. cbn [deref] in E. rewrite (bind_run _ _ _ r s) in E by reflexivity.
    destruct (well_at s i r W Ri) as (m & C & M).
    assert (J : In j m) by (apply M in Rj as [K|K]; [congruence|exact K]). apply in_split in J as (l1 & l2 & ->).
    unfold bind at 1 in E. destruct (collinear_path fuel i j s) as [[[[[s1 e1] s2] e2] t]| |] eqn:E1; try discriminate. cbv iota beta in E.
    destruct (path_same s r i l1 j l2 fuel s1 e1 s2 e2 t W M C E1) as (-> & (P1 & M1 & Q1 & A1 & B1) & P2 & M2 & Q2 & A2 & B2).
    destruct (cut_arcs i l1 j l2 s1 e1 s2 e2 P1 M1 Q1 P2 M2 Q2 (proj1 C) A1 B1 A2 B2) as (X2 & SG & X1 & SB & AR).
    unfold bind at 1 in E. destruct (fix_collinear_path fuel (s1, e1, s2, e2) s) as [[f t]| |] eqn:E2; try discriminate. cbv iota beta in E.
    pose proof (fix_same s r _ s1 e1 s2 e2 X2 SG X1 SB fuel f t W M C AR E2) as FS.
    pose proof (fix_rnext _ _ _ _ _ E2) as ST. assert (RN : s_rnext t = s_rnext s) by (apply ST).
    exact (same_rest_fits fuel r f (s_rnext s) t u s' (conj FS (conj RN L)) E). }
  destruct FT as (F1 & F2 & F3).
  apply (order_from s s' (eq r) I); [intros q; destruct (Pos.eq_dec r q); auto|exact RG|exact W'|].
  intros q A. destruct A as [<-|A]; [exact F1|]. destruct (Pos.eq_dec q (s_rnext s)) as [->|NE]; [exact F2|]. left. apply unborn; [exact W'|lia].
Qed.
Lemma other_order fuel i j s u s' : in_order s -> (exists r1 r2, r1 <> r2 /\ ring_of s i = Some r1 /\ ring_of s j = Some r2) ->
  collinear_different_rings fuel i j s = Ok (u, s') -> in_order s'.
Proof.
  intros I (r1 & r2 & N & R1 & R2) E. pose proof I as (W & U).
  pose proof (well_different_rings fuel i j s u s' (conj W (ex_intro _ r1 (ex_intro _ r2 (conj N (conj R1 R2))))) E) as W'.
  set (R := fun q => q = r1 \/ q = r2).
  assert (RG : region s (inside s R) (among s R) s').
  { refine (proj1 (rt_different_rings s (inside s R) (among s R) fuel i j _ _ s u s' (region_start s _ W) E));
     [exists r1; split; [left; left; reflexivity|exact R1]|exists r2; split; [left; right; reflexivity|exact R2]]. }
  assert (FT : fit s' r1 /\ fit s' r2 /\ s_rnext s' = s_rnext s).
  { unfold collinear_different_rings in E.
    rewrite (bind_run _ _ _ _ _ (nd_run s i)), (bind_run _ _ _ _ _ (nd_run s j)) in E.
    change (n_ring (node_at s i)) with (ring_of s i) in E. change (n_ring (node_at s j)) with (ring_of s j) in E. rewrite R1, R2 in E.
    cbn [deref] in E. rewrite (bind_run _ _ _ r1 s), (bind_run _ _ _ r2 s) in E by reflexivity.
    unfold bind at 1 in E. destruct (ring_area fuel r1 s) as [[a1 t]| |] eqn:E1; try discriminate. cbv iota beta in E.
    assert (H1 : same_ringed s t) by (revert E1; apply (ltac:(nf_auto) : pres same_ringed (ring_area fuel r1))).
    unfold bind at 1 in E. destruct (ring_area fuel r2 t) as [[a2 t']| |] eqn:E2; try discriminate. cbv iota beta in E.
    assert (H2 : same_ringed t t') by (revert E2; apply (ltac:(nf_auto) : pres same_ringed (ring_area fuel r2))).
    cbv zeta in E. pose proof (R_trans _ _ _ H1 H2) as H. pose proof (well_same _ _ H W) as Wt.
    assert (R1' : ring_of t' i = Some r1) by (rewrite (same_ring_of _ _ _ H); exact R1).
    assert (R2' : ring_of t' j = Some r2) by (rewrite (same_ring_of _ _ _ H); exact R2).
    assert (RN : s_rnext t' = s_rnext s) by (apply H). rewrite <- RN.
    clear RG E1 E2 H1 H2 H RN W I U W' R1 R2 R s t. rename t' into s.
    unfold bind at 1 in E. destruct (collinear_path fuel i j s) as [[[[[s1 e1] s2] e2] t]| |] eqn:E1; try discriminate. cbv iota beta in E.
    destruct (path_on s r1 r2 Wt fuel i j s1 e1 s2 e2 t R1' R2' E1) as (<- & O1 & O2 & O3 & O4). unfold on in *.
    unfold bind at 1 in E. destruct (fix_collinear_path fuel (s1, e1, s2, e2) s) as [[f t]| |] eqn:E2; try discriminate. cbv iota beta in E.
    pose proof (fix_rnext _ _ _ _ _ E2) as ST. assert (RN : s_rnext t = s_rnext s) by (apply ST).
    assert (EP : paths_prog fuel s1 e1 s2 e2 s = Ok (f, t)).
    { unfold fix_collinear_path in E2. rewrite (eqb_no s1 e2), (eqb_no s2 e1) in E2 by congruence. exact E2. }
    destruct (well_at s s1 r1 Wt O1) as (K1 & C1 & M1). destruct (well_at s s2 r2 Wt O3) as (K2 & C2 & M2).
    destruct (fix_other s s1 K1 e1 s2 K2 e2 fuel f t C1 C2) as (m & l & A1 & A2 & A3 & A4 & A5 & A6 & A7).
    { intros k J J'. apply M1 in J. apply M2 in J'. congruence. }
    { apply M1. exact O2. } { apply M2. exact O4. } { exact EP. }
    assert (PO : pooled r1 r2 l t).
    { apply (pooled_shrunk s t r1 r2 (s1 :: K1) (s2 :: K2) m l); auto; discriminate. }
    exact (other_fits fuel _ r1 r2 f l (s_rnext s) t u s' (conj PO (conj A7 RN)) E). }
  destruct FT as (F1 & F2 & F3).
  apply (order_from s s' R I); [intros q; unfold R; destruct (Pos.eq_dec q r1), (Pos.eq_dec q r2); tauto|exact RG|exact W'|].
  intros q A. destruct A as [[->| ->]|A]; [exact F1|exact F2|]. left. apply unborn; [exact W'|lia].
Qed.

(** ** Rings and their turned chains *)
Definition about (s : st) (r : rid) (l : list nid) : Prop :=
  (length l <= r_size (ring_at s r))%nat /\ tight_box (vertices s l) (r_box (ring_at s r)) /\
  int_truediv (- area2 (vertices s l)) 2 = Ok (r_area (ring_at s r)) /\ r_hole (ring_at s r) = (0 <=? area2 (vertices s l)).
Lemma tight_incl l l' b : (forall p, In p l <-> In p l') -> tight_box l b -> tight_box l' b.
Proof.
  intros H (A & (p1 & I1 & J1) & (p2 & I2 & J2) & (p3 & I3 & J3) & p4 & I4 & J4). split; [intros p K; apply A, H, K|].
  split; [exists p1; split; [apply H, I1|exact J1]|]. split; [exists p2; split; [apply H, I2|exact J2]|].
  split; [exists p3; split; [apply H, I3|exact J3]|exists p4; split; [apply H, I4|exact J4]].
Qed.
Lemma about_turn s r A B : about s r (A ++ B) -> about s r (B ++ A).
Proof.
  unfold about, vertices. rewrite !map_app, !app_length. change area2 with (csum cross). rewrite (csum_rot cross (map _ A)).
  intros (H1 & H2 & H3 & H4). split; [lia|]. split; [|auto]. revert H2. apply tight_incl. intros p. rewrite !in_app_iff. tauto.
Qed.
Lemma settled_turn s r n L : first_of s r = Some n -> circle s L -> In n L -> (settled s r <-> about s r L).
Proof.
  intros F C J. apply in_split in J as (A & B & ->). pose proof (circle_rotate s A (n :: B) C) as C'. cbn [app] in C'. split.
  - intros (n' & l & F' & Cl & H). assert (n' = n) by congruence. subst n'. rewrite (circle_unique s n l (B ++ A) Cl C') in H.
    apply (about_turn s r (n :: B) A). exact H.
  - intros H. apply about_turn in H. cbn [app] in H. exists n, (B ++ A). split; [exact F|]. split; [exact C'|]. exact H.
Qed.
(** an alternative for the rings that were never measured *)
Lemma order_open s s' (R : rid -> Prop) : in_order s -> (forall q, R q \/ ~ R q) -> region s (inside s R) (among s R) s' -> well_ringed s' ->
  (forall q, among s R q -> f_is_nan (r_area (ring_at s' q)) = true \/ fit s' q) -> in_order s'.
Proof.
  intros (W & U) DR RG W' H. split; [exact W'|]. apply settled_up. intros r n F.
  assert (D : among s R r \/ ~ R r /\ (r < s_rnext s)%positive).
  { unfold among. destruct (DR r); [auto|]. destruct (Pos.leb_spec (s_rnext s) r); auto. }
  destruct D as [A|(NR & L)].
  - destruct (H r A) as [N|[N|S]]; [auto|congruence|auto].
  - pose proof (region_bystander s R s' r RG NR L) as B. pose proof B as (_ & Fr & (_ & _ & Ar & _) & _). rewrite Fr in F.
    destruct (f_is_nan (r_area (ring_at s r))) eqn:NN; [left; congruence|right].
    apply (bystander_settled s); [exact W|exact B|]. exact (up_settled s r n U F NN).
Qed.
(** ** Dropping a repeated neighbour *)
Definition stored (s s' : st) : Prop := forall q, stats_same s s' q.
#[export] Instance stored_pre : PreOrd stored.
Proof. split; [intros s q; repeat split|]. intros a b c H K q. destruct (H q) as (? & ? & ? & ?), (K q) as (? & ? & ? & ?). repeat split; congruence. Qed.
Lemma stored_node i f : pres stored (upd_node i f). Proof. apply pres_modify. intros s q. repeat split. Qed.
Lemma stored_first r x : pres stored (upd_ring r (fun z => z <| r_node := x |>)).
Proof. intros s u s' E q. rewrite upd_ring_rput in E. injection E as _ <-. unfold stats_same. rewrite ring_at_rput. destruct (Pos.eqb_spec r q) as [<-|_]; repeat split. Qed.
#[export] Hint Resolve stored_pre stored_node stored_first : pres.
Lemma stored_drop_next i o : pres stored (drop_next i o).
Proof. unfold drop_next, unlink, set_next, set_prev, next_of, nd, rg. pres_auto. Qed.
Lemma stored_drop_prev i o : pres stored (drop_prev i o).
Proof. unfold drop_prev, unlink, set_next, set_prev, prev_of, nd, rg. pres_auto. Qed.
Lemma dropped_order s s' i o m r : in_order s -> ring_of s i = Some r -> members s r (i :: o :: m) -> circle s (i :: o :: m) \/ circle s (i :: m ++ [o]) ->
  circle s' (i :: m) -> ~ In o (i :: m) -> npos (node_at s o) = npos (node_at s i) -> unmoved s s' -> stored s s' ->
  region s (inside s (eq r)) (among s (eq r)) s' -> s_rnext s' = s_rnext s -> well_ringed s' -> (forall n, first_of s' r = Some n -> In n (i :: m)) -> 
  (first_of s' r <> None -> first_of s r <> None) -> in_order s'.
Proof.
  intros I Ri M C C' No EP UM ST RG RN W' FI FN. pose proof I as (W & U).
  apply (order_open s s' (eq r) I); [intros q; destruct (Pos.eq_dec r q); auto|exact RG|exact W'|].
  intros q [<-|A]; [|right; left; apply unborn; [exact W'|lia]].
  destruct (first_of s' r) as [n'|] eqn:F'; [|right; left; exact F']. destruct (first_of s r) as [n|] eqn:F; [|destruct FN; [discriminate|reflexivity]].
  destruct (ST r) as (T1 & T2 & T3 & T4). destruct (f_is_nan (r_area (ring_at s r))) eqn:NN; [left; congruence|]. right. right.
  pose proof (up_settled s r n U F NN) as S. apply (settled_turn s' r n' (i :: m) F' C' (FI _ eq_refl)).
  assert (J : In n (i :: o :: m)) by (apply M; apply (wr_first s W); exact F).
  assert (AB : about s r (i :: o :: m)).
  { destruct C as [C|C]; [apply (settled_turn s r n _ F C J); exact S|].
    assert (J' : In n (i :: m ++ [o])) by (cbn in *; rewrite in_app_iff; cbn; tauto).
    pose proof (proj1 (settled_turn s r n _ F C J') S) as AB. clear - AB EP.
    destruct AB as (H1 & H2 & H3 & H4). unfold about, vertices in *. cbn [map length] in *. rewrite map_app, app_length in *. cbn [map length] in *.
    assert (AE : area2 (npos (node_at s i) :: npos (node_at s o) :: map (fun k => npos (node_at s k)) m) = area2 (npos (node_at s i) :: map (fun k => npos (node_at s k)) m ++ [npos (node_at s o)])).
    { change area2 with (csum cross). rewrite EP. etransitivity; [exact (csum_dup cross [] _ _ cross_additive)|]. cbn [app]. symmetry. apply (csum_drop_tail cross); [apply cross_additive|]. constructor; [reflexivity|constructor]. }
    rewrite AE. split; [lia|]. split; [|auto]. revert H2. apply tight_incl. intros p. cbn. rewrite in_app_iff. cbn. tauto. }
  destruct AB as (H1 & H2 & H3 & H4). unfold about. rewrite T1, T2, T3, T4. rewrite (vertices_pos s s' (i :: m) UM).
  unfold vertices in *. cbn [map length] in *. rewrite EP in *.
  assert (AE : area2 (npos (node_at s i) :: npos (node_at s i) :: map (fun k => npos (node_at s k)) m) = area2 (npos (node_at s i) :: map (fun k => npos (node_at s k)) m)).
  { change area2 with (csum cross). apply (csum_dup cross [] _ _ cross_additive). }
  rewrite AE in *. split; [lia|]. split; [|auto]. revert H2. apply tight_incl. intros p. cbn. tauto.
Qed.
Definition in_place (r : rid) (i : nid) (s : st) : Prop := in_order s /\ ring_of s i = Some r.
Lemma unmoved_drop_next i o : pres unmoved (drop_next i o). Proof. apply unmoved_keeps. intros W. apply kp_drop_next. exact Logic.I. Qed.
Lemma unmoved_drop_prev i o : pres unmoved (drop_prev i o). Proof. apply unmoved_keeps. intros W. apply kp_drop_prev. exact Logic.I. Qed.
Lemma drop_next_order s i o r u s' : in_place r i s -> n_next (node_at s i) = Some o -> o <> i -> npos (node_at s o) = npos (node_at s i) ->
  drop_next i o s = Ok (u, s') -> in_place r i s'.
Proof.
  intros (I & H) En No EP E. pose proof I as (W & U). destruct (well_drop_next s i o r u s' W H En No E) as (W' & H'). split; [|exact H'].
  destruct (well_at s i r W H) as (m & C & M). pose proof (circle_next _ _ _ _ C En) as EQ. destruct m as [|o' m]; [cbn in EQ; congruence|]. cbn [hd] in EQ. subst o'.
  destruct (sa_drop_next i o s u s' E) as (Hn & Hr). pose proof (unmoved_drop_next i o s u s' E) as UM. pose proof (stored_drop_next i o s u s' E) as ST.
  assert (Ro : ring_of s o = Some r) by (apply M; right; left; reflexivity).
  assert (RG : region s (inside s (eq r)) (among s (eq r)) s').
  { refine (proj1 (rt_drop_next s (inside s (eq r)) (among s (eq r)) i o _ _ s u s' (region_start s _ W) E)); (exists r; split; [left; reflexivity|assumption]). }
  destruct (drop_next_circle s i o m r C H) as (s1 & E1 & C1 & B & SV & O & F). rewrite E1 in E. injection E as _ <-.
  pose proof C as (ND & _).
  assert (No' : ~ In o (i :: m)) by (intros [K|K]; [congruence|]; inversion ND as [|? ? _ ND']; inversion ND'; contradiction).
  apply (dropped_order s s1 i o m r); auto.
  - intros n Fn. pose proof (wr_first s1 W' r n Fn) as Rn. assert (n <> o) by (intros ->; unfold ring_of in Rn; rewrite B in Rn; discriminate).
    destruct (Pos.eq_dec n i) as [->|Ni]; [left; reflexivity|]. assert (Rn' : ring_of s n = Some r) by (rewrite <- Rn; symmetry; apply (SV n); assumption).
    apply M in Rn' as [K|[K|K]]; [congruence|congruence|right; exact K].
  - unfold first_of. rewrite F, Pos.eqb_refl. cbn [andb]. intros K. destruct (opt_is _ _) eqn:T; [|exact K]. apply opt_is_Some in T. rewrite T. discriminate.
Qed.
Lemma drop_prev_order s i o r u s' : in_place r i s -> n_prev (node_at s i) = Some o -> o <> i -> npos (node_at s o) = npos (node_at s i) ->
  drop_prev i o s = Ok (u, s') -> in_place r i s'.
Proof.
  intros (I & H) En No EP E. pose proof I as (W & U). destruct (well_drop_prev s i o r u s' W H En No E) as (W' & H'). split; [|exact H'].
  destruct (well_at s i r W H) as (m & C & M). pose proof (circle_prev _ _ _ _ C En) as EQ. destruct m as [|o' m _] using rev_ind; [cbn in EQ; congruence|].
  rewrite last_last in EQ. subst o'.
  destruct (sa_drop_prev i o s u s' E) as (Hn & Hr). pose proof (unmoved_drop_prev i o s u s' E) as UM. pose proof (stored_drop_prev i o s u s' E) as ST.
  assert (M' : members s r (i :: o :: m)).
  { intros j. rewrite (M j). cbn. rewrite in_app_iff. cbn. tauto. }
  assert (Ro : ring_of s o = Some r) by (apply M'; right; left; reflexivity).
  assert (RG : region s (inside s (eq r)) (among s (eq r)) s').
  { refine (proj1 (rt_drop_prev s (inside s (eq r)) (among s (eq r)) i o _ _ s u s' (region_start s _ W) E)); (exists r; split; [left; reflexivity|assumption]). }
  destruct (drop_prev_circle s i o m r C H) as (s1 & E1 & C1 & B & SV & O & F). rewrite E1 in E. injection E as _ <-.
  pose proof C as (ND & _).
  assert (No' : ~ In o (i :: m)) by (apply (nodup_app (i :: m) [o]) in ND as (_ & _ & D); intros K; apply (D o K); left; reflexivity).
  apply (dropped_order s s1 i o m r); auto.
  - intros n Fn. pose proof (wr_first s1 W' r n Fn) as Rn. assert (n <> o) by (intros ->; unfold ring_of in Rn; rewrite B in Rn; discriminate).
    destruct (Pos.eq_dec n i) as [->|Ni]; [left; reflexivity|]. assert (Rn' : ring_of s n = Some r) by (rewrite <- Rn; symmetry; apply (SV n); assumption).
    apply M' in Rn' as [K|[K|K]]; [congruence|congruence|right; exact K].
  - unfold first_of. rewrite F, Pos.eqb_refl. cbn [andb]. intros K. destruct (opt_is _ _) eqn:T; [|exact K]. apply opt_is_Some in T. rewrite T. discriminate.
Qed.
Lemma node_eq_run s i j : node_eq i j s = Ok (point_eqb (npos (node_at s i)) (npos (node_at s j)), s). Proof. reflexivity. Qed.
Lemma drop_equal_order fuel i r (dir : node -> option nid) drop :
  (forall s o u s', in_place r i s -> dir (node_at s i) = Some o -> o <> i -> npos (node_at s o) = npos (node_at s i) -> drop i o s = Ok (u, s') -> in_place r i s') ->
  tri (in_place r i) (drop_equal fuel dir drop i) (fun _ => in_place r i).
Proof.
  intros HD. unfold drop_equal. apply (tri_loop fuel _ (fun _ => in_place r i)). intros [].
  eapply tri_bind; [apply tri_nd|]. intros n. cbv beta.
  eapply tri_bind with (Q := fun e s => n = node_at s i /\ in_place r i s /\ (e = true -> forall o, dir n = Some o -> npos (node_at s o) = npos (node_at s i))).
  { intros s e s' (-> & K) E. unfold node_eq_opt in E. destruct (dir (node_at s i)) as [o|]; [|injection E as <- <-; auto].
    - rewrite node_eq_run in E. injection E as <- <-. split; [reflexivity|]. split; [exact K|]. intros T o' [= <-]. apply MiscP.point_eqb_eq. exact T.
    - split; [reflexivity|]. split; [exact K|]. discriminate. }
  intros e. destruct (e && negb (opt_is (dir n) (Some i))) eqn:T; [|apply tri_ret; tauto].
  apply andb_true_iff in T as (Te & T). subst e. eapply tri_bind with (Q := fun o s => dir (node_at s i) = Some o /\ o <> i /\ npos (node_at s o) = npos (node_at s i) /\ in_place r i s).
  { apply tri_deref. intros o s Eo (-> & K & P). split; [exact Eo|]. split; [|split; [apply P; auto|exact K]]. intros ->. rewrite Eo in T. cbn in T.
    rewrite Pos.eqb_refl in T. discriminate. }
  intros o. eapply tri_bind with (Q := fun _ => in_place r i); [|intros ?; apply tri_ret; auto].
  intros s u s' (A & B & P & C) E. eapply HD; eassumption.
Qed.
Lemma drop_nexts_order fuel i r : tri (in_place r i) (drop_equal fuel n_next drop_next i) (fun _ => in_place r i).
Proof. apply drop_equal_order. intros s o u s' K A B P E. eapply drop_next_order; eassumption. Qed.
Lemma drop_prevs_order fuel i r : tri (in_place r i) (drop_equal fuel n_prev drop_prev i) (fun _ => in_place r i).
Proof. apply drop_equal_order. intros s o u s' K A B P E. eapply drop_prev_order; eassumption. Qed.
Lemma remove_points_order fuel d r b s u s' : in_order s -> (r < s_rnext s)%positive -> remove_ring_and_points fuel d r false b s = Ok (u, s') -> in_order s'.
Proof.
  intros I L E. pose proof I as (W & U). pose proof (kw_remove_points fuel d r b s u s' E W) as W'.
  destruct (remove_points_gone _ _ _ _ _ _ _ E) as (F & RN & _).
  apply (order_from s s' (eq r) I); [intros q; destruct (Pos.eq_dec r q); auto| |exact W'|].
  - refine (proj1 (rt_remove_points s (inside s (eq r)) (among s (eq r)) fuel d r b _ s u s' (region_start s _ W) E)). left. reflexivity.
  - intros q [<-|A]; [left; exact F|]. left. apply unborn; [exact W'|lia].
Qed.
Definition two_in (i j : nid) (s : st) : Prop := in_order s /\ (exists r, ring_of s i = Some r) /\ (exists r, ring_of s j = Some r).
Lemma duplicates_order fuel i j : i <> j ->
  tri (fun s => two_in i j s /\ npos (node_at s i) = npos (node_at s j)) (remove_duplicate_points fuel i j) (fun b s => in_order s /\ (b = false -> two_in i j s)).
Proof.
  intros Nij. unfold remove_duplicate_points.
  eapply tri_bind; [apply tri_nd|]. intros a. eapply tri_bind; [apply tri_nd|]. intros b. cbv beta zeta.
  destruct (opt_is (n_ring a) (n_ring b) && opt_is (n_next a) (Some j)) eqn:T1.
  { apply andb_true_iff in T1 as (_ & T1). apply opt_is_Some in T1.
    eapply tri_bind with (Q := fun _ => in_order); [|intros ?; apply tri_ret; intros s W; split; [exact W|discriminate]].
    intros s u s' (-> & -> & (W & (r & H) & _) & EP) E. refine (proj1 (drop_next_order s i j r u s' (conj W H) T1 _ _ E)); congruence. }
  destruct (opt_is (n_ring a) (n_ring b) && opt_is (n_next b) (Some i)) eqn:T2.
  { apply andb_true_iff in T2 as (_ & T2). apply opt_is_Some in T2.
    eapply tri_bind with (Q := fun _ => in_order); [|intros ?; apply tri_ret; intros s W; split; [exact W|discriminate]].
    intros s u s' (-> & -> & (W & _ & (r & H)) & EP) E. destruct (well_next s j i r (proj1 W) H T2) as (H' & P).
    refine (proj1 (drop_prev_order s i j r u s' (conj W H') P _ _ E)); congruence. }
  clear T1 T2. eapply tri_pre with (I' := fun s => exists r, in_place r i s); [|intros s (_ & _ & (W & (r & H) & _) & _); exists r; split; assumption].
  apply tri_ex. intros r. clear a b.
  assert (RP : forall q x, tri (fun s => q = ring_of s x /\ in_order s) (bind (deref q) (fun r => bind (remove_ring_and_points fuel fuel r false true) (fun _ => ret true)))
     (fun b s => in_order s /\ (b = false -> two_in i j s))).
  { intros q x. eapply tri_bind with (Q := fun r s => (r < s_rnext s)%positive /\ in_order s).
    { apply tri_deref. intros k s -> (K & W). split; [|exact W]. symmetry in K. apply (wr_known s (proj1 W) _ _ K). }
    intros k. eapply tri_bind with (Q := fun _ => in_order); [|intros ?; apply tri_ret; intros s W; split; [exact W|discriminate]].
    intros s u s' (L & W) E. exact (remove_points_order _ _ _ _ _ _ _ W L E). }
  eapply tri_bind; [apply drop_nexts_order|]. intros ?. eapply tri_bind; [apply drop_prevs_order|]. intros ?.
  eapply tri_bind; [apply tri_nd|]. intros a1. cbv beta.
  destruct (opt_is (n_next a1) (Some i)).
  { eapply tri_pre; [apply (RP _ i)|]. intros s (-> & K & _). split; [reflexivity|exact K]. }
  eapply tri_bind; [apply tri_nd|]. intros b. cbv beta. destruct (is_none (n_ring b)) eqn:T.
  { apply tri_ret. intros s (_ & _ & W & _). split; [exact W|discriminate]. }
  destruct (is_none_Some _ T) as (q & Tq).
  eapply tri_pre with (I' := in_place q j); [|intros s (-> & _ & W & _); split; assumption].
  eapply tri_bind; [apply drop_nexts_order|]. intros ?. eapply tri_bind; [apply drop_prevs_order|]. intros ?.
  eapply tri_bind; [apply tri_nd|]. intros b'. cbv beta. destruct (opt_is (n_next b') (Some j)).
  { eapply tri_pre; [apply (RP _ j)|]. intros s (-> & K & _). split; [reflexivity|exact K]. }
  eapply tri_bind; [apply tri_nd|]. intros a'. apply tri_ret. intros s (-> & _ & W & K). split; [exact W|]. intros N.
  split; [exact W|]. destruct (is_none_Some _ N) as (r' & Hr'). split; [exists r'; exact Hr'|exists q; exact K].
Qed.
#[local] Existing Instance IntersectP.unchanged_pre.
Lemma un_collinear_edge i j : pres IntersectP.unchanged (has_collinear_edge i j).
Proof. unfold has_collinear_edge, node_eq_opts, node_eq, nd. pres_auto. Qed.
Lemma process_order fuel i j : i <> j -> tri (fun s => in_order s /\ npos (node_at s i) = npos (node_at s j)) (process_collinear_edges fuel i j) (fun _ => in_order).
Proof.
  intros N. unfold process_collinear_edges.
  eapply tri_bind; [apply tri_nd|]. intros a. eapply tri_bind; [apply tri_nd|]. intros b. cbv beta.
  destruct (is_none (n_ring a) || is_none (n_ring b)) eqn:T; [apply tri_ret; tauto|]. apply orb_false_iff in T as (T1 & T2).
  eapply tri_bind with (Q := fun b s => in_order s /\ (b = false -> two_in i j s)).
  { eapply tri_pre; [apply duplicates_order; exact N|]. intros s (-> & -> & W & EP). split; [|exact EP]. split; [exact W|]. unfold ring_of.
    split; [destruct (n_ring (node_at s i))|destruct (n_ring (node_at s j))]; try discriminate; eauto. }
  intros d. destruct d; [apply tri_ret; tauto|].
  eapply tri_bind with (Q := fun _ s => two_in i j s).
  { intros s c s' (_ & K) E. rewrite (un_collinear_edge i j s c s' E). auto. }
  intros c. eapply tri_bind; [apply tri_nd|]. intros a'. eapply tri_bind; [apply tri_nd|]. intros b'. cbv beta zeta.
  destruct (negb c).
  - destruct (opt_is (n_ring a') (n_ring b')); [|apply tri_ret; intros s (_ & _ & W & _); exact W].
    eapply tri_bind with (Q := fun _ => in_order); [|intros o; apply tri_ret; auto]. intros s o s' (_ & _ & W & _) E. exact (cut_order fuel i j s o s' N W E).
  - eapply tri_bind with (Q := fun _ => in_order); [|intros ?; apply tri_ret; auto].
    destruct (opt_is (n_ring a') (n_ring b')) eqn:O.
    + intros s u s' (-> & -> & W & (r1 & R1) & r2 & R2) E. apply (same_order fuel i j s u s' N W); [|exact E]. unfold ring_of in *.
      rewrite R1, R2 in O. cbn in O. apply Pos.eqb_eq in O. subst. exists r2. auto.
    + intros s u s' (-> & -> & W & (r1 & R1) & r2 & R2) E. apply (other_order fuel i j s u s' W); [|exact E]. unfold ring_of in *.
      rewrite R1, R2 in O. cbn in O. apply Pos.eqb_neq in O. exists r1, r2. auto.
Qed.
Lemma unmoved_process fuel i j : pres unmoved (process_collinear_edges fuel i j).
Proof. apply unmoved_keeps. intros W. apply kp_process_collinear_edges; exact Logic.I. Qed.
(** ** Runs of equal vertices *)
Definition one_place (s : st) (nodes : list nid) (a b : nat) : Prop :=
  forall k k' i j, (a <= k < b)%nat -> (a <= k' < b)%nat -> nth_error nodes k = Some i -> nth_error nodes k' = Some j -> npos (node_at s i) = npos (node_at s j).
Lemma nth_res_error {A} (l : list A) k a : nth_res l k = Ok a -> nth_error l k = Some a.
Proof. unfold nth_res. destruct (nth_error l k); [congruence|discriminate]. Qed.
Lemma repeats_order fuel nodes a b : tri (fun s => in_order s /\ one_place s nodes a b) (correct_collinear_repeats fuel nodes a b) (fun _ s => in_order s /\ one_place s nodes a b).
Proof.
  set (J := fun s => in_order s /\ one_place s nodes a b).
  assert (U : forall s, IntersectP.unchanged s s -> J s -> J s) by auto.
  unfold correct_collinear_repeats, range. apply tri_for. intros k Ik. apply in_seq in Ik.
  eapply tri_bind with (Q := fun i s => nth_res nodes k = Ok i /\ J s); [apply tri_lift; auto|]. intros i. apply tri_fact. intros Hi. apply nth_res_error in Hi.
  eapply tri_bind; [apply tri_nd|]. intros n. cbv beta. destruct (is_none (n_ring n)); [apply tri_ret; tauto|].
  eapply tri_pre with (I' := fun s => (fun (x : nat) s => (a <= x)%nat /\ J s) a s); [|intros s (_ & K); split; [lia|exact K]].
  apply (tri_loop fuel _ (fun (x : nat) s => (a <= x)%nat /\ J s)). intros other. destruct (Nat.ltb_spec other b) as [Lo|_]; [|apply tri_ret; tauto].
  apply tri_fact. intros La. eapply tri_bind; [apply tri_nd|]. intros n'. cbv beta. destruct (is_none (n_ring n')); [apply tri_ret; tauto|].
  eapply tri_bind with (Q := fun j s => nth_res nodes other = Ok j /\ J s); [apply tri_lift; intros ? s ? (_ & K); auto|]. intros j. apply tri_fact. intros Hj. apply nth_res_error in Hj.
  eapply tri_bind; [apply tri_nd|]. intros m. cbv beta. destruct (is_none (n_ring m) || Pos.eqb i j) eqn:T; [apply tri_ret; intros s (_ & K); split; [lia|exact K]|].
  apply orb_false_iff in T as (_ & T). apply Pos.eqb_neq in T.
  eapply tri_bind with (Q := fun _ => J); [|intros d; apply tri_ret; intros s K; split; [destruct d; lia|exact K]].
  intros s d s' (_ & K & OP) E. split.
  - refine (process_order fuel i j T s d s' (conj K _) E). apply (OP k other); auto; lia.
  - pose proof (unmoved_process fuel i j s d s' E) as UM. intros k1 k2 x y A B C D. rewrite !UM. apply (OP k1 k2); assumption.
Qed.
Lemma one_place_single s nodes k : one_place s nodes k (S k).
Proof. intros a b i j A B Ea Eb. assert (a = b) by lia. congruence. Qed.
Lemma one_place_extend s nodes a b i j : (a < b)%nat -> one_place s nodes a b -> nth_error nodes (Nat.pred b) = Some i -> nth_error nodes b = Some j ->
  npos (node_at s i) = npos (node_at s j) -> one_place s nodes a (S b).
Proof.
  intros L H Ei Ej P k k' x y A B Ex Ey.
  assert (G : forall k x, (a <= k < S b)%nat -> nth_error nodes k = Some x -> npos (node_at s x) = npos (node_at s j)).
  { intros h z D Ez. destruct (Nat.eq_dec h b) as [->|Nb]; [congruence|]. rewrite <- P. apply (H h (Nat.pred b)); auto; lia. }
  rewrite (G k x), (G k' y); auto.
Qed.
Lemma tri_repeats s0 nodes f (J : st -> Prop) : (forall s, J s -> unmoved s0 s) ->
  (forall a b, one_place s0 nodes a b -> (a < b <= length nodes)%nat -> tri J (f a b) (fun _ => J)) -> tri J (for_repeats nodes f) (fun _ => J).
Proof.
  intros HU HF. unfold for_repeats.
  set (Inv := fun (x : nat * nat * nat) s => let '(count, prev, index) := x in J s /\ ((length nodes <= index)%nat \/ index = S prev /\ (count <= prev)%nat /\ one_place s0 nodes (prev - count) (S prev))).
  assert (G : tri (Inv (O, O, 1%nat)) (for_repeats nodes f) (fun _ => J)).
  { apply (tri_loop _ _ Inv). intros ((count & prev) & index). unfold Inv at 1. destruct (Nat.ltb_spec index (length nodes)) as [L|L]; [|apply tri_ret; tauto].
    eapply tri_pre with (I' := fun s => (index = S prev /\ (count <= prev)%nat /\ one_place s0 nodes (prev - count) (S prev)) /\ J s); [|intros s (Js & [K|K]); [lia|auto]].
    apply tri_fact. intros (-> & Lc & OP).
    eapply tri_bind with (Q := fun x s => nth_res nodes prev = Ok x /\ J s); [apply tri_lift; auto|]. intros x. apply tri_fact. intros Hx. apply nth_res_error in Hx.
    eapply tri_bind with (Q := fun y s => nth_res nodes (S prev) = Ok y /\ J s); [apply tri_lift; auto|]. intros y. apply tri_fact. intros Hy. apply nth_res_error in Hy.
    eapply tri_bind with (Q := fun e s => (e = true -> npos (node_at s0 x) = npos (node_at s0 y)) /\ J s).
    { intros s e s' Js E. rewrite node_eq_run in E. injection E as <- <-. split; [|exact Js]. intros T. apply MiscP.point_eqb_eq in T. rewrite !(HU s Js) in T. exact T. }
    intros e. apply tri_fact. intros He. cbv zeta.
    assert (OP' : e = true -> one_place s0 nodes (prev - count) (S (S prev))).
    { intros T. apply (one_place_extend s0 nodes _ (S prev) x y); auto. lia. }
    destruct e; cbn [andb].
    - specialize (OP' eq_refl). destruct (Nat.ltb_spec (S (S prev)) (length nodes)) as [L2|L2].
      + apply tri_ret. intros s Js. split; [exact Js|]. right. split; [reflexivity|]. split; [lia|]. exact OP'.
      + change (S count =? 0)%nat with false. cbv iota. eapply tri_bind with (Q := fun _ => J).
        * apply HF; [|lia]. replace (S (S prev) - S (S count))%nat with (prev - count)%nat by lia. exact OP'.
        * intros _. apply tri_ret. intros s Js. split; [exact Js|]. left. lia.
    - destruct (Nat.eqb_spec count 0) as [->|Nc].
      + apply tri_ret. intros s Js. split; [exact Js|]. right. split; [reflexivity|]. split; [lia|]. rewrite Nat.sub_0_r. apply one_place_single.
      + eapply tri_bind with (Q := fun _ => J).
        * apply HF; [|lia]. replace (S prev - S count)%nat with (prev - count)%nat by lia. exact OP.
        * intros _. apply tri_ret. intros s Js. split; [exact Js|]. right. split; [reflexivity|]. split; [lia|]. rewrite Nat.sub_0_r. apply one_place_single. }
  eapply tri_pre; [exact G|]. intros s Js. split; [exact Js|]. right. split; [reflexivity|]. split; [lia|]. apply one_place_single.
Qed.
Lemma one_place_moved s s' nodes a b : unmoved s s' -> one_place s nodes a b <-> one_place s' nodes a b.
Proof. intros U. split; intros H k k' i j A B C D; [rewrite !U|rewrite <- !U]; apply (H k k'); assumption. Qed.
Lemma unmoved_repeats fuel l a b : pres unmoved (correct_collinear_repeats fuel l a b).
Proof. apply unmoved_keeps. intros W. apply kp_correct_collinear_repeats. apply Forall_forall. trivial. Qed.
Lemma collinear_order fuel s u s' : in_order s -> correct_collinear_edges fuel s = Ok (u, s') -> in_order s'.
Proof.
  intros I0 E. set (J := fun t => unmoved s t /\ in_order t).
  assert (G : tri J (correct_collinear_edges fuel) (fun _ => J)).
  { unfold correct_collinear_edges. eapply tri_bind with (Q := fun _ => J); [intros t a t' K Et; injection Et as <- <-; exact K|]. intros nodes.
    destruct (_ <? _)%nat; [apply tri_ret; auto|]. apply (tri_repeats s); [intros t K; apply K|]. intros a b OP _ t v t' (U & K) Et. split.
    - eapply R_trans; [exact U|]. exact (unmoved_repeats _ _ _ _ _ _ _ Et).
    - refine (proj1 (repeats_order fuel nodes a b t v t' (conj K _) Et)). apply (one_place_moved s t nodes a b U). exact OP. }
  exact (proj2 (G s u s' (conj (R_refl s) I0) E)).
Qed.
(** ** Self intersections *)
Lemma repeated_order fuel nodes a b acc : NoDup nodes -> tri in_order (correct_repeated_points fuel nodes a b acc) (fun _ => in_order).
Proof.
  intros N. unfold correct_repeated_points. apply tri_acc_in. intros k c _.
  eapply tri_bind with (Q := fun i s => nth_res nodes k = Ok i /\ in_order s); [apply tri_lift; auto|]. intros i. apply tri_fact. intros Hi.
  eapply tri_bind; [apply tri_nd|]. intros n. cbv beta. destruct (is_none (n_ring n)); [apply tri_ret; tauto|].
  eapply tri_pre with (I' := in_order); [|tauto]. apply tri_acc_in. intros k' c' Ik.
  eapply tri_bind with (Q := fun i s => nth_res nodes k' = Ok i /\ in_order s); [apply tri_lift; auto|]. intros j. apply tri_fact. intros Hj.
  eapply tri_bind; [apply tri_nd|]. intros m. cbv beta. destruct (is_none (n_ring m)); [apply tri_ret; tauto|].
  eapply tri_bind with (Q := fun _ => in_order); [|intros o; apply tri_ret; auto]. intros s o s' (_ & K) E. refine (cut_order fuel i j s o s' _ K E).
  apply (nth_res_neq nodes k k'); auto. unfold range in Ik. apply in_seq in Ik. lia.
Qed.
Lemma un_sorted_nodes fuel r : pres IntersectP.unchanged (sorted_nodes fuel r).
Proof. unfold sorted_nodes, nodes_list, with_points, collect, nd, rg. pres_auto. Qed.
Lemma find_order fuel r : tri in_order (find_and_correct_repeated_points fuel r) (fun _ => in_order).
Proof.
  unfold find_and_correct_repeated_points. eapply tri_bind with (Q := fun nodes s => NoDup nodes /\ in_order s).
  { intros s l s' K E. pose proof (un_sorted_nodes fuel r s l s' E) as X. unfold IntersectP.unchanged in X. subst s'. destruct (tri_sorted_nodes fuel r s l s (proj1 K) E) as (_ & N & _). auto. }
  intros nodes. apply tri_fact. intros N.
  apply (tri_loop _ _ (fun _ => in_order)). intros (((count & p) & k) & acc). destruct (_ <? _)%nat; [|apply tri_ret; auto].
  eapply tri_bind with (Q := fun _ => in_order); [apply tri_lift; auto|]. intros x.
  eapply tri_bind with (Q := fun _ => in_order); [apply tri_lift; auto|]. intros y.
  eapply tri_bind with (Q := fun _ => in_order); [intros s e s' K E; rewrite node_eq_run in E; injection E as <- <-; exact K|]. intros e. cbv zeta.
  destruct (e && _); [apply tri_ret; auto|]. destruct (_ =? _)%nat; [apply tri_ret; auto|].
  eapply tri_bind; [apply repeated_order; exact N|]. intros acc'. apply tri_ret. auto.
Qed.
Lemma corrected_order r b s u s' : in_order s -> upd_ring r (fun x => x <| r_corrected := b |>) s = Ok (u, s') -> in_order s'.
Proof.
  intros (W & U) E. pose proof (kw_corrected r b s u s' E W) as W'. rewrite upd_ring_rput in E. injection E as _ <-. split; [exact W'|].
  assert (ST : forall q, stats_same s (rput s r (fun x => x <| r_corrected := b |>)) q).
  { intros q. unfold stats_same. rewrite ring_at_rput. destruct (Pos.eqb_spec r q) as [<-|_]; repeat split. }
  assert (FF : forall q, first_of (rput s r (fun x => x <| r_corrected := b |>)) q = first_of s q).
  { intros q. rewrite first_rput. destruct (Pos.eqb_spec r q) as [<-|_]; reflexivity. }
  apply settled_up. intros q n F. rewrite FF in F. destruct (f_is_nan (r_area (ring_at s q))) eqn:NN; [left; rewrite (proj1 (proj2 (proj2 (ST q)))); exact NN|right].
  pose proof (up_settled s q n U F NN) as S. revert S. apply settled_carry; [intros i; repeat split|apply FF|apply ST].
Qed.
Lemma calc_sorted fuel : pres calc (sorted_rings fuel).
Proof. unfold sorted_rings. pres_auto. Qed.
Lemma self_order fuel : tri in_order (correct_self_intersections fuel false) (fun _ => in_order).
Proof.
  unfold correct_self_intersections. eapply tri_bind with (Q := fun _ => in_order); [intros s l s' K E; apply (calc_sorted fuel s l s' E); exact K|].
  intros l. apply tri_acc_in. intros r acc _. eapply tri_bind with (Q := fun _ => in_order); [|intros b; apply tri_ret; auto].
  unfold correct_ring_self_intersections. eapply tri_bind; [apply tri_rg|]. intros x. cbv beta. destruct (_ || _); [apply tri_ret; tauto|].
  eapply tri_pre with (I' := in_order); [|tauto]. eapply tri_bind; [apply find_order|]. intros new. cbv iota.
  eapply tri_bind with (Q := fun _ => in_order); [apply tri_ret; auto|]. intros _.
  eapply tri_bind with (Q := fun _ => in_order); [intros s u s' K E; exact (corrected_order _ _ _ _ _ K E)|]. intros _. apply tri_ret. auto.
Qed.
