(** * The orientation of the rings *)
From Coq Require Import ZArith List Bool Lia FMapPositive Permutation Reals Lra Sorting.Sorted.
From Coq Require Import Floats.SpecFloat.
From RecordUpdate Require Import RecordSet.
From Verif Require Import Py Monad Utils Geometry LinearRingM BoundM LocalMinimumM
     StateM PointNodeM RingM SweepM TopologyM WagyuM HoareP Spec SpecRing SpecHeap SpecRings SpecTree SweepFrameP OrderP VatP FuelP PipP SortP ListP PointersP
     FloatP UlpP MiscP IntersectP CircleP CalmP HeapOpsP StatsP SplitP NodeFrameP RingedP RingedTopP RingedCutP RingedTreeP TreeP NestP NestTreeP SpecNest PropHeap.
Import ListNotations RecordSetNotations.
Open Scope Z_scope.

Lemma frame_good r s s' q : well_ringed s -> frame_ring r s s' -> q <> r -> as_good s s' q.
Proof.
  intros W (N & _ & F & _) Q. assert (U : forall vs, outline_of s q vs -> outline_of s' q vs).
  { intros vs. apply outline_frame; [apply F, Q| |exact W]. intros i Hi. apply N. congruence. }
  intros vs. split; [apply U|]. intros O. destruct O as (n & l & Fn & C & E).
  destruct (F q Q) as (Fq & _). assert (O : outline_of s' q vs) by (exists n, l; auto). rewrite Fq in Fn.
  destruct (well_at s n q W (wr_first s W q n Fn)) as (l' & C' & _).
  assert (O' : outline_of s q (vertices s (n :: l'))) by (exists n, l'; auto).
  rewrite (outline_fun s' q vs _ O (U _ O')). exact O'.
Qed.
Lemma frame_settled r s s' q : well_ringed s -> frame_ring r s s' -> q <> r -> settled s q -> settled s' q.
Proof.
  intros W (N & _ & F & _) Q S. destruct (F q Q) as (F1 & _ & (E1 & E2 & E3 & E4) & _).
  apply (settled_frame s); auto. intros i Hi. apply N. congruence.
Qed.
Lemma frame_trans r s1 s2 s3 : frame_ring r s1 s2 -> (forall i, ring_of s2 i = Some r -> ring_of s1 i = Some r) -> frame_ring r s2 s3 -> frame_ring r s1 s3.
Proof.
  intros (A1 & A2 & A3 & A4) K (B1 & B2 & B3 & B4). split; [|split; [congruence|split; [|exact B4]]].
  - intros i H. rewrite B1; [apply A1, H|]. intros X. apply H, K, X.
  - intros q Q. destruct (A3 q Q) as (C1 & C2 & (E1 & E2 & E3 & E4) & C4), (B3 q Q) as (D1 & D2 & (G1 & G2 & G3 & G4) & D4).
    split; [congruence|]. split; [congruence|]. split; [|congruence]. repeat split; congruence.
Qed.
Lemma frame_refl r s : well_ringed s -> frame_ring r s s.
Proof. intros W. split; [reflexivity|]. split; [reflexivity|]. split; [|exact W]. intros q Q. repeat split. Qed.
(** measuring *)
Lemma recalc_frame fuel r s u s' : recalculate_stats fuel r s = Ok (u, s') -> well_ringed s -> first_of s r <> None ->
  frame_ring r s s' /\ settled s' r /\ (forall q, parent_of s' q = parent_of s q) /\ same_ringed s s'.
Proof.
  intros E W F. pose proof (recalc_settles fuel r s u s' E W F) as S.
  destruct (recalc_run fuel r s u s' E) as [(N & _)|(n & t & Fn & Et & ->)]; [contradiction|].
  pose proof (same_ringed_stats s r t) as SR.
  assert (PP : forall q, parent_of (rput s r (with_stats t)) q = parent_of s q).
  { intros q. rewrite !parent_at, ring_at_rput. destruct (Pos.eqb_spec r q) as [<-|_]; reflexivity. }
  split; [|auto]. split; [reflexivity|]. split; [reflexivity|]. split; [|apply (well_same s); assumption].
  intros q Q. split; [apply (same_first _ _ _ SR)|]. split; [apply PP|]. unfold stats_same. rewrite !ring_at_rput.
  destruct (Pos.eqb_spec r q); [congruence|]. auto.
Qed.
(** reversing *)
Lemma reverse_frame fuel n r s u s' : reverse_nodes fuel n s = Ok (u, s') -> well_ringed s -> first_of s r = Some n ->
  frame_ring r s s' /\ (forall q, parent_of s' q = parent_of s q) /\ (forall i, ring_of s' i = ring_of s i) /\ first_of s' r = Some n /\
  exists l, circle s (n :: l) /\ circle s' (n :: rev l) /\ vertices s' (n :: rev l) = vertices s (n :: rev l).
Proof.
  intros E W F. pose proof (wr_first s W r n F) as Rn. destruct (well_reverse s n r fuel u s' W Rn E) as (W' & _).
  destruct (well_at s n r W Rn) as (l & C & M).
  destruct (reverse_nodes_circle s n l (Nat.max fuel (length (n :: l))) C (Nat.le_max_r _ _)) as (s1 & Ea & C1 & FL & SB).
  pose proof (lem_Ok _ _ _ _ (fuel_reverse_nodes fuel (Nat.max fuel (length (n :: l))) (Nat.le_max_l _ _) n) E) as Eb.
  rewrite Ea in Eb. injection Eb as <- <-. clear E Ea.
  assert (R1 : forall q, ring_at s1 q = ring_at s q) by (intros q; unfold ring_at; rewrite SB; reflexivity).
  assert (SV : forall i, same_vertex (node_at s i) (node_at s1 i)).
  { intros i. destruct (in_dec Pos.eq_dec i (n :: l)) as [J|J]; [rewrite (proj1 FL i J)|rewrite (proj2 FL i J)]; repeat split. }
  split; [|split; [|split; [|split]]].
  - split; [intros i Hi; apply FL; intros J; apply M in J; contradiction|]. split; [rewrite SB; reflexivity|]. split; [|exact W'].
    intros q Q. unfold first_of, stats_same. rewrite !parent_at, !R1. repeat split.
  - intros q. rewrite !parent_at, R1. reflexivity.
  - intros i. unfold ring_of. apply SV.
  - unfold first_of. rewrite R1. exact F.
  - exists l. split; [exact C|]. split; [exact C1|]. apply map_ext_in. intros i _. destruct (SV i) as (X & Y & _). unfold npos. rewrite X, Y. reflexivity.
Qed.
(** the depth *)
Lemma depth_run fuel s o : forall k d s', loopM fuel (fun '(cursor, n) =>
     match cursor with
     | None => ret (inr n)
     | Some c => bind (rg c) (fun y => ret (inl (r_parent y, S n)))
     end) (o, k) s = Ok (d, s') ->
  s' = s /\ exists j, d = (k + j)%nat /\ match o with None => j = O | Some p => exists j', j = S j' /\ depth s p j' end.
Proof.
  revert o. induction fuel as [|fuel IH]; intros o k d s' E; [discriminate|]. rewrite loopM_S in E.
  destruct o as [p|].
  - rewrite (bind_run _ _ _ _ _ (rg_run s p)) in E. unfold ret at 1 in E. cbv iota beta in E. destruct (IH _ _ _ _ E) as (-> & j & -> & H). split; [reflexivity|].
    exists (S j). split; [lia|]. exists j. split; [reflexivity|].
    destruct (r_parent (ring_at s p)) as [q|] eqn:P; [destruct H as (j' & -> & H); exact (depth_under s p q j' P H)|subst; exact (depth_top s p P)].
  - injection E as <- <-. split; [reflexivity|]. exists O. split; [lia|reflexivity].
Qed.
Lemma ring_depth_depth fuel r s d s' : ring_depth fuel r s = Ok (d, s') -> s' = s /\ depth s r d.
Proof.
  intros E. unfold ring_depth in E. rewrite (bind_run _ _ _ _ _ (rg_run s r)) in E.
  destruct (depth_run fuel s _ _ _ _ E) as (-> & j & -> & H). split; [reflexivity|]. rewrite Nat.add_0_l.
  destruct (r_parent (ring_at s r)) as [q|] eqn:P; [destruct H as (j' & -> & H); exact (depth_under s r q j' P H)|subst; exact (depth_top s r P)].
Qed.
Lemma depth_same s s' r d : (forall q, parent_of s' q = parent_of s q) -> depth s r d -> depth s' r d.
Proof.
  intros P D. induction D as [r E|r p d E D IH]; [apply depth_top; rewrite P; exact E|]. apply (depth_under s' r p d); [rewrite P; exact E|exact IH].
Qed.
(** the outline [p :: l] of [r] was kept or reversed to fit its depth *)
Definition turned (s s' : st) (r : rid) : Prop :=
  forall p l, outline_of s r (p :: l) -> (3 <= length (p :: l))%nat ->
  exists d, depth s r d /\ (outline_of s' r (p :: l) \/ outline_of s' r (p :: rev l)) /\
    (area2 (p :: l) = 0 \/ if Nat.odd d then hole s' r else exterior s' r).
Definition orient_step (r : rid) (s s' : st) : Prop :=
  frame_ring r s s' /\ (forall q, parent_of s' q = parent_of s q) /\
  (first_of s r = None -> first_of s' r = None) /\
  (forall vs, outline_of s r vs -> (length vs < 3)%nat -> first_of s' r = None) /\
  (forall vs, outline_of s r vs -> (3 <= length vs)%nat -> settled s' r) /\ turned s s' r.
Lemma orientation_step fuel r s u s' : well_ringed s -> correct_orientation fuel r s = Ok (u, s') -> orient_step r s s'.
Proof.
  intros W E. unfold correct_orientation in E. rewrite (bind_run _ _ _ _ _ (rg_run s r)) in E. unfold orient_step, turned.
  change (r_node (ring_at s r)) with (first_of s r) in E. destruct (first_of s r) as [n|] eqn:Fn.
  2:{ injection E as _ <-. split; [apply frame_refl; exact W|]. split; [reflexivity|]. split; [auto|].
      repeat split; intros; match goal with H : outline_of _ _ _ |- _ => destruct H as (? & ? & ? & _); congruence end. }
  inv_bind E v s1 Ea. destruct (recalc_frame fuel r s v s1 Ea W ltac:(congruence)) as (F1 & S1 & P1 & SR1).
  assert (W1 : well_ringed s1) by apply F1.
  assert (RO : forall i, ring_of s1 i = Some r -> ring_of s i = Some r) by (intros i; rewrite (same_ring_of _ _ _ SR1); auto).
  assert (G1 : as_good s s1 r) by (intros vs; apply same_outline; exact SR1).
  assert (F1n : first_of s1 r = Some n) by (rewrite (same_first _ _ _ SR1); exact Fn).
  destruct (recalc_run fuel r s v s1 Ea) as [(N & _)|(n' & t & Fn' & Et & Es1)]; [congruence|].
  assert (n' = n) by congruence. subst n'. destruct (well_at s n r W (wr_first s W r n Fn)) as (l & C & M).
  destruct (node_stats_any s n l fuel t s C Et) as (_ & (SZ & _)).
  assert (OS : outline_of s r (vertices s (n :: l))) by (exists n, l; auto).
  assert (SZ1 : r_size (ring_at s1 r) = length (vertices s (n :: l))).
  { rewrite Es1, ring_at_rput, Pos.eqb_refl. unfold vertices. rewrite map_length. exact SZ. }
  rewrite (bind_run _ _ _ _ _ (size_settled fuel r s1 S1)) in E. rewrite SZ1 in E.
  destruct (Nat.ltb_spec (length (vertices s (n :: l))) 3) as [L|L].
  - destruct (remove_points_frame fuel fuel r true s1 u s' E W1 ltac:(congruence)) as (F2 & (N2 & _ & _ & P2 & _)).
    split; [apply (frame_trans r s s1); assumption|]. split; [intros q; rewrite P2; apply P1|]. split; [congruence|]. split; [auto|].
    split; [intros vs O Lv; rewrite (outline_fun s r vs _ O OS) in Lv; lia|]. intros p k O Lv. rewrite (outline_fun s r _ _ O OS) in Lv. lia.
  - inv_bind E d s2 Eb. destruct (ring_depth_depth fuel r s1 d s2 Eb) as (-> & D1).
    assert (D : depth s r d) by (apply (depth_same s1 s); [intros q; symmetry; apply P1|exact D1]).
    rewrite (bind_run _ _ _ _ _ (hole_settled fuel r s1 S1)) in E.
    destruct (settled_outline s1 r S1) as (vs & O1 & _ & _ & _ & _ & H1).
    pose proof (proj2 (G1 _) O1) as O. pose proof (outline_fun s r _ _ O OS) as EQ. rewrite <- EQ in *.
    change (is_odd d) with (Nat.odd d) in E.
    destruct (Bool.eqb (Nat.odd d) (r_hole (ring_at s1 r))) eqn:EO; cbn [negb] in E.
    + injection E as _ <-. split; [exact F1|]. split; [exact P1|]. split; [congruence|].
      split; [intros ws Ow Lw; rewrite (outline_fun s r ws _ Ow O) in Lw; lia|]. split; [intros; exact S1|].
      intros p k Ok _. exists d. split; [exact D|]. split; [left; apply G1; exact Ok|]. right. apply Bool.eqb_prop in EO. rewrite EO. apply settled_orient. exact S1.
    + inv_bind E w s2 Ec. destruct (reverse_frame fuel n r s1 w s2 Ec W1 F1n) as (F2 & P2 & R2 & F2n & (k & C1 & C2 & V2)).
      assert (W2 : well_ringed s2) by apply F2.
      destruct (recalc_frame fuel r s2 u s' E W2 ltac:(congruence)) as (F3 & S3 & P3 & SR3).
      split; [apply (frame_trans r s s1); [exact F1|exact RO|]; apply (frame_trans r s1 s2); [exact F2|intros i; rewrite R2; auto|exact F3]|].
      split; [intros q; rewrite P3, P2; apply P1|]. split; [congruence|].
      split; [intros ws Ow Lw; rewrite (outline_fun s r ws _ Ow O) in Lw; lia|]. split; [intros; exact S3|].
      intros p j Ok _. exists d. split; [exact D|].
      assert (EV : p :: j = vertices s1 (n :: k)) by (apply (outline_fun s1 r); [apply G1; exact Ok|exists n, k; auto]).
      assert (O2 : outline_of s' r (p :: rev j)).
      { apply (same_outline s2 s' r _ SR3). exists n, (rev k). split; [exact F2n|]. split; [exact C2|]. rewrite V2.
        unfold vertices in EV |- *. cbn [map] in *. injection EV as -> ->. rewrite map_rev. reflexivity. }
      split; [right; exact O2|]. assert (A : area2 vs = area2 (p :: j)) by (rewrite (outline_fun s r _ _ O Ok); reflexivity).
      destruct (Z.eq_dec (area2 (p :: j)) 0) as [Z|Z]; [left; exact Z|right].
      assert (AR : area2 (p :: rev j) = - area2 (p :: j)) by apply C30_area_in_output_order.
      rewrite H1, A in EO. destruct (Nat.odd d), (Z.leb_spec 0 (area2 (p :: j))); try discriminate; exists (p :: rev j); split; (exact O2 || lia).
Qed.
(** ** All rings *)
Definition orient_inv (s0 : st) (todo : list rid) (s : st) : Prop :=
  well_ringed s /\ s_rnext s = s_rnext s0 /\ (forall q, parent_of s q = parent_of s0 q) /\
  (forall q, In q todo -> as_good s0 s q) /\
  (forall q, ~ In q todo ->
     (first_of s0 q = None -> first_of s q = None) /\
     (forall vs, outline_of s0 q vs -> (length vs < 3)%nat -> first_of s q = None) /\
     (forall vs, outline_of s0 q vs -> (3 <= length vs)%nat -> settled s q) /\ turned s0 s q).
Lemma orient_inv_step s0 r todo s s' : well_ringed s0 -> orient_inv s0 (r :: todo) s -> ~ In r todo -> orient_step r s s' -> orient_inv s0 todo s'.
Proof.
  intros W0 (W & RN & PP & U & V) NI (F & P & A & B & C & T). pose proof F as (F1 & F2 & F3 & W').
  assert (G : forall k, k <> r -> as_good s s' k) by (intros k Hk; apply (frame_good r); assumption).
  split; [exact W'|]. split; [congruence|]. split; [intros q; rewrite P; apply PP|]. split.
  - intros q Hq. apply (as_good_trans s0 s s' q); [apply U; right; exact Hq|]. apply G. intros ->. contradiction.
  - intros q Nq. destruct (Pos.eq_dec q r) as [->|Q].
    + assert (Gr : as_good s0 s r) by (apply U; left; reflexivity).
      split; [intros N; apply A; apply (good_first s0); auto|]. split; [intros vs O; apply B, Gr, O|]. split; [intros vs O; apply C, Gr, O|].
      intros p l O L. destruct (T p l) as (d & D & X); [apply Gr; exact O|exact L|]. exists d. split; [|exact X].
      apply (depth_same s s0); [|exact D]. intros k. symmetry. apply PP.
    + destruct (V q) as (V1 & V2 & V3 & V4); [intros [->|X]; contradiction|]. destruct (F3 q Q) as (Fq & _). rewrite Fq.
      split; [exact V1|]. split; [exact V2|]. split; [intros vs O L; apply (frame_settled r s); auto; apply (V3 vs O L)|].
      intros p l O L. destruct (V4 p l O L) as (d & D & X & Y). exists d. split; [exact D|].
      split; [destruct X as [X|X]; [left|right]; apply (G q Q); exact X|]. destruct Y as [Y|Y]; [left; exact Y|right].
      destruct (Nat.odd d); [apply (hole_good s s'); auto|apply (exterior_good s s'); auto].
Qed.
Lemma orientations_orient fuel s u s' : well_ringed s -> correct_orientations fuel s = Ok (u, s') -> orient_inv s [] s'.
Proof.
  intros W E. unfold correct_orientations in E. inv_bind E t s1 Ea. injection Ea as <- <-.
  assert (ST : orient_inv s (all_rings s) s).
  { split; [exact W|]. split; [reflexivity|]. split; [reflexivity|]. split; [intros q _ vs; reflexivity|].
    intros q Nq. assert (N : first_of s q = None).
    { destruct (first_of s q) as [n|] eqn:Fq; [|reflexivity]. exfalso. apply Nq. apply points_in; [exact W|congruence]. }
    split; [auto|]. repeat split; unfold turned; intros; match goal with H : outline_of _ _ _ |- _ => destruct H as (? & ? & ? & _); congruence end. }
  assert (G : forall l t, orient_inv s l t -> NoDup l -> forM l (correct_orientation fuel) t = Ok (u, s') -> orient_inv s [] s');
    [|exact (G _ _ ST (all_rings_nodup s) E)]. clear ST E.
  induction l as [|r l IH]; intros t ST ND E; cbn [forM] in E.
  - injection E as _ <-. exact ST.
  - inv_bind E v t1 Ea. inversion ND as [|? ? NI ND']; subst. apply (IH t1); [|exact ND'|exact E].
    apply (orient_inv_step s r l t t1); [exact W|exact ST|exact NI|]. apply (orientation_step fuel r t v t1); [apply ST|exact Ea].
Qed.
Lemma orientations_order fuel s u s' : well_ringed s -> correct_orientations fuel s = Ok (u, s') -> in_order s' /\ all_measured s'.
Proof.
  intros W E. destruct (orientations_orient fuel s u s' W E) as (W' & _ & _ & _ & V).
  assert (SS : forall r, first_of s' r <> None -> settled s' r).
  { intros r F. destruct (V r (fun x => x)) as (V1 & V2 & V3 & _). destruct (first_of s r) as [n|] eqn:Fn; [|rewrite V1 in F; congruence].
    destruct (well_at s n r W (wr_first s W r n Fn)) as (l & C & _). assert (O : outline_of s r (vertices s (n :: l))) by (exists n, l; auto).
    destruct (Nat.lt_ge_cases (length (vertices s (n :: l))) 3) as [L|L]; [rewrite (V2 _ O L) in F; congruence|exact (V3 _ O L)]. }
  split; [split; [exact W'|]|].
  - apply settled_up. intros r n F. right. apply SS. congruence.
  - intros r (vs & n & l & F & _). apply settled_not_nan. apply SS. congruence.
Qed.
