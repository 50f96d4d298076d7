(** * Reconnecting the rings of a tour: the rings and their statistics *)
From Coq Require Import ZArith List Bool Lia FMapPositive Permutation.
From Coq Require Import Floats.SpecFloat.
From RecordUpdate Require Import RecordSet.
From Verif Require MiscP IntersectP.
From Verif Require Import Py Monad Utils Geometry LinearRingM BoundM LocalMinimumM
     StateM PointNodeM RingM SweepM TopologyM WagyuM HoareP SpecRing SpecHeap SpecRings SpecTree SpecTour SweepFrameP CalmP OrderP VatP FuelP PipP SortP PointersP
     CircleP HeapOpsP StatsP SplitP LinearRingP NodeFrameP RingedP RingedTopP RingedCutP RingedTreeP TreeP
     NestP NestTreeP RegionP FitP KeepOrderP TourP SpecNest.
Import ListNotations RecordSetNotations.
Open Scope Z_scope.

Lemma whole_well s r : well_ringed s -> whole s r.
Proof. intros W i H. exact (well_at s i r W H). Qed.
Lemma perm_cons_pairs x l l' : Permutation l l' -> Permutation (pairs_of (x :: l)) (pairs_of (x :: l')).
Proof. intros P. apply Permutation_map. constructor. exact P. Qed.
Lemma switched s keep a b lt l2 : tour s ((keep, (a, b)) :: lt) -> lt <> [] -> Permutation lt l2 ->
  (forall q, In q (map fst ((keep, (a, b)) :: lt)) -> whole s q) ->
  exists s' C1 C2, switches ((a, b) :: pairs_of l2) s = Ok (tt, s') /\ circle s' C1 /\ circle s' C2 /\
    In a C1 /\ In b C2 /\ same_vertices s s' /\ same_but_nodes s s' /\
    (forall i, In i (C1 ++ C2) <-> on_tour s ((keep, (a, b)) :: lt) i) /\ NoDup (C1 ++ C2) /\
    (forall i, ~ on_tour s ((keep, (a, b)) :: lt) i -> node_at s' i = node_at s i).
Proof.
  intros T NE P W. set (lf := (keep, (a, b)) :: lt) in *.
  destruct (tour_touched s lf T) as (ND & OT).
  assert (LK : forall i, on_tour s lf i -> exists j, linked s i j /\ on_tour s lf j).
  { intros i (q & Hq & Rq). destruct (W q Hq i Rq) as (m & C & M). destruct (circle_link s (i :: m) i C (or_introl eq_refl)) as (j & Lj & Ij).
    exists j. split; [exact Lj|]. exists q. split; [exact Hq|]. apply M. exact Ij. }
  destruct (switches_crossed (pairs_of lf) s ND) as (s1 & E1 & X1 & V1 & B1).
  { intros i Hi. destruct (LK i (OT i Hi)) as (j & Lj & _). exists j. exact Lj. }
  assert (P2 : Permutation (pairs_of lf) ((a, b) :: pairs_of l2)) by (apply (perm_cons_pairs (keep, (a, b))); exact P).
  pose proof (touched_perm _ _ P2) as PT.
  destruct (switches_crossed ((a, b) :: pairs_of l2) s) as (s2 & E2 & X2 & V2 & B2).
  { eapply Permutation_NoDup; [exact PT|exact ND]. }
  { intros i Hi. apply (Permutation_in _ (Permutation_sym PT)) in Hi. destruct (LK i (OT i Hi)) as (j & Lj & _). exists j. exact Lj. }
  destruct lt as [|t l]; [congruence|]. destruct (tour_two s keep a b t l T W) as (s1' & C1 & C2 & E1' & K1 & K2 & I1 & I2 & V1' & MM & NC).
  change (pairs_of ((keep, (a, b)) :: t :: l)) with (pairs_of lf) in E1'. rewrite E1 in E1'. injection E1' as <-.
  assert (CL : forall i j, on_tour s lf i -> linked s1 i j -> linked s2 i j).
  { intros i j Hi. apply (crossed_linked (pairs_of lf) ((a, b) :: pairs_of l2) s s1 s2 i j P2 X1 X2).
    - intros k Hk. destruct (LK k (OT k Hk)) as (m & Lm & _). exists m. exact Lm.
    - destruct (LK i Hi) as (m & Lm & _). exists m. exact Lm. }
  exists s2, C1, C2. split; [exact E2|].
  split; [apply (circle_linked s1 s2); [|exact K1]; intros i j Hi; apply CL; apply MM; apply in_or_app; left; exact Hi|].
  split; [apply (circle_linked s1 s2); [|exact K2]; intros i j Hi; apply CL; apply MM; apply in_or_app; right; exact Hi|].
  split; [exact I1|]. split; [exact I2|]. split; [exact V2|]. split; [exact B2|]. split; [exact MM|]. split; [exact NC|].
  intros i Hi. apply X2.
  - intros H. apply Hi. apply OT. apply (Permutation_in _ (Permutation_sym PT)). exact H.
  - intros j H Lj. apply Hi. apply (Permutation_in _ (Permutation_sym PT)) in H. destruct (LK j (OT j H)) as (k & Lk & Ok). 
    replace i with k by exact (linked_fun s j k i Lk Lj). exact Ok.
Qed.

(** ** The first ring that is not a hole takes the place of the origin *)
Lemma swap_spec fuel ro o1 o2 l : forall s l2 ro' p1 p2 c s', origin_swap fuel ro o1 o2 l s = Ok ((l2, ro', p1, p2, c), s') -> calc s s' /\
  ((l2 = l /\ ro' = ro /\ p1 = o1 /\ p2 = o2) \/
   exists l1 l3, l = l1 ++ (ro', (p1, p2)) :: l3 /\ l2 = l1 ++ (ro, (o1, o2)) :: l3).
Proof.
  induction l as [|(r & x & y) l IH]; intros s l2 ro' p1 p2 c s' E; cbn [origin_swap] in E.
  - injection E as <- <- <- <- <- <-. split; [apply R_refl|]. left. auto.
  - unfold bind at 1 in E. destruct (ring_is_hole fuel r s) as [[h s1]| |] eqn:Eh; try discriminate. cbv iota beta in E.
    pose proof (calc_hole fuel r _ _ _ Eh) as H1. destruct h.
    + unfold bind at 1 in E. destruct (origin_swap fuel ro o1 o2 l s1) as [[[[[[l2' ro''] p1'] p2'] c'] s2]| |] eqn:E2; try discriminate. cbv iota beta in E.
      injection E as <- <- <- <- <- <-. destruct (IH _ _ _ _ _ _ _ E2) as (H2 & H3). split; [eapply R_trans; eassumption|].
      destruct H3 as [(-> & -> & -> & ->)|(l1 & l3 & -> & ->)]; [left; auto|]. right. exists ((r, (x, y)) :: l1), l3. split; reflexivity.
    + injection E as <- <- <- <- <- <-. split; [exact H1|]. right. exists [], l. split; reflexivity.
Qed.
Lemma swap_tour s ro o1 o2 l l2 ro' p1 p2 : tour s ((ro, (o1, o2)) :: l) -> l <> [] ->
  ((l2 = l /\ ro' = ro /\ p1 = o1 /\ p2 = o2) \/ exists l1 l3, l = l1 ++ (ro', (p1, p2)) :: l3 /\ l2 = l1 ++ (ro, (o1, o2)) :: l3) ->
  exists lt, tour s ((ro', (p1, p2)) :: lt) /\ lt <> [] /\ Permutation lt l2 /\ Permutation ((ro', (p1, p2)) :: lt) ((ro, (o1, o2)) :: l).
Proof.
  intros T N [(-> & -> & -> & ->)|(l1 & l3 & -> & ->)].
  - exists l. auto.
  - exists (l3 ++ (ro, (o1, o2)) :: l1). split; [exact (tour_turn s ((ro, (o1, o2)) :: l1) ((ro', (p1, p2)) :: l3) T)|].
    split; [destruct l3; discriminate|]. split.
    + transitivity (((ro, (o1, o2)) :: l1) ++ l3); [apply Permutation_app_comm|]. cbn [app]. apply Permutation_middle.
    + change ((ro', (p1, p2)) :: l3 ++ (ro, (o1, o2)) :: l1) with (((ro', (p1, p2)) :: l3) ++ (ro, (o1, o2)) :: l1). apply Permutation_app_comm.
Qed.
Lemma on_tour_perm s l l' i : Permutation l l' -> on_tour s l i -> on_tour s l' i.
Proof. intros P (q & Hq & Rq). exists q. split; [|exact Rq]. apply (Permutation_in _ (Permutation_map fst P)). exact Hq. Qed.
Lemma tour_same s s' l : same_ringed s s' -> tour s l -> tour s' l.
Proof.
  intros S (N & e & L). split; [exact N|]. exists e. assert (G : forall l e x, leads s e l x -> leads s' e l x).
  { clear - S. induction l as [|(r & a & b) l IH]; intros e x; cbn [leads]; [auto|]. rewrite !(same_ring_of s s') by exact S. intros (A & B & C & D). auto. }
  apply G. exact L.
Qed.

(** ** The two chains become two rings *)
Definition label_rest (fuel : nat) (keep new : rid) (a b : nid) (hole : bool) : prog unit :=
  (s1 <- node_stats fuel a ;;
   s2 <- node_stats fuel b ;;
   (if hole && num_ltb (NF (st_area s1)) (NF f_zero) then
      (upd_ring keep (fun x => x <| r_node := Some a |>) ;; set_stats keep s1 ;;
       upd_ring new (fun x => x <| r_node := Some b |>) ;; set_stats new s2)
    else
      (upd_ring keep (fun x => x <| r_node := Some b |>) ;; set_stats keep s2 ;;
       upd_ring new (fun x => x <| r_node := Some a |>) ;; set_stats new s1)) ;;
   update_points fuel keep ;;
   update_points fuel new)%M.
Lemma head_in s (C : list nid) a : circle s C -> In a C -> exists m, circle s (a :: m) /\ forall i, In i (a :: m) <-> In i C.
Proof.
  intros K H. apply in_split in H as (l1 & l2 & ->). exists (l2 ++ l1). split; [exact (circle_rotate s l1 (a :: l2) K)|].
  intros i. inn. tauto.
Qed.
Lemma circle_rest_same s s' l : (forall i, n_next (node_at s' i) = n_next (node_at s i) /\ n_prev (node_at s' i) = n_prev (node_at s i)) -> circle s l -> circle s' l.
Proof. intros H. apply circle_frame. intros i _. apply H. Qed.
Record labelled (keep new : rid) (CK CN : list nid) (s s' : st) : Prop := {
  lb_keep : settled s' keep;
  lb_new : settled s' new;
  lb_first : (exists n, first_of s' keep = Some n /\ In n CK) /\ (exists n, first_of s' new = Some n /\ In n CN);
  lb_other : forall q, q <> keep -> q <> new -> ring_at s' q = ring_at s q;
  lb_ring : forall i, ring_of s' i = if in_dec Pos.eq_dec i CN then Some new else if in_dec Pos.eq_dec i CK then Some keep else ring_of s i;
  lb_links : forall i, n_next (node_at s' i) = n_next (node_at s i) /\ n_prev (node_at s' i) = n_prev (node_at s i) /\ npos (node_at s' i) = npos (node_at s i);
  lb_nodes : forall i, ~ In i CK -> ~ In i CN -> node_at s' i = node_at s i;
  lb_next : s_nnext s' = s_nnext s /\ s_rnext s' = s_rnext s /\ s_conn s' = s_conn s
}.
Lemma labels fuel keep new x y hx hy C1 C2 s u s' t1 t2 : keep <> new -> circle s (x :: hx) -> circle s (y :: hy) ->
  (forall i, In i (x :: hx) <-> In i C1) -> (forall i, In i (y :: hy) <-> In i C2) -> stats_of s (x :: hx) t1 -> stats_of s (y :: hy) t2 ->
  bind (bind (upd_ring keep (fun z => z <| r_node := Some x |>)) (fun _ => bind (set_stats keep t1) (fun _ =>
       bind (upd_ring new (fun z => z <| r_node := Some y |>)) (fun _ => set_stats new t2)))) (fun _ =>
  bind (update_points fuel keep) (fun _ => update_points fuel new)) s = Ok (u, s') ->
  labelled keep new C1 C2 s s'.
Proof.
  intros N K1 K2 M1 M2 S1 S2 E.
  assert (E0 : (bind (upd_ring keep (fun z => z <| r_node := Some x |>)) (fun _ => bind (set_stats keep t1) (fun _ =>
       bind (upd_ring new (fun z => z <| r_node := Some y |>)) (fun _ => set_stats new t2)))) s =
       Ok (tt, rput (rput (rput (rput s keep (fun z => z <| r_node := Some x |>)) keep (with_stats t1)) new (fun z => z <| r_node := Some y |>)) new (with_stats t2))) by reflexivity.
  rewrite (bind_run _ _ _ _ _ E0) in E. clear E0. set (sx := rput _ _ _) in E.
  assert (U : forall k, node_at sx k = node_at s k) by (intros k; reflexivity).
  assert (NE : new <> keep) by congruence.
  assert (Rk : ring_at sx keep = with_stats t1 (ring_at s keep <| r_node := Some x |>)).
  { unfold sx. rewrite !ring_at_rput, !Pos.eqb_refl. destruct (Pos.eqb_spec new keep); [congruence|]. reflexivity. }
  assert (Rn : exists z, ring_at sx new = with_stats t2 z /\ r_node z = Some y).
  { exists (ring_at s new <| r_node := Some y |>). split; [|reflexivity]. unfold sx. rewrite !ring_at_rput, !Pos.eqb_refl. destruct (Pos.eqb_spec keep new); [congruence|]. reflexivity. }
  assert (Ro : forall q, q <> keep -> q <> new -> ring_at sx q = ring_at s q).
  { intros q Q1 Q2. unfold sx. rewrite !ring_at_rput. destruct (Pos.eqb_spec new q); [congruence|]. destruct (Pos.eqb_spec keep q); [congruence|]. reflexivity. }
  assert (NX : s_nnext sx = s_nnext s /\ s_rnext sx = s_rnext s /\ s_conn sx = s_conn s) by (repeat split).
  assert (Fk : first_of sx keep = Some x) by (unfold first_of; rewrite Rk; reflexivity).
  assert (Fn : first_of sx new = Some y) by (unfold first_of; destruct Rn as (z & -> & Z); exact Z).
  assert (Kx : circle sx (x :: hx)) by (apply (circle_same s); [intros; apply U|exact K1]).
  assert (Ky : circle sx (y :: hy)) by (apply (circle_same s); [intros; apply U|exact K2]).
  assert (Tk : settled sx keep).
  { apply (settled_with sx keep x hx t1 (ring_at s keep <| r_node := Some x |>)); assumption. }
  assert (Tn : settled sx new).
  { destruct Rn as (z & Rz & _). apply (settled_with sx new y hy t2 z); assumption. }
  clearbody sx. clear Rk Rn.
  unfold bind at 1 in E. destruct (update_points fuel keep sx) as [[u1 sy]| |] eqn:E1; try discriminate. cbv iota beta in E.
  destruct (relabel sx keep x hx fuel u1 sy Kx Fk E1) as (O1 & B1).
  assert (Ky1 : circle sy (y :: hy)) by (apply (owned_circle keep (x :: hx) sx); assumption).
  assert (Fn1 : first_of sy new = Some y) by (rewrite (sbn_first _ _ _ B1); exact Fn).
  destruct (relabel sy new y hy fuel u s' Ky1 Fn1 E) as (O2 & B2).
  assert (B : same_but_nodes sx s') by (eapply same_but_nodes_trans; eassumption).
  assert (LL : forall i, n_next (node_at s' i) = n_next (node_at sx i) /\ n_prev (node_at s' i) = n_prev (node_at sx i) /\ npos (node_at s' i) = npos (node_at sx i)).
  { intros i. destruct (owned_next _ _ _ _ i O1) as (A1 & A2 & A3), (owned_next _ _ _ _ i O2) as (A4 & A5 & A6). repeat split; congruence. }
  assert (SS : forall q, stats_same sx s' q) by (intros q; unfold stats_same; rewrite (ring_at_sbn _ _ q B); repeat split).
  split.
  - revert Tk. apply settled_carry; [exact LL|apply (sbn_first _ _ _ B)|apply SS].
  - revert Tn. apply settled_carry; [exact LL|apply (sbn_first _ _ _ B)|apply SS].
  - rewrite !(sbn_first _ _ _ B). split; [exists x; split; [exact Fk|apply M1; left; reflexivity]|exists y; split; [exact Fn|apply M2; left; reflexivity]].
  - intros q Q1 Q2. rewrite (ring_at_sbn _ _ q B). apply Ro; assumption.
  - intros i. rewrite (owned_ring _ _ _ _ i O2), (owned_ring _ _ _ _ i O1).
    destruct (in_dec Pos.eq_dec i (y :: hy)) as [I1|I1], (in_dec Pos.eq_dec i C2) as [I2|I2]; try (exfalso; apply M2 in I1 || apply M2 in I2; contradiction); [reflexivity|].
    destruct (in_dec Pos.eq_dec i (x :: hx)) as [J1|J1], (in_dec Pos.eq_dec i C1) as [J2|J2]; try (exfalso; apply M1 in J1 || apply M1 in J2; contradiction); [reflexivity|].
    unfold ring_of. rewrite U. reflexivity.
  - intros i. destruct (LL i) as (A1 & A2 & A3). rewrite A1, A2, A3, U. auto.
  - intros i H1 H2. destruct O1 as (_ & O1), O2 as (_ & O2). rewrite O2, O1; [apply U| |].
    + intros J. apply H1, M1, J.
    + intros J. apply H2, M2, J.
  - destruct (sbn_next _ _ B) as (A1 & A2 & A3). destruct NX as (A4 & A5 & A6). repeat split; congruence.
Qed.
Lemma label_run fuel keep new a b hole s u s' C1 C2 : keep <> new -> circle s C1 -> circle s C2 -> In a C1 -> In b C2 -> NoDup (C1 ++ C2) ->
  label_rest fuel keep new a b hole s = Ok (u, s') ->
  exists CK CN, (CK = C1 /\ CN = C2 \/ CK = C2 /\ CN = C1) /\ labelled keep new CK CN s s'.
Proof.
  intros N K1 K2 I1 I2 ND E. unfold label_rest in E.
  destruct (head_in s C1 a K1 I1) as (m1 & H1 & M1), (head_in s C2 b K2 I2) as (m2 & H2 & M2).
  unfold bind at 1 in E. destruct (node_stats fuel a s) as [[t1 sa]| |] eqn:Ea; try discriminate. cbv iota beta in E. destruct (node_stats_any s a m1 fuel t1 sa H1 Ea) as (-> & S1).
  unfold bind at 1 in E. destruct (node_stats fuel b s) as [[t2 sb]| |] eqn:Eb; try discriminate. cbv iota beta in E. destruct (node_stats_any s b m2 fuel t2 sb H2 Eb) as (-> & S2).
  clear Ea Eb. destruct (_ && _).
  - exists C1, C2. split; [left; auto|]. refine (labels fuel keep new a b m1 m2 C1 C2 s u s' t1 t2 _ _ _ _ _ _ _ E); assumption.
  - exists C2, C1. split; [right; auto|]. refine (labels fuel keep new b a m2 m1 C2 C1 s u s' t2 t1 _ _ _ _ _ _ _ E); assumption.
Qed.

(** ** The vertices of the tour after the reconnection *)
Definition off (l : list (rid * (nid * nid))) (q : rid) : Prop := In q (map fst l).
Lemma off_dec l q : off l q \/ ~ off l q.
Proof. destruct (in_dec Pos.eq_dec q (map fst l)); auto. Qed.
(** [in_order] but for the rings [X], which are about to lose their first vertices *)
Definition order_but (X : rid -> Prop) (s : st) : Prop :=
  well_but X s /\ forall q n, ~ X q -> first_of s q = Some n -> f_is_nan (r_area (ring_at s q)) = true \/ settled s q.
Record retraced (s : st) (keep new : rid) (lt : list (rid * (nid * nid))) (C1 C2 : list nid) (a b : nid) (s' : st) : Prop := {
  rt_keep : exists n, first_of s' keep = Some n /\ In n (C1 ++ C2);
  rt_new : exists n, first_of s' new = Some n /\ In n (C1 ++ C2);
  rt_ring : forall i, ring_of s' i = Some keep \/ ring_of s' i = Some new <-> on_tour s ((keep, (a, b)) :: lt) i;
  rt_off : forall i, ~ on_tour s ((keep, (a, b)) :: lt) i -> node_at s' i = node_at s i;
  rt_pos : forall i, npos (node_at s' i) = npos (node_at s i);
  rt_first : forall q, ~ In q (map fst ((keep, (a, b)) :: lt)) -> q <> new -> first_of s' q = first_of s q
}.
Lemma relabelled fuel keep a b lt hole sA s1 s2 u C1 C2 : in_order sA -> tour sA ((keep, (a, b)) :: lt) ->
  circle s1 C1 -> circle s1 C2 -> In a C1 -> In b C2 -> same_vertices sA s1 -> same_but_nodes sA s1 ->
  (forall i, In i (C1 ++ C2) <-> on_tour sA ((keep, (a, b)) :: lt) i) -> NoDup (C1 ++ C2) ->
  (forall i, ~ on_tour sA ((keep, (a, b)) :: lt) i -> node_at s1 i = node_at sA i) ->
  label_rest fuel keep (s_rnext sA) a b hole (rput (alloc_ring s1) keep (fun x => x <| r_corrected := false |>)) = Ok (u, s2) ->
  order_but (off lt) s2 /\ retraced sA keep (s_rnext sA) lt C1 C2 a b s2 /\ s_rnext s2 = Pos.succ (s_rnext sA).
Proof.
  intros (W & UD) (NT & e & L) K1 K2 I1 I2 V B MM ND OFF E. set (new := s_rnext sA) in *. set (lf := (keep, (a, b)) :: lt) in *.
  set (sC := rput (alloc_ring s1) keep (fun x => x <| r_corrected := false |>)) in E.
  destruct (sbn_next _ _ B) as (B1 & B2 & B3).
  assert (Ra : ring_of sA a = Some keep) by (apply L).
  assert (Lk : (keep < new)%positive) by (apply (wr_known sA W a keep Ra)). assert (N : keep <> new) by lia.
  assert (UC : forall i, node_at sC i = node_at s1 i) by (intros i; reflexivity).
  assert (K1' : circle sC C1) by (apply (circle_same s1); [intros; apply UC|exact K1]).
  assert (K2' : circle sC C2) by (apply (circle_same s1); [intros; apply UC|exact K2]).
  destruct (label_run fuel keep new a b hole sC u s2 C1 C2 N K1' K2' I1 I2 ND E) as (CK & CN & CC & LB). clear E.
  assert (MK : forall i, In i (C1 ++ C2) <-> In i CK \/ In i CN).
  { intros i. rewrite in_app_iff. destruct CC as [(-> & ->)|(-> & ->)]; tauto. }
  assert (DJ : forall i, In i CK -> In i CN -> False).
  { apply nodup_app in ND as (_ & _ & D). intros i H1 H2. destruct CC as [(-> & ->)|(-> & ->)]; apply (D i); assumption. }
  assert (KK : circle s2 CK /\ circle s2 CN).
  { assert (G : circle s2 C1 /\ circle s2 C2).
    { split; [revert K1'|revert K2']; apply circle_rest_same; intros i; destruct (lb_links _ _ _ _ _ _ LB i) as (A1 & A2 & _); auto. }
    destruct CC as [(-> & ->)|(-> & ->)]; tauto. }
  destruct KK as (CKc & CNc).
  assert (RV : forall i, ring_of sC i = ring_of sA i) by (intros i; unfold ring_of; rewrite UC; apply (V i)).
  assert (RR : forall i, ring_of s2 i = if in_dec Pos.eq_dec i CN then Some new else if in_dec Pos.eq_dec i CK then Some keep else ring_of sA i).
  { intros i. rewrite (lb_ring _ _ _ _ _ _ LB i), RV. reflexivity. }
  assert (RO : forall i, ~ on_tour sA lf i -> ring_of s2 i = ring_of sA i).
  { intros i H. rewrite RR. destruct (in_dec _ _ _) as [J|_]; [exfalso; apply H, MM, MK; tauto|]. destruct (in_dec _ _ _) as [J|_]; [exfalso; apply H, MM, MK; tauto|]. reflexivity. }
  assert (NO : forall i, ~ on_tour sA lf i -> node_at s2 i = node_at sA i).
  { intros i H. rewrite (lb_nodes _ _ _ _ _ _ LB i); [rewrite UC; apply OFF, H| |]; intros J; apply H, MM, MK; tauto. }
  assert (AC : forall q, q <> keep -> q <> new -> ring_at s2 q = ring_at sA q).
  { intros q Q1 Q2. rewrite (lb_other _ _ _ _ _ _ LB q Q1 Q2). unfold sC. rewrite ring_at_rput. destruct (Pos.eqb_spec keep q); [congruence|].
    rewrite ring_at_alloc, B2. fold new. destruct (Pos.eqb_spec new q); [congruence|]. apply (ring_at_sbn _ _ q B). }
  assert (ON : forall i, In i CK \/ In i CN <-> on_tour sA lf i) by (intros i; rewrite <- MM, MK; reflexivity).
  assert (INQ : forall i q, ring_of s2 i = Some q -> q = new /\ In i CN \/ q = keep /\ In i CK \/ ring_of sA i = Some q /\ ~ In q (map fst lf)).
  { intros i q H. rewrite RR in H. destruct (in_dec Pos.eq_dec i CN) as [J|J1]; [left; split; [congruence|exact J]|].
    destruct (in_dec Pos.eq_dec i CK) as [J|J2]; [right; left; split; [congruence|exact J]|]. right. right. split; [exact H|].
    intros X. assert (on_tour sA lf i) by (exists q; auto). apply ON in H0. tauto. }
  assert (NEW : forall i, ring_of sA i <> Some new).
  { intros i H. destruct (wr_known sA W i new H) as (_ & X). unfold new in X. lia. }
  assert (OT : forall q, q <> keep -> q <> new -> ~ off lt q -> ~ In q (map fst lf)).
  { intros q Q1 Q2 Q3. cbn. intros [X|X]; [congruence|exact (Q3 X)]. }
  destruct (lb_first _ _ _ _ _ _ LB) as ((nk & Fk & Ik) & (nn & Fn & In_)).
  destruct (lb_next _ _ _ _ _ _ LB) as (X1 & X2 & X3).
  assert (RNX : s_rnext s2 = Pos.succ new) by (rewrite X2; unfold sC, alloc_ring; cbn; rewrite B2; reflexivity).
  assert (NNX : s_nnext s2 = s_nnext sA) by (rewrite X1; unfold sC, alloc_ring; cbn; exact B1).
  assert (RK : forall i, In i CK -> ring_of s2 i = Some keep).
  { intros i H. rewrite RR. destruct (in_dec Pos.eq_dec i CN) as [J|_]; [destruct (DJ i H J)|]. destruct (in_dec Pos.eq_dec i CK); [reflexivity|contradiction]. }
  assert (RN : forall i, In i CN -> ring_of s2 i = Some new).
  { intros i H. rewrite RR. destruct (in_dec Pos.eq_dec i CN); [reflexivity|contradiction]. }
  split; [|split].
  - split; [split|].
    + intros r. destruct (Pos.eq_dec r new) as [->|R1].
      { exists CN. split; [|right; exact CNc]. intros i. split; [|apply RN]. intros H. destruct (INQ i new H) as [(_ & J)|[(X & _)|(X & _)]]; [exact J|congruence|destruct (NEW i X)]. }
      destruct (Pos.eq_dec r keep) as [->|R2].
      { exists CK. split; [|right; exact CKc]. intros i. split; [|apply RK]. intros H. destruct (INQ i keep H) as [(X & _)|[(_ & J)|(_ & X)]]; [congruence|exact J|exfalso; apply X; left; reflexivity]. }
      destruct (off_dec lt r) as [Hr|Hr].
      { exists []. split; [|left; reflexivity]. intros i. split; [|intros []]. intros H. destruct (INQ i r H) as [(X & _)|[(X & _)|(_ & X)]]; [congruence|congruence|]. apply X. right. exact Hr. }
      destruct (wr_circles sA W r) as (l & M & C). exists l. pose proof (OT r R2 R1 Hr) as NQ.
      assert (NT' : forall i, ring_of sA i = Some r -> ~ on_tour sA lf i).
      { intros i H (q & Hq & Rq). apply NQ. replace r with q by congruence. exact Hq. }
      split.
      * intros i. rewrite <- (M i). split.
        -- intros H. destruct (INQ i r H) as [(X & _)|[(X & _)|(X & _)]]; [congruence|congruence|exact X].
        -- intros H. rewrite (RO i (NT' i H)). exact H.
      * destruct C as [C|C]; [left; exact C|right]. apply (circle_same sA); [|exact C]. intros i H. apply NO. apply NT'. apply M. exact H.
    + intros r n Hr F. destruct (Pos.eq_dec r new) as [->|R1]; [replace n with nn by congruence; apply RN, In_|].
      destruct (Pos.eq_dec r keep) as [->|R2]; [replace n with nk by congruence; apply RK, Ik|].
      unfold first_of in F. rewrite (AC r R2 R1) in F. pose proof (wr_first sA W r n F) as H. rewrite RO; [exact H|].
      intros (q & Hq & Rq). apply (OT r R2 R1 Hr). replace r with q by congruence. exact Hq.
    + intros i r H. rewrite RNX, NNX. destruct (INQ i r H) as [(-> & J)|[(-> & J)|(J & _)]].
      * assert (O : on_tour sA lf i) by (apply ON; tauto). destruct O as (q & _ & Rq). destruct (wr_known sA W i q Rq). split; [assumption|lia].
      * assert (O : on_tour sA lf i) by (apply ON; tauto). destruct O as (q & _ & Rq). destruct (wr_known sA W i q Rq). split; [assumption|lia].
      * destruct (wr_known sA W i r J) as (G1 & G2). fold new in G2. split; [assumption|lia].
    + intros q n Hq F. destruct (Pos.eq_dec q new) as [->|R1]; [right; apply (lb_new _ _ _ _ _ _ LB)|].
    destruct (Pos.eq_dec q keep) as [->|R2]; [right; apply (lb_keep _ _ _ _ _ _ LB)|].
    pose proof (AC q R2 R1) as A. destruct (f_is_nan (r_area (ring_at sA q))) eqn:NN; [left; rewrite A; exact NN|right].
    assert (F' : first_of sA q = Some n) by (unfold first_of in *; rewrite <- A; exact F).
    apply (settled_frame sA); try (rewrite A; reflexivity); [unfold first_of; rewrite A; reflexivity| |exact W|exact (up_settled sA q n UD F' NN)].
    intros i Hi. apply NO. intros (p & Hp & Rp). apply (OT q R2 R1 Hq). replace q with p by congruence. exact Hp.
  - split.
    + exists nk. split; [exact Fk|]. apply MK. tauto.
    + exists nn. split; [exact Fn|]. apply MK. tauto.
    + intros i. fold lf. rewrite <- ON. split.
      * intros [H|H]; (destruct (INQ i _ H) as [(X & J)|[(X & J)|(X & Y)]]; [tauto|tauto|exfalso]); [apply Y; left; reflexivity|exact (NEW i X)].
      * intros [H|H]; [left; apply RK, H|right; apply RN, H].
    + exact NO.
    + intros i. rewrite (proj2 (proj2 (lb_links _ _ _ _ _ _ LB i))). rewrite UC. apply same_vertices_npos. exact V.
    + intros q Q1 Q2. unfold first_of. rewrite AC; [reflexivity| |exact Q2]. intros ->. apply Q1. left. reflexivity.
  - exact RNX.
Qed.

(** ** Replacing the rings *)
Definition kept (X : rid -> Prop) (s s' : st) : Prop := forall q, ~ X q -> stats_same s s' q.
#[export] Instance kept_pre X : PreOrd (kept X).
Proof.
  split; [intros s q _; repeat split|]. intros a b c H K q N. destruct (H q N) as (A1 & A2 & A3 & A4), (K q N) as (B1 & B2 & B3 & B4). repeat split; congruence.
Qed.
#[export] Hint Resolve kept_pre : pres.
Lemma kept_shelf {A} X (m : prog A) : pres shelf m -> pres (kept X) m.
Proof. intros H s a s' E q _. apply (H s a s' E). Qed.
Lemma kept_put X r f : (forall x, r_size (f x) = r_size x /\ r_box (f x) = r_box x /\ r_area (f x) = r_area x /\ r_hole (f x) = r_hole x) -> pres (kept X) (upd_ring r f).
Proof.
  intros H s u s' E. rewrite upd_ring_rput in E. injection E as _ <-. intros q _. unfold stats_same. rewrite ring_at_rput.
  destruct (Pos.eqb_spec r q) as [<-|_]; [apply H|repeat split].
Qed.
Lemma kept_own (X : rid -> Prop) r f : X r -> pres (kept X) (upd_ring r f).
Proof.
  intros H s u s' E. rewrite upd_ring_rput in E. injection E as _ <-. intros q N. unfold stats_same. rewrite ring_at_rput.
  destruct (Pos.eqb_spec r q) as [<-|_]; [contradiction|repeat split].
Qed.
Lemma kept_replace (X : rid -> Prop) fuel r o : X r -> pres (kept X) (replace_ring fuel r o).
Proof.
  intros H. unfold replace_ring. destruct (opt_is _ _); [apply pres_raise|].
  apply pres_bind; [typeclasses eauto| |].
  - unfold iter_children. apply pres_loopM; [typeclasses eauto|]. intros k. apply pres_bind; [typeclasses eauto|apply kept_shelf, shelf_children_of|]. intros l.
    destruct (nth_error l k) as [[c|]|]; try (apply pres_ret; typeclasses eauto).
    apply pres_bind; [typeclasses eauto| |intros ?; apply pres_ret; typeclasses eauto].
    apply pres_bind; [typeclasses eauto|apply kept_put; intros; repeat split|]. intros ?.
    apply pres_bind; [typeclasses eauto|apply kept_shelf, shelf_set|]. intros ?. apply kept_shelf, shelf_clear.
  - intros ?. apply pres_bind; [typeclasses eauto|apply kept_shelf, shelf_rg|]. intros ?.
    apply pres_bind; [typeclasses eauto|apply kept_shelf, shelf_remove|]. intros ?.
    apply pres_bind; [typeclasses eauto|apply kept_own, H|]. intros ?. apply kept_own, H.
Qed.
Lemma replace_first fuel r o s u s' : replace_ring fuel r o s = Ok (u, s') -> first_of s' r = None.
Proof.
  unfold replace_ring. destruct (opt_is _ _); [discriminate|]. intros E.
  unfold bind at 1 in E. destruct (iter_children _ _ _ s) as [[u1 s1]| |]; try discriminate. cbv iota beta in E.
  unfold bind at 1 in E. destruct (rg r s1) as [[x s2]| |]; try discriminate. cbv iota beta in E.
  unfold bind at 1 in E. destruct (remove_from_children _ _ s2) as [[u2 s3]| |]; try discriminate. cbv iota beta in E.
  rewrite (bind_run _ _ _ _ _ (upd_ring_rput _ _ _)) in E. unfold reset_stats in E. rewrite upd_ring_rput in E. injection E as _ <-.
  rewrite !first_rput, Pos.eqb_refl. cbn. rewrite ring_at_rput, Pos.eqb_refl. reflexivity.
Qed.
(** what becomes of the other rings of the tour *)
Definition let_go (X : rid -> Prop) (s s' : st) : Prop := drops X s s' /\ kept X s s'.
#[export] Instance let_go_pre X : PreOrd (let_go X).
Proof. split; [intros s; split; apply R_refl|]. intros a b c (H1 & H2) (K1 & K2). split; eapply R_trans; eassumption. Qed.
Definition go_body (fuel : nat) (keep : rid) (hole : bool) (it : rid * (nid * nid)) : prog unit :=
  (upd_ring (fst it) (fun x => x <| r_bottom := None |>) ;;
   if (hole : bool) then replace_ring fuel (fst it) (Some keep)
   else (x <- rg keep ;; replace_ring fuel (fst it) (r_parent x)))%M.
Lemma go_step (X : rid -> Prop) fuel keep hole it s u s' : X (fst it) -> go_body fuel keep hole it s = Ok (u, s') -> let_go X s s' /\ first_of s' (fst it) = None.
Proof.
  intros H E. unfold go_body in E. rewrite (bind_run _ _ _ _ _ (upd_ring_rput _ _ _)) in E.
  set (s1 := rput s (fst it) (fun x => x <| r_bottom := None |>)) in *.
  assert (G1 : let_go X s s1).
  { split.
    - apply drops_same. refine ((ltac:(nf1) : pres same_ringed (upd_ring (fst it) (fun x => x <| r_bottom := None |>))) s tt s1 _). apply upd_ring_rput.
    - refine (kept_own X (fst it) (fun x => x <| r_bottom := None |>) H s tt s1 _). apply upd_ring_rput. }
  assert (E2 : exists o, replace_ring fuel (fst it) o s1 = Ok (u, s')).
  { destruct hole; [eauto|]. rewrite (bind_run _ _ _ _ _ (rg_run s1 keep)) in E. eauto. }
  destruct E2 as (o & E2). split; [|exact (replace_first _ _ _ _ _ _ E2)]. eapply R_trans; [exact G1|].
  split; [exact (dr_replace_ring X fuel _ o H _ _ _ E2)|exact (kept_replace X fuel _ o H _ _ _ E2)].
Qed.
Lemma go_all (X : rid -> Prop) fuel keep hole l : forall s u s', (forall it, In it l -> X (fst it)) -> forM l (go_body fuel keep hole) s = Ok (u, s') ->
  let_go X s s' /\ forall it, In it l -> first_of s' (fst it) = None.
Proof.
  induction l as [|it l IH]; intros s u s' H E; cbn [forM] in E; [injection E as _ <-; split; [apply R_refl|intros ? []]|].
  unfold bind at 1 in E. destruct (go_body fuel keep hole it s) as [[u1 s1]| |] eqn:E1; try discriminate. cbv iota beta in E.
  destruct (go_step X fuel keep hole it s u1 s1 (H it (or_introl eq_refl)) E1) as (G1 & F1).
  destruct (IH s1 u s' (fun x Hx => H x (or_intror Hx)) E) as (G2 & F2). split; [eapply R_trans; eassumption|].
  intros x [<-|Hx]; [|apply F2, Hx]. destruct G2 as ((_ & _ & _ & _ & A) & _). destruct (A (fst it)) as ([A1|(_ & A1)] & _); [congruence|exact A1].
Qed.
Lemma order_gone l s s' : order_but (off l) s -> let_go (off l) s s' -> (forall it, In it l -> first_of s' (fst it) = None) -> in_order s'.
Proof.
  intros (WB & UD) (D & K) F.
  assert (FX : forall q, off l q -> first_of s' q = None).
  { intros q Hq. unfold off in Hq. apply in_map_iff in Hq as (it & <- & Hi). exact (F it Hi). }
  assert (W : well_ringed s').
  { apply (but_well (off l)); [exact (but_drops _ _ _ _ D WB)| |apply off_dec]. intros r n Hr Fr. rewrite (FX r Hr) in Fr. discriminate. }
  split; [exact W|]. apply settled_up. intros q n Fq.
  assert (NX : ~ off l q) by (intros X; rewrite (FX q X) in Fq; discriminate).
  destruct D as (A1 & A2 & A3 & A4 & A5). destruct (A5 q) as ([E|(_ & E)] & _); [|congruence].
  assert (Fq' : first_of s q = Some n) by congruence. destruct (K q NX) as (K1 & K2 & K3 & K4).
  destruct (UD q n NX Fq') as [NN|S]; [left; rewrite K3; exact NN|right]. revert S. apply settled_carry; [intros i; rewrite A1; repeat split|exact E|repeat split; assumption].
Qed.

(** ** The tree and the connections *)
Definition later (s s' : st) : Prop :=
  (forall i, node_at s' i = node_at s i) /\ (forall q, first_of s' q = first_of s q) /\ s_rnext s' = s_rnext s /\ (in_order s -> in_order s').
#[export] Instance later_pre : PreOrd later.
Proof.
  split; [intros s; split; [auto|split; [auto|split; auto]]|]. intros a b c (A1 & A2 & A3 & A4) (B1 & B2 & B3 & B4).
  split; [intros i; rewrite B1; apply A1|]. split; [intros q; rewrite B2; apply A2|]. split; [congruence|auto].
Qed.
#[export] Hint Resolve later_pre : pres.
Lemma later_same s s' : same_ringed s s' -> (in_order s -> in_order s') -> later s s'.
Proof. intros S H. split; [apply S|]. split; [intros q; apply (same_first _ _ _ S)|]. split; [apply S|exact H]. Qed.
Lemma later_calc {A} (m : prog A) : pres calc m -> pres later m.
Proof. intros H s a s' E. destruct (H s a s' E) as (S & _ & _ & I). apply later_same; assumption. Qed.
Lemma later_shelf {A} (m : prog A) : pres shelf m -> pres later m.
Proof. intros H s a s' E. pose proof (H s a s' E) as K. apply later_same; [apply K|apply in_order_shelf; exact K]. Qed.
Lemma later_put r f : (forall x, r_node (f x) = r_node x) -> (forall x, r_corrected (f x) = r_corrected x) ->
  (forall x, r_size (f x) = r_size x /\ r_box (f x) = r_box x /\ r_area (f x) = r_area x /\ r_hole (f x) = r_hole x) -> pres later (upd_ring r f).
Proof.
  intros H1 H2 H3 s u s' E. rewrite upd_ring_rput in E. injection E as _ <-. destruct (rput_hang s r f H1 H2 H3) as (S & _ & _ & I). apply later_same; assumption.
Qed.
Lemma later_parent r o : pres later (upd_ring r (fun x => x <| r_parent := o |>)).
Proof. apply later_put; intros; repeat split. Qed.
Lemma later_bottom r : pres later (upd_ring r (fun x => x <| r_bottom := None |>)).
Proof. apply later_put; intros; repeat split. Qed.
Lemma later_set r o : pres later (set_to_children r o). Proof. apply later_shelf, shelf_set. Qed.
Lemma later_remove r o : pres later (remove_from_children r o). Proof. apply later_shelf, shelf_remove. Qed.
Lemma later_clash fuel r p : pres later (orientation_clash fuel r p). Proof. apply later_calc, calc_clash. Qed.
Lemma later_hole fuel r : pres later (ring_is_hole fuel r). Proof. apply later_calc, calc_hole. Qed.
Lemma later_area fuel r : pres later (ring_area fuel r). Proof. apply later_calc, calc_area. Qed.
Lemma later_rg r : pres later (rg r). Proof. apply later_calc, calc_rg. Qed.
Lemma later_nd r : pres later (nd r). Proof. apply later_calc, calc_nd. Qed.
Lemma later_inside fuel a b : pres later (inside_of fuel a b). Proof. apply later_calc, calc_inside. Qed.
Lemma later_children o : pres later (children_of o). Proof. apply later_shelf, shelf_children_of. Qed.
Lemma later_conn_get r : pres later (conn_get r). Proof. unfold conn_get. pres_auto. Qed.
Lemma later_conn_set r l : pres later (conn_set r l).
Proof.
  unfold conn_set. apply pres_modify. intros s. split; [reflexivity|]. split; [reflexivity|]. split; [reflexivity|].
  intros (W & U). set (s' := s <| s_conn := hset (s_conn s) r l |>). assert (ND : forall i, node_at s' i = node_at s i) by reflexivity.
  split.
  - destruct W as [A B C]. split; [|exact B|exact C]. intros q. destruct (A q) as (m & M & K). exists m. split; [exact M|].
    destruct K as [K|K]; [left; exact K|right]. apply (circle_same s); [intros; apply ND|exact K].
  - apply settled_up. intros q n F. change (first_of s q = Some n) in F. destruct (f_is_nan (r_area (ring_at s q))) eqn:NN; [left; exact NN|right].
    pose proof (up_settled s q n U F NN) as S. revert S. apply settled_carry; [intros i; rewrite ND; repeat split|reflexivity|repeat split].
Qed.
#[export] Hint Resolve later_parent later_bottom later_set later_remove later_clash later_hole later_area later_rg later_nd later_inside later_children later_conn_get later_conn_set : pres.
Lemma later_conn_add r p : pres later (conn_add r p). Proof. unfold conn_add. pres_auto. Qed.
Lemma later_as_child fuel r p : pres later (assign_as_child fuel r p). Proof. unfold assign_as_child. pres_auto. Qed.
Lemma later_as_sibling fuel r p : pres later (assign_as_sibling fuel r p). Proof. unfold assign_as_sibling. pres_auto. Qed.
Lemma later_reassign fuel r p : pres later (reassign_as_child fuel r p). Proof. unfold reassign_as_child. pres_auto. Qed.
#[export] Hint Resolve later_conn_add later_as_child later_as_sibling later_reassign : pres.
Lemma later_iter fuel o body : (forall k r, pres later (body k r)) -> pres later (iter_children fuel o body).
Proof. intros H. unfold iter_children. pres_auto. Qed.
Lemma later_give fuel o r : pres later (give_children fuel o r).
Proof. unfold give_children. apply later_iter. intros k c. pres_auto. Qed.
Lemma later_moved fuel l : pres later (moved_pairs fuel l).
Proof. induction l as [|(a & b) l IH]; cbn [moved_pairs]; [apply pres_ret; typeclasses eauto|]. pres_auto. Qed.
Lemma later_origin fuel r l : pres later (origin_pairs fuel r l).
Proof. induction l as [|(a & b) l IH]; cbn [origin_pairs]; [apply pres_ret; typeclasses eauto|]. pres_auto. Qed.
#[export] Hint Resolve later_give later_moved later_origin : pres.

(** ** The reconnection *)
Definition rc_conn (fuel : nat) (keep : rid) (l2 : list inter) : prog unit :=
  (moves1 <- forM_acc l2 (fun it acc =>
     (l <- conn_get (fst it) ;;
      m <- moved_pairs fuel l ;;
      conn_set (fst it) [] ;;
      ret (acc ++ m))) [] ;;
   l <- conn_get keep ;;
   op <- origin_pairs fuel keep l ;;
   conn_set keep (snd op) ;;
   forM (moves1 ++ fst op) (fun it => conn_add (fst it) (snd it)))%M.
Definition rc_tree (fuel : nat) (parent : option rid) (keep new : rid) (hole : bool) : prog unit :=
  (if (hole : bool) then
      (assign_as_child fuel new (Some keep) ;;
       p <- deref parent ;;
       give_children fuel (Some p) new)
    else
      (assign_as_sibling fuel new keep ;;
       give_children fuel (Some keep) new))%M.
Definition rc_after (fuel : nat) (parent : option rid) (keep new : rid) (hole : bool) (l2 : list inter) : prog unit :=
  (upd_ring keep (fun x => x <| r_bottom := None |>) ;;
   forM l2 (go_body fuel keep hole) ;;
   rc_tree fuel parent keep new hole ;;
   rc_conn fuel keep l2)%M.
Definition rc_label (fuel : nat) (keep new : rid) (a b : nid) (hole : bool) (after : prog unit) : prog unit :=
  (upd_ring keep (fun x => x <| r_corrected := false |>) ;;
   s1 <- node_stats fuel a ;;
   s2 <- node_stats fuel b ;;
   (if hole && num_ltb (NF (st_area s1)) (NF f_zero) then
      (upd_ring keep (fun x => x <| r_node := Some a |>) ;; set_stats keep s1 ;;
       upd_ring new (fun x => x <| r_node := Some b |>) ;; set_stats new s2)
    else
      (upd_ring keep (fun x => x <| r_node := Some b |>) ;; set_stats keep s2 ;;
       upd_ring new (fun x => x <| r_node := Some a |>) ;; set_stats new s1)) ;;
   update_points fuel keep ;;
   update_points fuel new ;;
   after)%M.
Definition rc_rest (fuel : nat) (ring_parent : option rid) (sw : list inter * rid * nid * nid * bool) : prog unit :=
  let '(l2, keep, a, b, changed) := sw in
  let parent := if (changed : bool) then Some keep else ring_parent in
  (hole <- ring_is_hole fuel keep ;;
   switch_nexts a b ;;
   forM l2 (fun it => switch_nexts (fst (snd it)) (snd (snd it))) ;;
   new <- create_ring ;;
   rc_label fuel keep new a b hole (rc_after fuel parent keep new hole l2))%M.
Lemma reconnect_parts fuel rp ro o1 o2 l : reconnect fuel rp ro o1 o2 l =
  bind (ring_is_hole fuel ro) (fun h => bind (if (h : bool) then origin_swap fuel ro o1 o2 l else ret (l, ro, o1, o2, false)) (rc_rest fuel rp)).
Proof. reflexivity. Qed.
Lemma label_then fuel keep new a b hole after s u s' : rc_label fuel keep new a b hole after s = Ok (u, s') ->
  exists v sm, label_rest fuel keep new a b hole (rput s keep (fun x => x <| r_corrected := false |>)) = Ok (v, sm) /\ after sm = Ok (u, s').
Proof.
  intros E. unfold rc_label in E. rewrite (bind_run _ _ _ _ _ (upd_ring_rput _ _ _)) in E. set (sr := rput s keep (fun x => x <| r_corrected := false |>)) in *. clearbody sr. clear s. rename sr into s.
  unfold label_rest. unfold bind at 1 in E. unfold bind at 1. destruct (node_stats fuel a s) as [[t1 s1]| |]; try discriminate. cbv iota beta in *.
  unfold bind at 1 in E. unfold bind at 1. destruct (node_stats fuel b s1) as [[t2 s2]| |]; try discriminate. cbv iota beta in *.
  match type of E with bind ?m _ _ = _ => destruct (m s2) as [[v3 s3]| |] eqn:E3 end; unfold bind at 1 in E; rewrite E3 in E; try discriminate.
  rewrite (bind_run _ _ _ _ _ E3). cbv iota beta in E. clear E3.
  unfold bind at 1 in E. unfold bind at 1. destruct (update_points fuel keep s3) as [[v4 s4]| |]; try discriminate. cbv iota beta in *.
  unfold bind at 1 in E. destruct (update_points fuel new s4) as [[v5 s5]| |]; try discriminate. cbv iota beta in *.
  exists v5, s5. split; [reflexivity|exact E].
Qed.
Lemma forM_switches l : forall s, forM l (fun it : inter => switch_nexts (fst (snd it)) (snd (snd it))) s = switches (pairs_of l) s.
Proof.
  induction l as [|it l IH]; intros s; [reflexivity|]. unfold switches, pairs_of in *. cbn [forM map]. unfold bind.
  destruct (switch_nexts (fst (snd it)) (snd (snd it)) s) as [[x s1]| |]; [apply IH|reflexivity|reflexivity].
Qed.
Lemma later_conns fuel keep l2 : pres later (rc_conn fuel keep l2).
Proof.
  unfold rc_conn. apply pres_bind; [typeclasses eauto| |intros ?; pres_auto].
  unfold forM_acc. generalize (@nil inter). induction l2 as [|it l IH]; intros acc; [apply pres_ret; typeclasses eauto|].
  apply pres_bind; [typeclasses eauto|pres_auto|]. intros ?. apply IH.
Qed.
Lemma later_tree fuel parent keep new hole : pres later (rc_tree fuel parent keep new hole).
Proof. unfold rc_tree. destruct hole; pres_auto. Qed.
Lemma order_but_same X s s' : same_ringed s s' -> (forall q, stats_same s s' q) -> order_but X s -> order_but X s'.
Proof.
  intros S K (W & U). split; [exact (but_same X s s' S W)|]. intros q n Hq F. rewrite (same_first _ _ _ S) in F. destruct (K q) as (K1 & K2 & K3 & K4).
  destruct (U q n Hq F) as [NN|ST]; [left; rewrite K3; exact NN|right]. revert ST. apply settled_carry; [intros i; rewrite (proj1 S i); repeat split|apply (same_first _ _ _ S)|apply K].
Qed.
Lemma after_order fuel parent keep new hole l2 s u s' : ~ off l2 keep -> order_but (off l2) s -> rc_after fuel parent keep new hole l2 s = Ok (u, s') ->
  in_order s' /\ (forall i, node_at s' i = node_at s i) /\ (forall q, first_of s' q = if in_dec Pos.eq_dec q (map fst l2) then None else first_of s q) /\ s_rnext s' = s_rnext s.
Proof.
  intros NK OB E. unfold rc_after in E. rewrite (bind_run _ _ _ _ _ (upd_ring_rput _ _ _)) in E.
  set (s1 := rput s keep (fun x => x <| r_bottom := None |>)) in *.
  assert (S1 : same_ringed s s1).
  { refine ((ltac:(nf1) : pres same_ringed (upd_ring keep (fun x => x <| r_bottom := None |>))) s tt s1 _). apply upd_ring_rput. }
  assert (K1 : forall q, stats_same s s1 q).
  { intros q. unfold stats_same, s1. rewrite ring_at_rput. destruct (Pos.eqb_spec keep q) as [<-|_]; repeat split. }
  pose proof (order_but_same (off l2) s s1 S1 K1 OB) as OB1.
  inv_bind E u1 s2 E2.
  destruct (go_all (off l2) fuel keep hole l2 s1 u1 s2) as (G & F); [intros it Hi; exact (in_map fst _ _ Hi)|exact E2|].
  pose proof (order_gone l2 s1 s2 OB1 G F) as O2.
  inv_bind E u2 s3 E3.
  pose proof (R_trans _ _ _ (later_tree _ _ _ _ _ _ _ _ E3) (later_conns _ _ _ _ _ _ E)) as (L1 & L2 & L3 & L4).
  split; [exact (L4 O2)|]. destruct G as ((A1 & A2 & A3 & A4 & A5) & _).
  split; [intros i; rewrite L1, A1; apply S1|]. split.
  - intros q. rewrite L2. destruct (in_dec Pos.eq_dec q (map fst l2)) as [H|H].
    + apply in_map_iff in H as (it & <- & Hi). exact (F it Hi).
    + destruct (A5 q) as ([E'|(X & _)] & _); [rewrite E'; apply (same_first _ _ _ S1)|contradiction].
  - rewrite L3, A3. apply S1.
Qed.
Lemma leads_exit s q x y : forall L e z, In (q, (x, y)) L -> leads s e L z -> ring_of s x = Some q.
Proof.
  induction L as [|(r & c & d) L IH]; intros e z; [intros []|]. cbn [leads]. intros [[= -> -> ->]|H] (A & B & C & D); [exact B|exact (IH _ _ H D)].
Qed.
Lemma reconnected fuel rp ro o1 o2 l s u s' : in_order s -> l <> [] -> tour s ((ro, (o1, o2)) :: l) ->
  reconnect fuel rp ro o1 o2 l s = Ok (u, s') ->
  in_order s' /\ exists keep, In keep (map fst ((ro, (o1, o2)) :: l)) /\
    (forall i, ring_of s' i = Some keep \/ ring_of s' i = Some (s_rnext s) <-> on_tour s ((ro, (o1, o2)) :: l) i) /\
    (forall i, ~ on_tour s ((ro, (o1, o2)) :: l) i -> node_at s' i = node_at s i) /\
    (forall i, npos (node_at s' i) = npos (node_at s i)) /\
    (exists n m, first_of s' keep = Some n /\ first_of s' (s_rnext s) = Some m /\ on_tour s ((ro, (o1, o2)) :: l) n /\ on_tour s ((ro, (o1, o2)) :: l) m) /\
    (forall q, q <> keep -> In q (map fst ((ro, (o1, o2)) :: l)) -> first_of s' q = None) /\
    (forall q, q <> s_rnext s -> ~ In q (map fst ((ro, (o1, o2)) :: l)) -> first_of s' q = first_of s q) /\
    s_rnext s' = Pos.succ (s_rnext s) /\
    (exists a b hl parent l2 s1 v sm, s_rnext s1 = s_rnext s /\
       label_rest fuel keep (s_rnext s) a b hl (rput (alloc_ring s1) keep (fun x => x <| r_corrected := false |>)) = Ok (v, sm) /\
       rc_after fuel parent keep (s_rnext s) hl l2 sm = Ok (u, s')).
Proof.
  intros I0 NE T0 E. rewrite reconnect_parts in E.
  inv_bind E h sh Eh.
  pose proof (calc_hole fuel ro _ _ _ Eh) as H1. clear Eh.
  inv_bind E sw ss Es. destruct sw as [[[[l2 keep] a] b] ch].
  assert (H2 : calc sh ss /\ ((l2 = l /\ keep = ro /\ a = o1 /\ b = o2) \/ exists l1 l3, l = l1 ++ (keep, (a, b)) :: l3 /\ l2 = l1 ++ (ro, (o1, o2)) :: l3)).
  { destruct h; [exact (swap_spec _ _ _ _ _ _ _ _ _ _ _ _ Es)|]. injection Es as <- <- <- <- <- <-. split; [apply R_refl|left; auto]. }
  clear Es h. destruct H2 as (H2 & SW). pose proof (R_trans _ _ _ H1 H2) as H12. clear H1 H2 sh.
  unfold rc_rest in E. set (parent := if ch then Some keep else rp) in E. clearbody parent. clear ch rp.
  inv_bind E hl sA Eh.
  pose proof (R_trans _ _ _ H12 (calc_hole fuel keep _ _ _ Eh)) as (SR & _ & _ & IO). clear H12 Eh ss. specialize (IO I0).
  destruct (swap_tour s ro o1 o2 l l2 keep a b T0 NE SW) as (lt & T1 & NL & P2 & PF). clear SW.
  pose proof (tour_same s sA _ SR T1) as TA.
  destruct (switched sA keep a b lt l2 TA NL P2) as (s1 & C1 & C2 & E1 & K1 & K2 & I1 & I2 & V & B & MM & ND & OFF).
  { intros q _. apply whole_well. apply IO. }
  change (bind (switch_nexts a b) (fun _ => switches (pairs_of l2)) sA = Ok (tt, s1)) in E1.
  inv_bind E1 v0 s0 E0. rewrite (bind_run _ _ _ _ _ E0) in E. clear E0. rewrite <- forM_switches in E1. rewrite (bind_run _ _ _ _ _ E1) in E. clear E1 s0 v0.
  rewrite (bind_run _ _ _ _ _ (create_ring_run s1)) in E.
  destruct (sbn_next _ _ B) as (_ & B2 & _). rewrite B2 in E.
  destruct (label_then _ _ _ _ _ _ _ _ _ _ E) as (v & sm & EL & EA). clear E.
  destruct (relabelled fuel keep a b lt hl sA s1 sm v C1 C2 IO TA K1 K2 I1 I2 V B MM ND OFF EL) as (OB & RT & RN).
  assert (PO : forall q, In q (map fst lt) <-> In q (map fst l2)).
  { intros q. split; apply Permutation_in; [|symmetry]; apply Permutation_map; exact P2. }
  assert (OB2 : order_but (off l2) sm).
  { destruct OB as (OB1 & OB2). split; [apply (but_mono (off lt)); [intros q; apply PO|exact OB1]|]. intros q n Hq. apply OB2. intros X. apply Hq, PO, X. }
  pose proof (proj1 T1) as NT. cbn [map fst] in NT. inversion NT as [|? ? NT1 NT2]; subst.
  assert (NK : ~ off l2 keep) by (intros X; apply NT1, PO, X).
  destruct (after_order _ _ _ _ _ _ _ _ _ NK OB2 EA) as (IF & LN & LF & LR).
  assert (RNS : s_rnext sA = s_rnext s) by (apply SR). rewrite RNS in *.
  assert (OO : forall i, on_tour sA ((keep, (a, b)) :: lt) i <-> on_tour s ((ro, (o1, o2)) :: l) i).
  { intros i. transitivity (on_tour s ((keep, (a, b)) :: lt) i).
    - split; intros (q & Hq & Rq); exists q; (split; [exact Hq|]); [rewrite <- (same_ring_of _ _ i SR)|rewrite (same_ring_of _ _ i SR)]; exact Rq.
    - split; apply on_tour_perm; [exact PF|symmetry; exact PF]. }
  assert (PQ : forall q, In q (map fst ((keep, (a, b)) :: lt)) <-> In q (map fst ((ro, (o1, o2)) :: l))).
  { intros q. split; apply Permutation_in; apply Permutation_map; [exact PF|symmetry; exact PF]. }
  assert (KN : forall q, In q (map fst ((ro, (o1, o2)) :: l)) -> (q < s_rnext s)%positive).
  { intros q Hq. apply in_map_iff in Hq as ((q' & x & y) & <- & Hi). destruct T0 as (_ & e & L).
    apply (wr_known s (proj1 I0) x q'). exact (leads_exit s q' x y _ e e Hi L). }
  split; [exact IF|]. exists keep. split; [apply PQ; left; reflexivity|].
  assert (LRG : forall i, ring_of s' i = ring_of sm i) by (intros i; unfold ring_of; rewrite LN; reflexivity).
  split; [intros i; rewrite !LRG, (rt_ring _ _ _ _ _ _ _ _ _ RT i); apply OO|].
  split; [intros i Hi; rewrite LN, (rt_off _ _ _ _ _ _ _ _ _ RT i), (proj1 SR i); [reflexivity|rewrite OO; exact Hi]|].
  split; [intros i; rewrite LN, (rt_pos _ _ _ _ _ _ _ _ _ RT i), (proj1 SR i); reflexivity|].
  assert (NEW : ~ In (s_rnext s) (map fst l2)).
  { intros X. apply PO in X. assert (Y : In (s_rnext s) (map fst ((keep, (a, b)) :: lt))) by (right; exact X). apply PQ in Y. apply KN in Y. lia. }
  split.
  - destruct (rt_keep _ _ _ _ _ _ _ _ _ RT) as (n & Fn & Hn), (rt_new _ _ _ _ _ _ _ _ _ RT) as (m & Fm & Hm). exists n, m.
    split; [rewrite LF; destruct (in_dec Pos.eq_dec keep (map fst l2)); [contradiction|exact Fn]|].
    split; [rewrite LF; destruct (in_dec Pos.eq_dec (s_rnext s) (map fst l2)); [contradiction|exact Fm]|].
    split; apply OO, MM; assumption.
  - split; [|split].
    + intros q Q H. rewrite LF. destruct (in_dec Pos.eq_dec q (map fst l2)) as [_|X]; [reflexivity|]. apply PQ in H. cbn [map fst] in H. destruct H as [H|H]; [congruence|]. destruct X. apply PO. exact H.
    + intros q Q H. rewrite LF. destruct (in_dec Pos.eq_dec q (map fst l2)) as [X|_]; [destruct H; apply PQ; right; apply PO; exact X|].
      rewrite (rt_first _ _ _ _ _ _ _ _ _ RT q); [apply (same_first _ _ _ SR)|intros X; apply H, PQ, X|exact Q].
    + split; [rewrite LR; exact RN|]. exists a, b, hl, parent, l2, s1, v, sm. split; [congruence|]. split; assumption.
Qed.
