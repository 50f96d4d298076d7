(** * Ring statistics and containment tests during the topology correction *)
From Coq Require Import ZArith List Bool Lia FMapPositive Permutation Reals Lra Sorting.Sorted.
From Coq Require Import Floats.SpecFloat.
From RecordUpdate Require Import RecordSet.
From Flocq Require Import Core.Raux.
From Verif Require Import Py Monad Utils Geometry LinearRingM BoundM LocalMinimumM
     StateM PointNodeM RingM SweepM TopologyM WagyuM HoareP Spec SpecRing SpecHeap SpecRings SpecTree SpecNest SweepFrameP OrderP VatP FuelP PipP SortP ListP PointersP
     FloatP UlpP MiscP IntersectP CircleP HeapOpsP StatsP SplitP NodeFrameP RingedP RingedTopP RingedCutP RingedTreeP TreeP.
Import ListNotations RecordSetNotations.
Open Scope Z_scope.

(** ** Reading programs *)
Lemma un_nd i : pres unchanged (nd i). Proof. unfold nd. pres_auto. Qed.
Lemma un_rg i : pres unchanged (rg i). Proof. unfold rg. pres_auto. Qed.
#[export] Hint Resolve un_nd un_rg : pres.
Ltac un f := intros; unfold f; pres_auto.
Lemma un_node_point i : pres unchanged (node_point i). Proof. un node_point. Qed.
Lemma un_next_of i : pres unchanged (next_of i). Proof. un next_of. Qed.
Lemma un_prev_of i : pres unchanged (prev_of i). Proof. un prev_of. Qed.
#[export] Hint Resolve un_node_point un_next_of un_prev_of : pres.
Lemma un_node_stats fuel i : pres unchanged (node_stats fuel i). Proof. un node_stats. Qed.
Lemma un_pip fuel p i : pres unchanged (point_in_polygon fuel p i). Proof. un point_in_polygon. Qed.
Lemma un_centroid i : pres unchanged (points_centroid i). Proof. un points_centroid. Qed.
Lemma un_depth fuel r : pres unchanged (ring_depth fuel r). Proof. un ring_depth. Qed.
#[export] Hint Resolve un_node_stats un_pip un_centroid un_depth : pres.

Lemma circle_unique s n l l' : circle s (n :: l) -> circle s (n :: l') -> l = l'.
Proof.
  intros C C'. pose proof (nodes_list_circle s n l (length (n :: l) + length (n :: l')) C ltac:(lia)) as E.
  pose proof (nodes_list_circle s n l' (length (n :: l) + length (n :: l')) C' ltac:(lia)) as E'. congruence.
Qed.
(** ** Settled rings *)
Definition settled (s : st) (r : rid) : Prop :=
  exists n l, first_of s r = Some n /\ circle s (n :: l) /\ (length (n :: l) <= r_size (ring_at s r))%nat /\
    tight_box (vertices s (n :: l)) (r_box (ring_at s r)) /\
    int_truediv (- area2 (vertices s (n :: l))) 2 = Ok (r_area (ring_at s r)) /\
    r_hole (ring_at s r) = (0 <=? area2 (vertices s (n :: l))).
Definition in_order (s : st) : Prop := well_ringed s /\ up_to_date s.
Lemma truediv_not_nan z f : int_truediv z 2 = Ok f -> f_is_nan f = false /\ FloatP.good f.
Proof.
  intros E. destruct (truediv_spec z 2) as [(_ & g & E2 & G & V & _)|(_ & E2)]; [lia| |congruence].
  assert (g = f) by congruence. subst g. split; [|exact G]. destruct G as (_ & G). destruct f; try reflexivity; discriminate.
Qed.
Lemma settled_not_nan s r : settled s r -> f_is_nan (r_area (ring_at s r)) = false.
Proof. intros (n & l & _ & _ & _ & _ & E & _). apply (truediv_not_nan _ _ E). Qed.
Lemma up_settled s r n : up_to_date s -> first_of s r = Some n -> f_is_nan (r_area (ring_at s r)) = false -> settled s r.
Proof. intros U F N. destruct (U r n F) as [H|(l & H)]; [congruence|]. exists n, l. split; [exact F|exact H]. Qed.
Lemma settled_up s : (forall r n, first_of s r = Some n -> f_is_nan (r_area (ring_at s r)) = true \/ settled s r) -> up_to_date s.
Proof.
  intros H r n F. destruct (H r n F) as [N|(n' & l & F' & K)]; [left; exact N|right]. exists l. assert (n' = n) by congruence. subst. exact K.
Qed.
(** fields that do not matter for [settled] *)
Lemma settled_frame s s' r : first_of s' r = first_of s r ->
  (forall i, ring_of s i = Some r -> node_at s' i = node_at s i) -> well_ringed s ->
  r_size (ring_at s' r) = r_size (ring_at s r) -> r_box (ring_at s' r) = r_box (ring_at s r) ->
  r_area (ring_at s' r) = r_area (ring_at s r) -> r_hole (ring_at s' r) = r_hole (ring_at s r) ->
  settled s r -> settled s' r.
Proof.
  intros F N W E1 E2 E3 E4 (n & l & Fn & C & H1 & H2 & H3 & H4).
  pose proof (wr_first s W r n Fn) as Rn. destruct (well_at s n r W Rn) as (l' & C' & M).
  assert (EQ : l' = l) by (apply (circle_unique s n l' l C' C)). subst l'.
  assert (U : forall i, In i (n :: l) -> node_at s' i = node_at s i) by (intros i Hi; apply N, M, Hi).
  assert (V : vertices s' (n :: l) = vertices s (n :: l)) by (apply map_ext_in; intros i Hi; rewrite (U i Hi); reflexivity).
  exists n, l. rewrite V, F, E1, E2, E3, E4. split; [exact Fn|]. split; [apply (circle_same s); [exact U|exact C]|]. auto.
Qed.
Lemma outline_frame s s' r vs : first_of s' r = first_of s r ->
  (forall i, ring_of s i = Some r -> node_at s' i = node_at s i) -> well_ringed s ->
  outline_of s r vs -> outline_of s' r vs.
Proof.
  intros F N W (n & l & Fn & C & ->).
  pose proof (wr_first s W r n Fn) as Rn. destruct (well_at s n r W Rn) as (l' & C' & M).
  assert (EQ : l' = l) by (apply (circle_unique s n l' l C' C)). subst l'.
  assert (U : forall i, In i (n :: l) -> node_at s' i = node_at s i) by (intros i Hi; apply N, M, Hi).
  exists n, l. split; [congruence|]. split; [apply (circle_same s); [exact U|exact C]|].
  apply map_ext_in; intros i Hi; rewrite (U i Hi); reflexivity.
Qed.
Lemma outline_fun s r vs vs' : outline_of s r vs -> outline_of s r vs' -> vs = vs'.
Proof.
  intros (n & l & F & C & ->) (n' & l' & F' & C' & ->). assert (n' = n) by congruence. subst n'.
  rewrite (circle_unique s n l l' C C'). reflexivity.
Qed.
Lemma settled_outline s r : settled s r -> exists vs, outline_of s r vs /\ vs <> [] /\
  (length vs <= r_size (ring_at s r))%nat /\ tight_box vs (r_box (ring_at s r)) /\
  int_truediv (- area2 vs) 2 = Ok (r_area (ring_at s r)) /\ r_hole (ring_at s r) = (0 <=? area2 vs).
Proof.
  intros (n & l & F & C & H1 & H2 & H3 & H4). exists (vertices s (n :: l)). split; [exists n, l; auto|]. split; [discriminate|].
  split; [unfold vertices; rewrite map_length; exact H1|]. auto.
Qed.
(** ** Measuring *)
Definition calc (s s' : st) : Prop :=
  same_ringed s s' /\ same_tree s s' /\
  (forall q, f_is_nan (r_area (ring_at s q)) = false -> ring_at s' q = ring_at s q) /\
  (in_order s -> in_order s').
#[export] Instance calc_pre : PreOrd calc.
Proof.
  split.
  - intros s. split; [apply R_refl|]. split; [apply R_refl|]. auto.
  - intros s1 s2 s3 (A1 & A2 & A3 & A4) (B1 & B2 & B3 & B4). split; [eapply R_trans; eassumption|].
    split; [eapply R_trans; eassumption|]. split; [|auto]. intros q N. rewrite B3; [apply A3, N|]. rewrite (A3 q N). exact N.
Qed.
#[export] Hint Resolve calc_pre : pres.
Lemma calc_un {A} (m : prog A) : pres unchanged m -> pres calc m.
Proof. intros H s a s' E. rewrite (H s a s' E). apply R_refl. Qed.
Lemma in_order_same s s' : same_ringed s s' -> (forall q, first_of s q <> None -> f_is_nan (r_area (ring_at s' q)) = true \/
   (r_size (ring_at s' q) = r_size (ring_at s q) /\ r_box (ring_at s' q) = r_box (ring_at s q) /\
    r_area (ring_at s' q) = r_area (ring_at s q) /\ r_hole (ring_at s' q) = r_hole (ring_at s q)) \/ settled s' q) -> in_order s -> in_order s'.
Proof.
  intros H K (W & U). split; [apply (well_same s); assumption|]. apply settled_up. intros r n F.
  rewrite (same_first _ _ _ H) in F. destruct (K r) as [N|[(E1 & E2 & E3 & E4)|S]]; [congruence|auto| |auto].
  destruct (f_is_nan (r_area (ring_at s r))) eqn:N; [left; congruence|right].
  apply (settled_frame s); auto; [apply (same_first _ _ _ H)|intros; apply H|]. exact (up_settled s r n U F N).
Qed.
(** the ring [r], measured *)
Lemma node_stats_any s n l fuel t s' : circle s (n :: l) -> node_stats fuel n s = Ok (t, s') -> s' = s /\ stats_of s (n :: l) t.
Proof.
  intros C E.
  pose proof (lem_Ok _ _ _ _ (fuel_node_stats fuel (Nat.max fuel (length (n :: l))) (Nat.le_max_l _ _) n) E) as E2.
  destruct (node_stats_circle s n l (Nat.max fuel (length (n :: l))) C (Nat.le_max_r _ _)) as (b & T & R). rewrite E2 in R.
  destruct (int_truediv _ 2) as [f| |] eqn:Ef; try discriminate. injection R as -> ->. split; [reflexivity|].
  split; [reflexivity|]. split; [exact T|exact Ef].
Qed.
Lemma recalc_run fuel r s u s' : recalculate_stats fuel r s = Ok (u, s') ->
  (first_of s r = None /\ s' = s) \/
  (exists n t, first_of s r = Some n /\ node_stats fuel n s = Ok (t, s) /\ s' = rput s r (with_stats t)).
Proof.
  unfold recalculate_stats. intros E. rewrite (bind_run _ _ _ _ _ (rg_run s r)) in E. unfold first_of.
  destruct (r_node (ring_at s r)) as [n|]; [right|left; injection E as _ <-; auto].
  unfold bind in E. destruct (node_stats fuel n s) as [[t s1]| |] eqn:E1; try discriminate.
  pose proof (un_node_stats fuel n _ _ _ E1) as X. unfold unchanged in X. subst s1.
  exists n, t. split; [reflexivity|]. split; [exact E1|]. unfold set_stats in E. rewrite upd_ring_rput in E. injection E as _ <-. reflexivity.
Qed.
Lemma same_ringed_stats s r t : same_ringed s (rput s r (with_stats t)).
Proof.
  split; [reflexivity|]. split; [reflexivity|]. split; [reflexivity|]. split; [reflexivity|].
  intros q. rewrite ring_at_rput. destruct (Pos.eqb_spec r q) as [<-|_]; split; reflexivity.
Qed.
Lemma same_tree_rput s r f : (forall x, r_parent (f x) = r_parent x) -> (forall x, r_children (f x) = r_children x) -> same_tree s (rput s r f).
Proof. intros A B. exact (ut_upd_ring same_tree r f A B s tt _ (upd_ring_rput r f s)). Qed.
Lemma settled_measured fuel r n l t s : first_of s r = Some n -> circle s (n :: l) -> node_stats fuel n s = Ok (t, s) -> settled (rput s r (with_stats t)) r.
Proof.
  intros F C E. destruct (node_stats_any s n l fuel t s C E) as (_ & S).
  assert (Q : ring_at (rput s r (with_stats t)) r = with_stats t (ring_at s r)) by (rewrite ring_at_rput, Pos.eqb_refl; reflexivity).
  destruct (measured_with (rput s r (with_stats t)) r (n :: l) t (ring_at s r) S Q) as (M1 & M2 & M3 & M4).
  exists n, l. split; [rewrite first_rput, Pos.eqb_refl; exact F|]. split; [apply (circle_same s); [reflexivity|exact C]|]. split; [rewrite M1; reflexivity|]. auto.
Qed.
Lemma recalc_settles fuel r s u s' : recalculate_stats fuel r s = Ok (u, s') -> well_ringed s -> first_of s r <> None -> settled s' r.
Proof.
  intros E W F. destruct (recalc_run fuel r s u s' E) as [(N & _)|(n & t & Fn & Et & ->)]; [contradiction|].
  destruct (well_at s n r W (wr_first s W r n Fn)) as (l & C & _). exact (settled_measured fuel r n l t s Fn C Et).
Qed.
Lemma recalc_in_order fuel r s u s' : recalculate_stats fuel r s = Ok (u, s') -> in_order s -> in_order s'.
Proof.
  intros E I. destruct (recalc_run fuel r s u s' E) as [(N & ->)|(n & t & Fn & Et & ->)]; [exact I|].
  apply (in_order_same s); [apply same_ringed_stats| |exact I]. intros q F.
  destruct (Pos.eq_dec r q) as [<-|N].
  - right. right. apply (recalc_settles fuel r s u _ E); [apply I|exact F].
  - right. left. rewrite ring_at_rput. destruct (Pos.eqb_spec r q); [contradiction|]. auto.
Qed.
Lemma calc_ensure fuel r : pres calc (ensure_stats fuel r).
Proof.
  intros s u s' E. unfold ensure_stats in E. rewrite (bind_run _ _ _ _ _ (rg_run s r)) in E.
  destruct (f_is_nan (r_area (ring_at s r))) eqn:N; [|injection E as _ <-; apply R_refl].
  pose proof (recalc_in_order fuel r s u s' E) as I. destruct (recalc_run fuel r s u s' E) as [(_ & ->)|(n & t & Fn & Et & ->)]; [apply R_refl|].
  split; [apply same_ringed_stats|]. split; [apply same_tree_rput; reflexivity|]. split; [|exact I].
  intros q Nq. rewrite ring_at_rput. destruct (Pos.eqb_spec r q) as [<-|_]; [congruence|reflexivity].
Qed.
#[export] Hint Resolve calc_ensure : pres.
Lemma calc_nd i : pres calc (nd i). Proof. apply calc_un. pres_auto. Qed.
Lemma calc_rg i : pres calc (rg i). Proof. apply calc_un. pres_auto. Qed.
Lemma calc_next i : pres calc (next_of i). Proof. apply calc_un. pres_auto. Qed.
Lemma calc_prev i : pres calc (prev_of i). Proof. apply calc_un. pres_auto. Qed.
Lemma calc_point i : pres calc (node_point i). Proof. apply calc_un. pres_auto. Qed.
Lemma calc_pip fuel p i : pres calc (point_in_polygon fuel p i). Proof. apply calc_un. pres_auto. Qed.
Lemma calc_centroid i : pres calc (points_centroid i). Proof. apply calc_un. pres_auto. Qed.
Lemma calc_depth fuel r : pres calc (ring_depth fuel r). Proof. apply calc_un. pres_auto. Qed.
#[export] Hint Resolve calc_nd calc_rg calc_next calc_prev calc_point calc_pip calc_centroid calc_depth : pres.
Lemma calc_area fuel r : pres calc (ring_area fuel r). Proof. un ring_area. Qed.
Lemma calc_hole fuel r : pres calc (ring_is_hole fuel r). Proof. un ring_is_hole. Qed.
Lemma calc_size fuel r : pres calc (ring_size fuel r). Proof. un ring_size. Qed.
#[export] Hint Resolve calc_area calc_hole calc_size : pres.
Lemma calc_convex fuel i : pres calc (is_convex fuel i). Proof. un is_convex. Qed.
#[export] Hint Resolve calc_convex : pres.
Lemma calc_special fuel a b : pres calc (inside_or_outside_special fuel a b). Proof. un inside_or_outside_special. Qed.
#[export] Hint Resolve calc_special : pres.
Lemma calc_inside fuel a b : pres calc (inside_of fuel a b). Proof. un inside_of. Qed.
#[export] Hint Resolve calc_inside : pres.
Lemma calc_ring_lt fuel a b : pres calc (ring_lt fuel a b). Proof. un ring_lt. Qed.
#[export] Hint Resolve calc_ring_lt : pres.
(** what the properties return *)
Lemma settled_calc s s' r : calc s s' -> settled s r -> settled s' r /\ ring_at s' r = ring_at s r.
Proof.
  intros (H & _ & K & _) S. pose proof (K r (settled_not_nan s r S)) as E. split; [|exact E].
  destruct S as (n & l & F & C & S). exists n, l. rewrite E. rewrite (same_first _ _ _ H). split; [exact F|].
  assert (V : vertices s' (n :: l) = vertices s (n :: l)) by (apply map_ext; intros i; rewrite (proj1 H i); reflexivity).
  rewrite V. split; [apply (same_circle s); assumption|exact S].
Qed.
Lemma ensure_settles fuel r s u s' : ensure_stats fuel r s = Ok (u, s') -> in_order s -> first_of s r <> None -> settled s' r.
Proof.
  intros E (W & U) F. unfold ensure_stats in E. rewrite (bind_run _ _ _ _ _ (rg_run s r)) in E.
  destruct (f_is_nan (r_area (ring_at s r))) eqn:N.
  - exact (recalc_settles fuel r s u s' E W F).
  - injection E as _ <-. destruct (first_of s r) as [n|] eqn:Fn; [|contradiction]. exact (up_settled s r n U Fn N).
Qed.
Definition reads {A} (m : prog A) (f : ring -> A) (r : rid) : Prop :=
  forall s a s', m s = Ok (a, s') -> calc s s' /\ a = f (ring_at s' r) /\ (in_order s -> first_of s r <> None -> settled s' r).
Lemma reads_area fuel r : reads (ring_area fuel r) r_area r.
Proof.
  intros s a s' E. split; [exact (calc_area fuel r _ _ _ E)|]. unfold ring_area, bind in E.
  destruct (ensure_stats fuel r s) as [[u t]| |] eqn:E1; try discriminate. injection E as <- <-. split; [reflexivity|]. exact (ensure_settles fuel r s u t E1).
Qed.
Lemma reads_hole fuel r : reads (ring_is_hole fuel r) r_hole r.
Proof.
  intros s a s' E. split; [exact (calc_hole fuel r _ _ _ E)|]. unfold ring_is_hole, bind in E.
  destruct (ensure_stats fuel r s) as [[u t]| |] eqn:E1; try discriminate. injection E as <- <-. split; [reflexivity|]. exact (ensure_settles fuel r s u t E1).
Qed.
Lemma reads_size fuel r : reads (ring_size fuel r) r_size r.
Proof.
  intros s a s' E. split; [exact (calc_size fuel r _ _ _ E)|]. unfold ring_size, bind in E.
  destruct (ensure_stats fuel r s) as [[u t]| |] eqn:E1; try discriminate. injection E as <- <-. split; [reflexivity|]. exact (ensure_settles fuel r s u t E1).
Qed.

(** ** Containment *)
Lemma cyclic_second (vs : list point) : Permutation (cyclic_pairs (second_first vs)) (cyclic_pairs vs).
Proof.
  destruct vs as [|p [|a l]]; [reflexivity|reflexivity|]. cbn [second_first].
  change (cyclic_pairs (p :: a :: l)) with ((p, a) :: pairs ((a :: l) ++ [p])).
  change (cyclic_pairs ((a :: l) ++ [p])) with (pairs (((a :: l) ++ [p]) ++ [a])). rewrite <- app_assoc.
  change ([p] ++ [a]) with (p :: [a]). rewrite (LinearRingP.pairs_app (a :: l) p [a]).
  change (pairs [p; a]) with [(p, a)]. rewrite Permutation_app_comm. reflexivity.
Qed.
Lemma on_second vs p : on_outline (second_first vs) p <-> on_outline vs p.
Proof.
  unfold on_outline. split; intros (u & v & H & O); exists u, v; (split; [|exact O]).
  - apply (Permutation_in _ (cyclic_second vs)). exact H.
  - apply (Permutation_in _ (Permutation_sym (cyclic_second vs))). exact H.
Qed.
Lemma zsum_perm l l' : Permutation l l' -> zsum l = zsum l'.
Proof. unfold zsum. induction 1; cbn in *; lia. Qed.
Lemma surrounds_second vs p : surrounds (second_first vs) p = surrounds vs p.
Proof. unfold surrounds, winding_number. f_equal. apply zsum_perm. apply Permutation_map. apply cyclic_second. Qed.
Definition pip_body (fuel : nat) (first second : nid) (cursor : nid) : prog (nid + option bool) :=
  bind (node_point cursor) (fun p =>
  bind (point_in_polygon fuel (npoint_of p) second) (fun w =>
  match w with
  | ON => bind (next_of cursor) (fun n => ret (if Pos.eqb n first then inr None else inl n))
  | INSIDE => ret (inr (Some true))
  | OUTSIDE => ret (inr (Some false))
  end)).
Lemma pip_answer s a l p fuel w s' : circle s (a :: l) -> point_in_polygon fuel (npoint_of p) a s = Ok (w, s') ->
  s' = s /\ let vs := vertices s (a :: l) in
  match w with ON => on_outline vs p | INSIDE => ~ on_outline vs p /\ surrounds vs p = true | OUTSIDE => ~ on_outline vs p /\ surrounds vs p = false end.
Proof.
  intros C E.
  pose proof (lem_Ok _ _ _ _ (fuel_point_in_polygon fuel (Nat.max fuel (length (a :: l))) (Nat.le_max_l _ _) (npoint_of p) a) E) as E2.
  destruct (pip_circle s a l p (Nat.max fuel (length (a :: l))) C (Nat.le_max_r _ _)) as [(X & _)|(r & X & H1 & H2)]; [congruence|].
  assert (r = w /\ s' = s) as (-> & ->) by (split; congruence). split; [reflexivity|]. cbn zeta. unfold at_pt in *.
  fold (on_outline (vertices s (a :: l)) p) in H1. fold (surrounds (vertices s (a :: l)) p) in H2.
  destruct w.
  - apply H1. reflexivity.
  - assert (K : ~ on_outline (vertices s (a :: l)) p) by (intros K; apply H1 in K; discriminate). split; [exact K|].
    specialize (H2 ltac:(discriminate)). destruct (surrounds _ p); [reflexivity|discriminate].
  - assert (K : ~ on_outline (vertices s (a :: l)) p) by (intros K; apply H1 in K; discriminate). split; [exact K|].
    specialize (H2 ltac:(discriminate)). destruct (surrounds _ p); [discriminate|reflexivity].
Qed.
Lemma pip_loop s first m second k fuel fuel' : circle s (first :: m) -> circle s (second :: k) ->
  forall rest c res s', chained s c (rest ++ [first]) -> ~ In first rest ->
  loopM fuel (pip_body fuel' first second) c s = Ok (res, s') ->
  s' = s /\ let vs := vertices s (second :: k) in
  match res with
  | Some b => first_off vs (vertices s (c :: rest)) b
  | None => Forall (on_outline vs) (vertices s (c :: rest))
  end.
Proof.
  intros C K. induction fuel as [|fuel IH]; intros rest c res s' CH NF E; [discriminate|]. rewrite loopM_S in E.
  destruct (pip_body fuel' first second c s) as [[x t]| |] eqn:EB; try discriminate.
  unfold pip_body in EB. unfold bind at 1 in EB. cbn [node_point] in EB.
  change (node_point c s) with (Ok (npos (node_at s c), s)) in EB. cbv iota beta in EB. unfold bind at 1 in EB.
  destruct (point_in_polygon fuel' (npoint_of (npos (node_at s c))) second s) as [[w t1]| |] eqn:EP; try discriminate. cbv iota beta in EB.
  destruct (pip_answer s second k _ fuel' w t1 K EP) as (-> & A). cbn zeta in A |- *.
  destruct w.
  - destruct rest as [|d rest].
    + cbn [app chained] in CH. destruct CH as (L & _). unfold bind in EB. rewrite (next_of_run s c first (proj1 L)) in EB.
      rewrite Pos.eqb_refl in EB. injection EB as <- <-. injection E as <- <-. split; [reflexivity|]. constructor; [exact A|constructor].
    + cbn [app chained] in CH. destruct CH as (L & CH). unfold bind in EB. rewrite (next_of_run s c d (proj1 L)) in EB.
      destruct (Pos.eqb_spec d first) as [->|N]; [exfalso; apply NF; left; reflexivity|]. injection EB as <- <-.
      destruct (IH rest d res s' CH (fun x => NF (or_intror x)) E) as (-> & Q). split; [reflexivity|].
      destruct res as [b|].
      * destruct Q as (on & p & r & E1 & F & NO & B). exists (npos (node_at s c) :: on), p, r.
        split; [rewrite StatsP.vertices_cons, E1; reflexivity|]. split; [constructor; assumption|auto].
      * rewrite StatsP.vertices_cons. constructor; assumption.
  - injection EB as <- <-. injection E as <- <-. split; [reflexivity|]. exists [], (npos (node_at s c)), (vertices s rest).
    destruct A as (A1 & A2). split; [reflexivity|]. split; [constructor|]. auto.
  - injection EB as <- <-. injection E as <- <-. split; [reflexivity|]. exists [], (npos (node_at s c)), (vertices s rest).
    destruct A as (A1 & A2). split; [reflexivity|]. split; [constructor|]. auto.
Qed.
Lemma ensure_settled fuel r s : settled s r -> ensure_stats fuel r s = Ok (tt, s).
Proof. intros S. unfold ensure_stats. rewrite (bind_run _ _ _ _ _ (rg_run s r)), (settled_not_nan s r S). reflexivity. Qed.
Lemma area_settled fuel r s : settled s r -> ring_area fuel r s = Ok (r_area (ring_at s r), s).
Proof. intros S. unfold ring_area. rewrite (bind_run _ _ _ _ _ (ensure_settled fuel r s S)). reflexivity. Qed.
Lemma hole_settled fuel r s : settled s r -> ring_is_hole fuel r s = Ok (r_hole (ring_at s r), s).
Proof. intros S. unfold ring_is_hole. rewrite (bind_run _ _ _ _ _ (ensure_settled fuel r s S)). reflexivity. Qed.
Lemma box_within_tight us vs b b' : tight_box us b -> tight_box vs b' -> box_inside_of b b' = true <-> box_within us vs.
Proof.
  intros (A1 & (a1 & I1 & E1) & (a2 & I2 & E2) & (a3 & I3 & E3) & (a4 & I4 & E4)) (B1 & (b1 & J1 & F1) & (b2 & J2 & F2) & (b3 & J3 & F3) & (b4 & J4 & F4)).
  unfold box_inside_of. rewrite !andb_true_iff, !Z.leb_le, !Z.geb_le. split.
  - intros (((H1 & H2) & H3) & H4) p Hp. destruct (A1 p Hp) as (P1 & P2).
    split; [exists b1|split; [exists b2|split; [exists b3|exists b4]]]; (split; [assumption|lia]).
  - intros W. destruct (W a1 I1) as ((c1 & K1 & L1) & _). destruct (W a3 I3) as (_ & _ & (c3 & K3 & L3) & _).
    destruct (W a2 I2) as (_ & (c2 & K2 & L2) & _). destruct (W a4 I4) as (_ & _ & _ & (c4 & K4 & L4)).
    pose proof (B1 c1 K1). pose proof (B1 c2 K2). pose proof (B1 c3 K3). pose proof (B1 c4 K4). lia.
Qed.
Definition inside_rest (fuel : nat) (r other : rid) : prog bool :=
  (x <- rg r ;; y <- rg other ;;
   xn <- deref (r_node x) ;; first <- next_of xn ;;
   yn <- deref (r_node y) ;; second <- next_of yn ;;
   res <- loopM fuel (pip_body fuel first second) first ;;
   match res with
   | Some b => ret b
   | None =>
       (w <- inside_or_outside_special fuel first second ;;
        ret (match w with INSIDE => true | _ => false end))
   end)%M.
Lemma inside_of_rest fuel r other : inside_of fuel r other =
  (x <- rg r ;; y <- rg other ;;
   if negb (box_inside_of (r_box x) (r_box y)) then ret false
   else
     (oa <- ring_area fuel other ;; ra <- ring_area fuel r ;;
      if num_ltb (NF (f_abs oa)) (NF (f_abs ra)) then ret false else inside_rest fuel r other))%M.
Proof. reflexivity. Qed.
Lemma second_circle s n l : circle s (n :: l) -> exists d m, n_next (node_at s n) = Some d /\ circle s (d :: m) /\ vertices s (d :: m) = second_first (vertices s (n :: l)).
Proof.
  intros C. destruct l as [|d l].
  - exists n, []. split; [destruct C as (_ & (L & _)); exact (proj1 L)|]. split; [exact C|reflexivity].
  - exists d, (l ++ [n]). split; [destruct C as (_ & (L & _)); exact (proj1 L)|]. split; [apply (circle_rotate s [n] (d :: l) C)|].
    unfold vertices, second_first. cbn [map]. rewrite map_app. reflexivity.
Qed.
Lemma circle_tail s d m : circle s (d :: m) -> chained s d (m ++ [d]) /\ ~ In d m.
Proof. intros (N & C). inversion N. auto. Qed.
Lemma Forall_second {P : point -> Prop} us : Forall P (second_first us) -> Forall P us.
Proof. destruct us as [|p l]; [auto|]. cbn [second_first]. rewrite Forall_app. intros (A & B). inversion B. constructor; assumption. Qed.
Lemma first_off_second vs us b : first_off (second_first vs) us b -> first_off vs us b.
Proof.
  intros (on & p & r & E & F & N & B). exists on, p, r. split; [exact E|]. split; [|split; [|rewrite B; apply surrounds_second]].
  - revert F. apply Forall_impl. intros q. apply on_second.
  - intros H. apply N. apply on_second. exact H.
Qed.
Lemma rest_lies fuel r q s b s' : settled s r -> settled s q -> inside_rest fuel r q s = Ok (b, s') ->
  exists us vs, outline_of s r us /\ outline_of s q vs /\ (first_off vs (second_first us) b \/ Forall (on_outline vs) us).
Proof.
  intros (n & l & Fn & C & _) (n' & l' & Fn' & C' & _) E. unfold inside_rest in E.
  rewrite (bind_run _ _ _ _ _ (rg_run s r)), (bind_run _ _ _ _ _ (rg_run s q)) in E.
  unfold first_of in Fn, Fn'. rewrite Fn, Fn' in E. cbn [deref] in E.
  destruct (second_circle s n l C) as (d & m & N1 & C1 & V1). destruct (second_circle s n' l' C') as (d' & m' & N2 & C2 & V2).
  rewrite (bind_run (ret n) _ s n s eq_refl) in E. rewrite (bind_run _ _ _ _ _ (next_of_run s n d N1)) in E.
  rewrite (bind_run (ret n') _ s n' s eq_refl) in E. rewrite (bind_run _ _ _ _ _ (next_of_run s n' d' N2)) in E.
  unfold bind at 1 in E. destruct (loopM fuel (pip_body fuel d d') d s) as [[res t]| |] eqn:EL; try discriminate. cbv iota beta in E.
  destruct (circle_tail s d m C1) as (CH & NI).
  destruct (pip_loop s d m d' m' fuel fuel C1 C2 m d res t CH NI EL) as (-> & Q). cbn zeta in Q. rewrite V1, V2 in Q.
  exists (vertices s (n :: l)), (vertices s (n' :: l')). split; [exists n, l; auto|]. split; [exists n', l'; auto|].
  destruct res as [b'|].
  - injection E as -> _. left. apply first_off_second. exact Q.
  - right. apply Forall_second in Q. revert Q. apply Forall_impl. intros p. apply on_second.
Qed.
Lemma abs_area_settled s r : settled s r -> abs_area s r (Rabs (val (r_area (ring_at s r)))) /\ FloatP.good (r_area (ring_at s r)).
Proof.
  intros S. destruct (settled_outline s r S) as (vs & O & _ & _ & _ & A & _). split; [exists vs, (r_area (ring_at s r)); auto|]. apply (truediv_not_nan _ _ A).
Qed.
Lemma abs_lt_settled s r q : settled s r -> settled s q ->
  num_ltb (NF (f_abs (r_area (ring_at s r)))) (NF (f_abs (r_area (ring_at s q)))) = Rlt_bool (Rabs (val (r_area (ring_at s r)))) (Rabs (val (r_area (ring_at s q)))).
Proof.
  intros S S'. destruct (abs_area_settled s r S) as (_ & G). destruct (abs_area_settled s q S') as (_ & G').
  rewrite num_ltb_spec by (apply f_abs_good; assumption). cbn [numval]. rewrite !f_abs_val. reflexivity.
Qed.
Lemma inside_lies fuel r q s b s' : settled s r -> settled s q -> inside_of fuel r q s = Ok (b, s') -> lies_in s r q b.
Proof.
  intros S S' E. rewrite inside_of_rest in E. rewrite (bind_run _ _ _ _ _ (rg_run s r)), (bind_run _ _ _ _ _ (rg_run s q)) in E.
  destruct (settled_outline s r S) as (us & O & _ & _ & T & _). destruct (settled_outline s q S') as (vs & O' & _ & _ & T' & _).
  destruct (abs_area_settled s r S) as (A & _). destruct (abs_area_settled s q S') as (A' & _).
  exists us, vs, (Rabs (val (r_area (ring_at s r)))), (Rabs (val (r_area (ring_at s q)))). repeat (split; [assumption|]). cbn zeta.
  pose proof (box_within_tight us vs _ _ T T') as BW. destruct (box_inside_of _ _) eqn:B; cbn [negb] in E.
  - rewrite (bind_run _ _ _ _ _ (area_settled fuel q s S')), (bind_run _ _ _ _ _ (area_settled fuel r s S)) in E.
    rewrite (abs_lt_settled s q r S' S) in E. destruct (Rlt_bool_spec (Rabs (val (r_area (ring_at s q)))) (Rabs (val (r_area (ring_at s r))))) as [H|H].
    + injection E as <- _. right. left. exact H.
    + destruct (rest_lies fuel r q s b s' S S' E) as (us' & vs' & U & V & K).
      rewrite (outline_fun s r us' us U O), (outline_fun s q vs' vs V O') in K. destruct b; [|tauto]. split; [apply BW; reflexivity|]. split; [exact H|exact K].
  - injection E as <- _. left. intros K. apply BW in K. discriminate.
Qed.
