(** * Property theorems: the bounds recorded for the added rings (C08-C12) *)
From Coq Require Import ZArith List Bool Lia Permutation.
From Verif Require Import Py Monad Utils Geometry LinearRingM BoundM LocalMinimumM WagyuM SpecRing SpecBounds
     SweepFrameP LinearRingP RingEdgesP MinimaP AddRingP ApiP HistoryP SlopeP.
Import ListNotations.
Local Open Scope Z_scope.

(** the bounds and minima an object holds *)
Definition bound_of (w : wagyu) (i : bid) : bound := bget (lml_bounds (w_minimums w)) i.
Definition minima_of (w : wagyu) : list local_minimum := lml_values (w_minimums w).

(** ** C08 *)
Theorem C08_add_reports_contribution : forall rv w rs pts kind,
  built rv w rs ->
  (forall a b, In a pts -> In b pts -> Z.abs (px a - px b) <= 2 ^ 1023) ->
  exists b w', w_add_linear_ring w pts kind = Ok (b, w') /\
    (b = false <-> linear_ring_edges pts = Ok []) /\
    (b = false -> w' = w) /\
    (b = true -> exists new, new <> [] /\ minima_of w' = minima_of w ++ new) /\
    (forall i, recorded w i -> recorded w' i /\ bound_of w' i = bound_of w i) /\
    w_reverse w' = w_reverse w.
Proof.
  intros rv w rs pts kind Bw Bnd. pose proof (built_well_recorded _ _ _ Bw) as R.
  destruct (edges_total pts Bnd) as (es & El). pose proof (add_linear_ring_spec (w_minimums w) pts kind) as S. rewrite El in S.
  unfold w_add_linear_ring, rbind, bound_of, minima_of. destruct es as [|e es].
  - rewrite S. exists false, w. destruct w. cbn. intuition congruence.
  - destruct S as (L' & new & S & Nn & V & Old & _). rewrite S. exists true, (Wagyu L' (w_reverse w)). cbn [w_minimums w_reverse].
    repeat split; try congruence; try discriminate; eauto.
    + destruct H as (lm & I & Hi). exists lm. cbn [w_minimums]. rewrite V. split; [apply in_or_app; auto|exact Hi].
    + apply Old, (wr_ids _ _ R i H).
Qed.
Print Assumptions C08_add_reports_contribution.
(** without any restriction on the coordinates the only exception is OverflowError *)
Theorem C08_add_always_ends : forall w pts kind,
  (exists b w', w_add_linear_ring w pts kind = Ok (b, w')) \/ w_add_linear_ring w pts kind = Raise OverflowError.
Proof.
  intros w pts kind. pose proof (add_linear_ring_spec (w_minimums w) pts kind) as S. unfold w_add_linear_ring, rbind.
  destruct (linear_ring_edges pts) as [[|e es]|x|].
  - rewrite S. eauto.
  - destruct S as (L' & new & S & _). rewrite S. eauto.
  - destruct S as (_ & S). rewrite S. auto.
  - contradiction.
Qed.
Print Assumptions C08_add_always_ends.

(** ** C09 *)
Theorem C09_bounds_are_monotone_chains : forall rv w rs lm,
  built rv w rs -> In lm (minima_of w) ->
  b_edges (bound_of w (lm_left lm)) <> [] /\ b_edges (bound_of w (lm_right lm)) <> [] /\
  exists start end_left end_right,
    ascends start (b_edges (bound_of w (lm_left lm))) end_left /\
    ascends start (b_edges (bound_of w (lm_right lm))) end_right /\
    py start = lm_y lm.
Proof.
  intros rv w rs lm Bw I. pose proof (built_well_recorded _ _ _ Bw) as R. pose proof (wr_shape _ _ R) as S.
  rewrite Forall_forall in S. destruct (S lm I) as ((c & tl & tr & A1 & A2 & Y) & N1 & N2 & _). eauto 10.
Qed.
Print Assumptions C09_bounds_are_monotone_chains.
(** no two consecutive edges of a recorded bound are horizontal *)
Theorem C09_no_consecutive_horizontals : forall rv w rs lm,
  built rv w rs -> In lm (minima_of w) ->
  flats_apart (b_edges (bound_of w (lm_left lm))) /\ flats_apart (b_edges (bound_of w (lm_right lm))).
Proof.
  intros rv w rs lm Bw I. pose proof (built_well_recorded _ _ _ Bw) as R. pose proof (wr_shape _ _ R) as S.
  rewrite Forall_forall in S. destruct (S lm I) as (_ & _ & _ & _ & _ & _ & _ & _ & A & B & _). auto.
Qed.
Print Assumptions C09_no_consecutive_horizontals.

(** ** C10: the bounds of each kind together hold exactly the edges of the rings
    of that kind, each as often as it occurs, up to the direction of horizontal
    ones; and no bound belongs to two minima *)
Theorem C10_bounds_partition_edges : forall rv w rs k,
  built rv w rs ->
  NoDup (flat_map (fun lm => [lm_left lm; lm_right lm]) (minima_of w)) /\
  Permutation
    (map undirected
       (flat_map (fun lm => if kind_eqb (b_kind (bound_of w (lm_left lm))) k
                            then b_edges (bound_of w (lm_left lm)) ++ b_edges (bound_of w (lm_right lm)) else [])
                 (minima_of w)))
    (map undirected
       (flat_map (fun '(pts, kind) => if kind_eqb kind k
                                      then match linear_ring_edges pts with Ok es => es | _ => [] end else [])
                 rs)).
Proof.
  intros rv w rs k Bw. pose proof (built_well_recorded _ _ _ Bw) as R. split; [exact (wr_nodup _ _ R)|].
  pose proof (wr_edges _ _ R k) as P.
  erewrite (flat_map_ext_in _ (ring_edges_of_kind k) rs); [exact P|].
  intros (pts & kind) _. reflexivity.
Qed.
Print Assumptions C10_bounds_partition_edges.
(** and every recorded edge has positive length, the larger y at its bottom and
    the slope Python computes for it *)
Theorem C10_recorded_edges_well_made : forall rv w rs i e,
  built rv w rs -> recorded w i -> In e (b_edges (bound_of w i)) ->
  well_made e /\ exists pts, In (pts, b_kind (bound_of w i)) rs /\ In (etop e) pts /\ In (ebot e) pts.
Proof.
  intros rv w rs i e Bw Ri I. pose proof (built_well_recorded _ _ _ Bw) as R.
  split; [eapply recorded_edge_well_made|eapply recorded_edge_ends]; eassumption.
Qed.
Print Assumptions C10_recorded_edges_well_made.

(** ** C11 *)
(** after any history: same kind, deltas +1 and -1, left before right, horizontal
    start only on the right *)
Theorem C11_minimum_labels : forall rv w rs lm,
  built rv w rs -> In lm (minima_of w) ->
  let l := bound_of w (lm_left lm) in
  let r := bound_of w (lm_right lm) in
  b_kind l = b_kind r /\
  (b_wd l = 1 /\ b_wd r = -1 \/ b_wd l = -1 /\ b_wd r = 1) /\
  opens_left_of (b_edges l) (b_edges r) /\
  ~ starts_flat (b_edges l) /\ (lm_hor lm = true <-> starts_flat (b_edges r)).
Proof.
  intros rv w rs lm Bw I. pose proof (built_well_recorded _ _ _ Bw) as R. pose proof (wr_shape _ _ R) as S.
  rewrite Forall_forall in S. destruct (S lm I) as (_ & _ & _ & O & F & H & K & D & _). cbv zeta. auto 10.
Qed.
Print Assumptions C11_minimum_labels.
(** when a ring is recorded, its minima get the kind that was passed and their
    two bounds the sides left and right *)
Theorem C11_new_minimum_sides : forall rv w rs pts kind w' lm,
  built rv w rs -> w_add_linear_ring w pts kind = Ok (true, w') ->
  In lm (minima_of w') -> ~ In lm (minima_of w) ->
  let l := bound_of w' (lm_left lm) in
  let r := bound_of w' (lm_right lm) in
  b_side l = LEFT /\ b_side r = RIGHT /\ b_kind l = kind /\ b_kind r = kind.
Proof.
  intros rv w rs pts kind w' lm Bw E I N. cbv zeta. unfold minima_of, bound_of in *.
  pose proof (add_linear_ring_spec (w_minimums w) pts kind) as S. unfold w_add_linear_ring, rbind in E.
  destruct (linear_ring_edges pts) as [[|e es]|x|].
  - rewrite S in E. discriminate.
  - destruct S as (L' & new & S & Nn & V & Old & Nx & Ok_ & _). rewrite S in E. injection E as <-. cbn [w_minimums] in *.
    rewrite V in I. apply in_app_or in I. destruct I as [I|I]; [contradiction|]. rewrite Forall_forall in Ok_.
    destruct (Ok_ lm I) as (_ & _ & _ & _ & _ & _ & K1 & K2 & S1 & S2 & _). auto.
  - destruct S as (_ & S). rewrite S in E. discriminate.
  - contradiction.
Qed.
Print Assumptions C11_new_minimum_sides.
(** left really is left when the coordinates are at most 2^24 in absolute value
    (so that the rounding of slopes cannot confuse directions) *)
Lemma first_sloped_some l e : first_sloped l = Some e -> In e l /\ py (etop e) <> py (ebot e).
Proof.
  unfold first_sloped. intros H. apply find_some in H. destruct H as (I & H). split; [exact I|].
  apply negb_true_iff, Z.eqb_neq in H. exact H.
Qed.
Theorem C11_left_is_left_exact : forall rv w rs lm,
  built rv w rs -> In lm (minima_of w) ->
  (forall pts kind p, In (pts, kind) rs -> In p pts -> Z.abs (px p) <= 2 ^ 24 /\ Z.abs (py p) <= 2 ^ 24) ->
  really_left_of (b_edges (bound_of w (lm_left lm))) (b_edges (bound_of w (lm_right lm))).
Proof.
  intros rv w rs lm Bw I Bnd. destruct (C11_minimum_labels rv w rs lm Bw I) as (_ & _ & O & _).
  destruct O as (el & er & F1 & F2 & Y & D). exists el, er. repeat (split; [assumption|]).
  destruct D as [D|(D & L)]; [left; exact D|right; split; [exact D|]].
  destruct (first_sloped_some _ _ F1) as (I1 & N1). destruct (first_sloped_some _ _ F2) as (I2 & N2).
  destruct (C10_recorded_edges_well_made rv w rs _ el Bw (ex_intro _ lm (conj I (or_introl eq_refl))) I1) as (W1 & p1 & R1 & T1 & B1).
  destruct (C10_recorded_edges_well_made rv w rs _ er Bw (ex_intro _ lm (conj I (or_intror eq_refl))) I2) as (W2 & p2 & R2 & T2 & B2).
  assert (L1 : py (etop el) <= py (ebot el)) by apply W1. assert (L2 : py (etop er) <= py (ebot er)) by apply W2.
  apply slope_order in L; [lia|assumption|assumption|lia|lia|].
  intros p [->|[->|[->| ->]]]; [eapply (Bnd p2)|eapply (Bnd p2)|eapply (Bnd p1)|eapply (Bnd p1)]; eassumption.
Qed.
Print Assumptions C11_left_is_left_exact.

(** ** C12 *)
Theorem C12_maximum_pairing : forall rv w rs i,
  built rv w rs -> recorded w i ->
  exists j, recorded w j /\
    b_max (bound_of w i) = Some j /\ b_max (bound_of w j) = Some i /\
    (exists p, tip (b_edges (bound_of w i)) = Some p /\ tip (b_edges (bound_of w j)) = Some p) /\
    b_wd (bound_of w i) = - b_wd (bound_of w j) /\
    b_kind (bound_of w i) = b_kind (bound_of w j).
Proof.
  intros rv w rs i Bw Ri. pose proof (built_well_recorded _ _ _ Bw) as R. destruct (wr_pair _ _ R i Ri) as (j & Rj & P1 & P2 & P3 & P4 & P5).
  exists j. split; [exact Rj|]. unfold bound_of. rewrite P3. repeat (split; [assumption|]). split; [|split; assumption].
  destruct Rj as (lm & I & Hj). destruct (C09_bounds_are_monotone_chains rv w rs lm Bw I) as (N1 & N2 & s & tl & tr & A1 & A2 & _).
  unfold bound_of in *. destruct Hj as [->| ->].
  - exists tl. rewrite (tip_asc _ _ _ A1 N1). auto.
  - exists tr. rewrite (tip_asc _ _ _ A2 N2). auto.
Qed.
Print Assumptions C12_maximum_pairing.
(** the partner comes from the same ring *)
Theorem C12_partner_same_ring : forall rv w rs pts kind b w' i j,
  built rv w rs -> w_add_linear_ring w pts kind = Ok (b, w') ->
  recorded w' i -> b_max (bound_of w' i) = Some j -> (recorded w i <-> recorded w j).
Proof.
  intros rv w rs pts kind b w' i j Bw E Ri M.
  pose proof (built_well_recorded _ _ _ Bw) as R.
  pose proof (add_linear_ring_spec (w_minimums w) pts kind) as S. unfold w_add_linear_ring, rbind in E.
  destruct (linear_ring_edges pts) as [[|e es]|x|].
  - rewrite S in E. injection E as <- <-. unfold bound_of in M. cbn [w_minimums] in M.
    change (recorded w i) in Ri.
    destruct (wr_pair _ _ R i Ri) as (k & Rk & P1 & P2 & _). assert (k = j) by congruence. subst k. split; intros _; assumption.
  - destruct S as (L' & new & S & Nn & V & Old & Nx & Ok_ & Ids & All & Nd & Pr & Pm). rewrite S in E. injection E as <- <-.
    unfold bound_of in M. cbn [w_minimums] in M. destruct Ri as (lm & I & Hi). cbn [w_minimums] in I. rewrite V in I.
    apply in_app_or in I. destruct I as [I|I].
    + assert (Ri : recorded w i) by (exists lm; auto). rewrite Old in M by (apply (wr_ids _ _ R), Ri).
      destruct (wr_pair _ _ R i Ri) as (k & Rk & P1 & P2 & _). assert (k = j) by congruence. subst k. split; intros _; assumption.
    + assert (Ii : inside (lml_next (w_minimums w)) (lml_next L') i).
      { rewrite Forall_forall in Ids. destruct (Ids lm I). destruct Hi; subst; assumption. }
      destruct (Pr i Ii) as (k & Ik & P1 & _). assert (k = j) by congruence. subst k.
      split; intros H; apply (wr_ids _ _ R) in H; destruct Ii, Ik; lia.
  - destruct S as (_ & S). rewrite S in E. discriminate.
  - contradiction.
Qed.
Print Assumptions C12_partner_same_ring.

(** ** A concrete history: an M-shaped ring with a horizontal bottom (two minima) *)
Definition ex_m : linear_ring := [Pt 0 0; Pt 4 0; Pt 6 10; Pt 8 0; Pt 12 0; Pt 14 20; Pt (-2) 20].
Definition ex_m_w : res (bool * wagyu) := w_add_linear_ring (new_wagyu false) ex_m SUBJECT.
Example ex_m_minima : exists w, ex_m_w = Ok (true, w) /\ built false w [(ex_m, SUBJECT)] /\ length (minima_of w) = 2%nat /\
  exists lm, In lm (minima_of w) /\ lm_hor lm = true /\ lm_y lm = 20 /\
    map (fun e => (ebot e, etop e)) (b_edges (bound_of w (lm_right lm)))
      = [(Pt (-2) 20, Pt 14 20); (Pt 14 20, Pt 12 0)].
Proof.
  assert (E : exists b w, ex_m_w = Ok (b, w)) by (vm_compute; eauto).
  destruct E as (b & w & E). assert (b = true) by (revert E; vm_compute; congruence). subst b.
  exists w. split; [exact E|]. split.
  { apply (built_ring false (new_wagyu false) [] ex_m SUBJECT true w); [constructor|exact E]. }
  revert E. vm_compute. intros E. injection E as <-. split; [reflexivity|].
  eexists. split; [right; left; reflexivity|]. repeat split.
Qed.
