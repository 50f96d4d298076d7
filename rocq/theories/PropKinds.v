(** * Property theorems: the roles of subject and clip (C43, C44)

    Read with SpecHistory.v ([built rv w rs]: [w] is the object after some sequence
    of completed calls on [Wagyu(rv)], [rs] the rings added since the last [clear],
    with their kinds; [answer]: the multipolygon or the exception). *)
From Coq Require Import ZArith List Bool Lia FMapPositive.
From Verif Require Import Py Monad Utils Geometry LinearRingM BoundM LocalMinimumM StateM
     PointNodeM RingM SweepM TopologyM WagyuM SpecHistory HistoryP RunRelP SoloP.
Import ListNotations.
Open Scope Z_scope.

(** subject and clip exchanged *)
Definition other (k : polygon_kind) : polygon_kind := match k with SUBJECT => CLIP | CLIP => SUBJECT end.
Definition exchanged (rs : list (linear_ring * polygon_kind)) : list (linear_ring * polygon_kind) :=
  map (fun r => (fst r, other (snd r))) rs.
(** all rings have the same kind *)
Definition only (k : polygon_kind) (rs : list (linear_ring * polygon_kind)) : Prop :=
  forall pts kind, In (pts, kind) rs -> kind = k.

(** ** C43 *)
Lemma exchange_decisions op sfk cfk : op <> DIFFERENCE -> same_decisions other false op op sfk cfk cfk sfk.
Proof.
  intros Hop. constructor.
  - intros [] []; reflexivity.
  - intros [] _; reflexivity.
  - intros _ []; reflexivity.
  - intros [] wc owc _; unfold is_contributing; cbn [other fill_of alt_fill_of]; destruct op; try reflexivity; contradiction.
  - intros c1 c2 k1 k2 a b c d _. unfold crossing.
    assert (F : forall k, fill_of cfk sfk (other k) = fill_of sfk cfk k) by (intros []; reflexivity).
    assert (G : forall k, alt_fill_of cfk sfk (other k) = alt_fill_of sfk cfk k) by (intros []; reflexivity).
    assert (K : kind_eqb (other k1) (other k2) = kind_eqb k1 k2) by (destruct k1, k2; reflexivity).
    rewrite !F, !G, K. destruct op; try reflexivity. contradiction.
Qed.
(** Intersection, union and symmetric difference do not care which operand is called
    subject and which clip: adding the same rings in the same order with the kinds
    exchanged, and exchanging the two fill rules, gives the same multipolygon or the
    same exception. *)
Theorem C43_operands_can_be_exchanged :
  forall rv w w' rs fuel op sfk cfk,
  op = INTERSECTION \/ op = UNION \/ op = XOR ->
  built rv w rs -> built rv w' (exchanged rs) ->
  answer (execute fuel w op sfk cfk) = answer (execute fuel w' op cfk sfk).
Proof.
  intros rv w w' rs fuel op sfk cfk Hop B B'.
  eapply (execute_related_rings other false rv w w' rs); [|discriminate|exact B|exact B'].
  apply exchange_decisions. destruct Hop as [->|[->| ->]]; discriminate.
Qed.
Print Assumptions C43_operands_can_be_exchanged.

Definition low : linear_ring := [Pt 0 0; Pt 6 0; Pt 3 3; Pt 0 0].
Definition high : linear_ring := [Pt 3 1; Pt 6 4; Pt 0 4; Pt 3 1].
Definition made (rs : list (linear_ring * polygon_kind)) : wagyu :=
  match add_all (new_wagyu false) rs with Ok (_, w) => w | _ => new_wagyu false end.
Lemma made_built rs : match add_all (new_wagyu false) rs with Ok _ => true | _ => false end = true -> built false (made rs) rs.
Proof.
  intros H. unfold made. destruct (add_all (new_wagyu false) rs) as [[bs w]| |] eqn:E; try discriminate.
  exact (built_add_all false rs [] (new_wagyu false) bs w (built_new false) E).
Qed.
(** the hypotheses are met and the common answer is not empty *)
Example C43_example :
  built false (made [(low, SUBJECT); (high, CLIP)]) [(low, SUBJECT); (high, CLIP)] /\
  built false (made [(low, CLIP); (high, SUBJECT)]) (exchanged [(low, SUBJECT); (high, CLIP)]) /\
  answer (execute 100 (made [(low, SUBJECT); (high, CLIP)]) INTERSECTION EVEN_ODD NON_ZERO) =
    Ok [[[Pt 3 1; Pt 4 2; Pt 3 3; Pt 2 2; Pt 3 1]]] /\
  answer (execute 100 (made [(low, CLIP); (high, SUBJECT)]) INTERSECTION NON_ZERO EVEN_ODD) =
    Ok [[[Pt 3 1; Pt 4 2; Pt 3 3; Pt 2 2; Pt 3 1]]].
Proof. split; [apply made_built; vm_compute; reflexivity|]. split; [apply (made_built [(low, CLIP); (high, SUBJECT)]); vm_compute; reflexivity|]. split; vm_compute; reflexivity. Qed.
(** the difference is excluded for a reason *)
Example C43_difference_is_not_symmetric :
  exists rs w w', built false w rs /\ built false w' (exchanged rs) /\
  answer (execute 100 w DIFFERENCE EVEN_ODD EVEN_ODD) <> answer (execute 100 w' DIFFERENCE EVEN_ODD EVEN_ODD).
Proof.
  exists [(low, SUBJECT); (high, CLIP)], (made [(low, SUBJECT); (high, CLIP)]), (made [(low, CLIP); (high, SUBJECT)]).
  split; [apply made_built; vm_compute; reflexivity|]. split; [apply (made_built [(low, CLIP); (high, SUBJECT)]); vm_compute; reflexivity|].
  assert (A : answer (execute 100 (made [(low, SUBJECT); (high, CLIP)]) DIFFERENCE EVEN_ODD EVEN_ODD) =
    answer (execute 100 (made [(low, CLIP); (high, SUBJECT)]) DIFFERENCE EVEN_ODD EVEN_ODD) -> False).
  { set (x := answer _). set (y := answer _). assert (Ex : x = x) by reflexivity. revert Ex. unfold x, y. vm_compute. discriminate. }
  exact A.
Qed.

(** ** C44 *)
Lemma alone_decisions op op' sfk cfk cfk' : op <> INTERSECTION -> op' <> INTERSECTION ->
  same_decisions idk true op op' sfk cfk sfk cfk'.
Proof.
  intros H H'. constructor.
  - reflexivity.
  - intros k Hk. rewrite (Hk eq_refl). reflexivity.
  - discriminate.
  - intros k wc owc Hk. destruct (Hk eq_refl) as (-> & ->). unfold is_contributing. cbn [idk fill_of alt_fill_of].
    destruct (negb _); [reflexivity|]. destruct op, op'; try contradiction; destruct cfk, cfk'; reflexivity.
  - intros c1 c2 k1 k2 a b c d Hk. destruct (Hk eq_refl) as ((-> & ->) & -> & ->). unfold crossing. cbn [idk fill_of alt_fill_of kind_eqb].
    destruct op, op'; try contradiction; destruct cfk, cfk'; reflexivity.
Qed.
Lemma clip_decisions op op' sfk cfk sfk' : (op = INTERSECTION <-> op' = INTERSECTION \/ op' = DIFFERENCE) ->
  same_decisions other true op op' sfk cfk sfk' sfk.
Proof.
  intros H. constructor.
  - intros [] []; reflexivity.
  - intros k Hk. rewrite (Hk eq_refl). reflexivity.
  - discriminate.
  - intros k wc owc Hk. destruct (Hk eq_refl) as (-> & ->). unfold is_contributing. cbn [other fill_of alt_fill_of].
    destruct (negb _); [reflexivity|]. destruct op, op'; try (destruct cfk, sfk'; reflexivity); exfalso; destruct H as (H1 & H2);
      try (destruct (H1 eq_refl); discriminate); try (discriminate (H2 (or_introl eq_refl))); discriminate (H2 (or_intror eq_refl)).
  - intros c1 c2 k1 k2 a b c d Hk. destruct (Hk eq_refl) as ((-> & ->) & -> & ->). unfold crossing. cbn [other fill_of alt_fill_of kind_eqb].
    destruct op, op'; try (destruct cfk, sfk'; reflexivity); exfalso; destruct H as (H1 & H2);
      try (destruct (H1 eq_refl); discriminate); try (discriminate (H2 (or_introl eq_refl))); discriminate (H2 (or_intror eq_refl)).
Qed.
Lemma rekind_id rs : rekind idk rs = rs.
Proof. unfold rekind, idk. rewrite <- (map_id rs) at 2. apply map_ext. intros []; reflexivity. Qed.
(** Without clip rings the clip is empty: union, difference and symmetric difference
    give the same answer, whatever the fill rule of the (absent) clip ... *)
Theorem C44_without_clip_rings_the_operations_agree :
  forall rv w rs fuel op op' sfk cfk cfk',
  built rv w rs -> only SUBJECT rs -> op <> INTERSECTION -> op' <> INTERSECTION ->
  answer (execute fuel w op sfk cfk) = answer (execute fuel w op' sfk cfk').
Proof.
  intros rv w rs fuel op op' sfk cfk cfk' B O H H'.
  eapply (execute_related_rings idk true rv w w rs); [apply alone_decisions; assumption|intros _; exact O|exact B|rewrite rekind_id; exact B].
Qed.
Print Assumptions C44_without_clip_rings_the_operations_agree.
Lemma idle_plain rs : forall L L', only SUBJECT rs -> all_idle L -> plain L rs = Ok L' -> all_idle L'.
Proof.
  induction rs as [|[pts kind] rs IH]; intros L L' O H E; cbn [plain] in E; [injection E as <-; exact H|].
  destruct (add_linear_ring L pts kind) as [[b L1]| |] eqn:E1; cbn [rbind] in E; try discriminate.
  rewrite (O pts kind) in E1 by (left; reflexivity). eapply (IH L1); [|eapply idle_add; eassumption|exact E].
  intros p k Hk. eapply O. right. exact Hk.
Qed.
(** ... and the intersection with it is empty, *)
Theorem C44_without_clip_rings_the_intersection_is_empty :
  forall rv w rs fuel sfk cfk r,
  built rv w rs -> only SUBJECT rs ->
  answer (execute fuel w INTERSECTION sfk cfk) = Ok r -> r = [].
Proof.
  intros rv w rs fuel sfk cfk r B O E. apply tracks_built in B. destruct B as ((d & L & Hp & Si) & R1).
  rewrite (execute_plain rv rs d L w) in E by assumption.
  assert (I1 : all_idle L). { eapply (idle_plain rs empty_lm_list L O); [|exact Hp]. intros i. unfold bget, hget. rewrite PositiveMap.gempty. repeat split. }
  unfold execute in E. cbn [w_minimums w_reverse] in E. destruct (lml_values L) as [|m l]; [injection E as <-; reflexivity|].
  destruct (run _ _ _ _ _ _ _) as [[a s]| |] eqn:Er; try discriminate. injection E as <-.
  exact (solo_run _ _ _ _ _ _ _ _ I1 Er).
Qed.
Print Assumptions C44_without_clip_rings_the_intersection_is_empty.
Lemma only_exchanged rs : only CLIP rs -> only SUBJECT (exchanged rs).
Proof. intros H pts kind Hi. apply in_map_iff in Hi. destruct Hi as ((p & k) & [= <- <-] & Hi). rewrite (H p k Hi). reflexivity. Qed.
Lemma exchanged_twice rs : exchanged (exchanged rs) = rs.
Proof. unfold exchanged. rewrite map_map. rewrite <- (map_id rs) at 2. apply map_ext. intros [p []]; reflexivity. Qed.
Lemma exchange_exists rv w rs : built rv w rs -> exists w', built rv w' (exchanged rs).
Proof.
  intros B. apply tracks_built in B. destruct B as ((d & L & Hp & _) & _).
  destruct (plain_rel other 0 rs empty_lm_list empty_lm_list L) as (L' & E & _); [apply sim_empty; reflexivity|exact Hp|].
  exists (Wagyu L' rv). apply plain_built, E.
Qed.
(** and with clip rings only, nothing is left of an empty subject *)
Theorem C44_without_subject_rings_nothing_is_left :
  forall rv w rs fuel op sfk cfk r,
  built rv w rs -> only CLIP rs -> op = INTERSECTION \/ op = DIFFERENCE ->
  answer (execute fuel w op sfk cfk) = Ok r -> r = [].
Proof.
  intros rv w rs fuel op sfk cfk r B O Hop E. destruct (exchange_exists rv w rs B) as (w' & B').
  rewrite <- (execute_related_rings other true rv w' w (exchanged rs) fuel INTERSECTION op cfk sfk sfk cfk) in E.
  - eapply (C44_without_clip_rings_the_intersection_is_empty rv w'); [exact B'|apply only_exchanged, O|exact E].
  - apply clip_decisions. tauto.
  - intros _. apply only_exchanged, O.
  - exact B'.
  - change (rekind other (exchanged rs)) with (exchanged (exchanged rs)). rewrite exchanged_twice. exact B.
Qed.
Print Assumptions C44_without_subject_rings_nothing_is_left.
(** while union and symmetric difference give what they give for the same rings as
    subject *)
Theorem C44_without_subject_rings_the_clip_is_left :
  forall rv w w' rs fuel op op' sfk cfk cfk',
  built rv w rs -> built rv w' (exchanged rs) -> only CLIP rs ->
  op = UNION \/ op = XOR -> op' <> INTERSECTION ->
  answer (execute fuel w op sfk cfk) = answer (execute fuel w' op' cfk cfk').
Proof.
  intros rv w w' rs fuel op op' sfk cfk cfk' B B' O Hop Hop'. symmetry.
  eapply (execute_related_rings other true rv w' w (exchanged rs)).
  - apply clip_decisions. split; [intros; contradiction|]. intros [->| ->]; destruct Hop; discriminate.
  - intros _. apply only_exchanged, O.
  - exact B'.
  - change (rekind other (exchanged rs)) with (exchanged (exchanged rs)). rewrite exchanged_twice. exact B.
Qed.
Print Assumptions C44_without_subject_rings_the_clip_is_left.
(** two overlapping subject rings; the operations that agree give something *)
Example C44_example :
  let w := made [(low, SUBJECT); (high, SUBJECT)] in
  built false w [(low, SUBJECT); (high, SUBJECT)] /\ only SUBJECT [(low, SUBJECT); (high, SUBJECT)] /\
  (exists m, answer (execute 100 w DIFFERENCE NON_ZERO POSITIVE) = Ok m /\ m <> []) /\
  answer (execute 100 w INTERSECTION NON_ZERO POSITIVE) = Ok [].
Proof.
  cbv zeta. split; [apply made_built; vm_compute; reflexivity|]. split; [intros p k [[= _ <-]|[[= _ <-]|[]]]; reflexivity|].
  split; [eexists; split; [vm_compute; reflexivity|discriminate]|]. vm_compute. reflexivity.
Qed.
Example C44_clip_example :
  let w := made [(low, CLIP); (high, CLIP)] in
  built false w [(low, CLIP); (high, CLIP)] /\ only CLIP [(low, CLIP); (high, CLIP)] /\
  answer (execute 100 w DIFFERENCE POSITIVE NON_ZERO) = Ok [] /\
  exists m, answer (execute 100 w UNION POSITIVE NON_ZERO) = Ok m /\ m <> [].
Proof.
  cbv zeta. split; [apply made_built; vm_compute; reflexivity|]. split; [intros p k [[= _ <-]|[[= _ <-]|[]]]; reflexivity|].
  split; [vm_compute; reflexivity|]. eexists; split; [vm_compute; reflexivity|discriminate].
Qed.
