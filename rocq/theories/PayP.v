(** * What is left to do: the measure of both sweeps *)
From Coq Require Import ZArith List Bool Lia FMapPositive Permutation Sorting.Sorted.
From Coq Require Import Floats.SpecFloat.
From RecordUpdate Require Import RecordSet.
From Verif Require Import Py Monad Utils Spec Geometry LinearRingM BoundM LocalMinimumM
     StateM PointNodeM RingM SweepM HoareP SweepFrameP SpecSweep SpecActive ListP SortP ScanP FuelP
     WindingP CalmP WindingInvP VatP IntersectP OriginP HaltP.
Import ListNotations RecordSetNotations.
Open Scope Z_scope.
Local Open Scope m_scope.

(** ** Bubble sort stops *)
Section BubbleHalt.
Context {S A : Type} (c : A -> A -> M S bool) (w : A -> A -> M S unit) (Iv : S -> Prop) (q : A -> A -> bool) (p : A -> Prop).
Hypothesis Hc : forall a b s r s', p a -> p b -> Iv s -> c a b s = Ok (r, s') -> Iv s' /\ r = q a b.
Hypothesis Hw : forall a b s r s', p a -> p b -> Iv s -> w a b s = Ok (r, s') -> Iv s'.
Lemma bubble_pass_swaps rest : forall x s l sw s', p x -> Forall p rest -> Iv s ->
  bubble_pass c w x rest s = Ok ((l, sw), s') ->
  exists log, Spec.swap_run q (x :: rest) log l /\ (sw = true -> log <> []) /\ Iv s' /\ Forall p l.
Proof.
  induction rest as [|y rest IH]; intros x s l sw s' Px Pr HI E; cbn [bubble_pass] in E.
  - injection E as <- <- <-. exists []. split; [constructor|]. split; [discriminate|]. auto.
  - inversion Pr as [|? ? Py Pr']; subst. unfold bind at 1 in E. destruct (c x y s) as [[b s1]| |] eqn:Ec; try discriminate.
    destruct (Hc _ _ _ _ _ Px Py HI Ec) as (I1 & ->). destruct (q x y) eqn:Hq.
    + unfold bind at 1 in E. destruct (bubble_pass c w y rest s1) as [[[l1 sw1] s2]| |] eqn:Ep; try discriminate.
      injection E as <- <- <-. apply IH in Ep; auto. destruct Ep as (log & Rn & H & I2 & F2).
      exists log. split; [apply swap_run_cons; exact Rn|]. auto.
    + unfold bind at 1 in E. destruct (w x y s1) as [[u s2]| |] eqn:Es; try discriminate.
      pose proof (Hw _ _ _ _ _ Px Py I1 Es) as I2. unfold bind at 1 in E.
      destruct (bubble_pass c w x rest s2) as [[[l1 sw1] s3]| |] eqn:Ep; try discriminate.
      injection E as <- <- <-. apply IH in Ep; auto. destruct Ep as (log & Rn & H & I3 & F3).
      exists ((x, y) :: log). split; [apply (swap_step q [] x y rest); [exact Hq|]; cbn; apply swap_run_cons; exact Rn|].
      split; [discriminate|]. auto.
Qed.
Hypothesis Fc : forall a b, fin (c a b).
Hypothesis Fw : forall a b, fin (w a b).
Hypothesis total : forall a b, q a b = true \/ q b a = true.
Lemma halt_bubble l s : Forall p l -> Iv s -> halt (fun f => bubble_sort c w f l) s.
Proof.
  intros Pl HI. unfold bubble_sort. apply (halt_loop (fun _ => bubble_body c w) (fun l s => Forall p l /\ Iv s) (fun l _ => inversions q l)).
  - intros x. apply mono_const.
  - intros x s1 _. apply halt_fin. unfold bubble_body. destruct x as [|a x]; [apply fin_ret|].
    apply fin_bind; [apply fin_bubble_pass; assumption|]. intros [l' sw]. destruct sw; apply fin_ret.
  - intros f x s1 x' s1' (Px & I1) E. unfold bubble_body in E. destruct x as [|a x]; [discriminate|].
    unfold bind in E. destruct (bubble_pass c w a x s1) as [[[l1 sw] s2]| |] eqn:Ep; try discriminate.
    destruct sw; [|discriminate]. injection E as <- <-. inversion Px; subst. apply bubble_pass_swaps in Ep; auto.
    destruct Ep as (log & Rn & H & I2 & F2). split; [auto|]. apply (swap_run_inversions q total) in Rn.
    specialize (H eq_refl). destruct log; [contradiction|]. cbn [length] in Rn. cbv beta. lia.
  - auto.
Qed.
End BubbleHalt.

(** ** The measure *)
Section Pay.
Context (eds : bid -> list edge) (U : list bid).
Definition rest (s : st) (i : bid) : nat := (length (eds i) - b_cur (bget (s_bounds s) i))%nat.
Fixpoint total (h : bid -> nat) (l : list bid) : nat := match l with [] => O | i :: l' => (h i + total h l')%nat end.
Definition pot (s : st) : nat := total (rest s) U.
Definition cap : nat := total (fun i => length (eds i)) U.
Definition work (s : st) : nat := (length (s_scan s) + pot s)%nat.
Lemma total_le h h' l : (forall i, (h i <= h' i)%nat) -> (total h l <= total h' l)%nat.
Proof. intros H. induction l as [|i l IH]; cbn; [lia|]. specialize (H i). lia. Qed.
Lemma total_lt h h' l i : (forall i, (h i <= h' i)%nat) -> In i l -> (h i < h' i)%nat -> (total h l < total h' l)%nat.
Proof.
  intros H J L. induction l as [|j l IH]; [destruct J|]. cbn. pose proof (H j). pose proof (total_le h h' l H).
  destruct J as [->|J]; [lia|]. specialize (IH J). lia.
Qed.
Lemma total_ext h h' l : (forall i, h i = h' i) -> total h l = total h' l.
Proof. intros H. induction l as [|i l IH]; cbn; congruence. Qed.
Lemma pot_cap s : (pot s <= cap)%nat.
Proof. apply total_le. intros i. unfold rest. lia. Qed.

Lemma insort_length l v : (length (insort_unique l v) <= Datatypes.S (length l))%nat.
Proof.
  unfold insort_unique, list_insert. repeat match goal with |- context [match ?x with _ => _ end] => destruct x end;
    rewrite ?app_length; cbn; rewrite ?firstn_length, ?skipn_length; lia.
Qed.
(** nothing is added to what is left to do *)
Definition still (s s' : st) : Prop := (forall i, b_edges (bget (s_bounds s') i) = b_edges (bget (s_bounds s) i) /\
  b_cur (bget (s_bounds s') i) = b_cur (bget (s_bounds s) i)) /\ s_scan s' = s_scan s.
#[export] Instance still_pre : PreOrd still.
Proof.
  split; [intros s; split; [split|]; reflexivity|]. intros a b d (H1 & E1) (H2 & E2). split; [|congruence].
  intros i. destruct (H1 i), (H2 i). split; congruence.
Qed.
Definition pay (s s' : st) : Prop := stat eds s -> stat eds s' /\ (pot s' <= pot s)%nat /\ (work s' <= work s)%nat /\
  (StronglySorted Z.le (s_scan s) -> StronglySorted Z.le (s_scan s') /\ incl (s_scan s) (s_scan s')).
#[export] Instance pay_pre : PreOrd pay.
Proof.
  split; unfold pay; [intros; split; [assumption|split; [lia|split; [lia|]]]; intros; split; [assumption|apply incl_refl]|].
  intros a b d H1 H2 H. destruct (H1 H) as (Sb & Pb & Wb & Ib). destruct (H2 Sb) as (Sd & Pd & Wd & Id).
  split; [exact Sd|]. split; [lia|]. split; [lia|]. intros So. destruct (Ib So) as (So1 & I1). destruct (Id So1) as (So2 & I2).
  split; [exact So2|]. eapply incl_tran; eassumption.
Qed.
Lemma still_pot s s' : still s s' -> pot s' = pot s.
Proof. intros (H & _). apply total_ext. intros i. unfold rest. destruct (H i) as (_ & ->). reflexivity. Qed.
Lemma still_stat s s' : still s s' -> stat eds s -> stat eds s'.
Proof. intros (H & _) St i. destruct (H i) as (-> & _). apply St. Qed.
Lemma still_pay s s' : still s s' -> pay s s'.
Proof.
  intros H St. split; [eapply still_stat; eassumption|]. pose proof (still_pot _ _ H) as Ep. destruct H as (_ & Es).
  unfold work. rewrite Es, Ep. split; [lia|]. split; [lia|]. intros So. split; [exact So|apply incl_refl].
Qed.
Lemma pay_still {A} (m : prog A) : pres still m -> pres pay m.
Proof. apply pres_mono. apply still_pay. Qed.
Lemma quiet_still s s' : quiet s s' -> still s s'.
Proof.
  intros (_ & Es & _ & _ & H). split; [|exact Es]. intros i. specialize (H i). unfold qcore in H. split; congruence.
Qed.
#[export] Instance still_sweep : SweepRel still.
Proof. split; [apply still_pre|]. intros s s' (E&E1&E2&E3&E4). split; [|congruence]. intros i. rewrite E. auto. Qed.
Lemma still_quiet {A} (m : prog A) : pres quiet m -> pres still m.
Proof. apply pres_mono. apply quiet_still. Qed.
Lemma sl_upd_bound i f : (forall b, b_edges (f b) = b_edges b /\ b_cur (f b) = b_cur b) -> pres still (upd_bound i f).
Proof.
  intros H. apply pres_modify. intros s. split; [|reflexivity]. intros j. cbn. rewrite bget_hset.
  destruct (Pos.eqb_spec i j) as [->|_]; [apply H|auto].
Qed.
Lemma sl_modify f : (forall s, s_bounds (f s) = s_bounds s /\ s_scan (f s) = s_scan s) -> pres still (modify f).
Proof. intros H. apply pres_modify. intros s. destruct (H s) as (B & E). split; [|exact E]. intros j. rewrite B. auto. Qed.
End Pay.
#[export] Hint Resolve still_pre still_sweep pay_pre : pres.
Ltac sl_prim := first [apply sl_upd_bound; intros; split; reflexivity
                      |apply sl_modify; intros; split; reflexivity].
Ltac sl_auto := repeat first [progress pres_step | sl_prim].
Ltac sl f := intros; unfold f; sl_auto.
Lemma sl_bd i : pres still (bd i). Proof. sl bd. Qed.
Lemma sl_current_edge i : pres still (current_edge i). Proof. sl current_edge. Qed.
Lemma sl_abl_get k : pres still (abl_get k). Proof. sl abl_get. Qed.
#[export] Hint Resolve sl_bd sl_current_edge sl_abl_get : pres.
Lemma sl_abl_bound k : pres still (abl_bound k). Proof. sl abl_bound. Qed.
Lemma sl_abl_set k o : pres still (abl_set k o). Proof. sl abl_set. Qed.
Lemma sl_push p : pres still (push_hp p). Proof. sl push_hp. Qed.
Lemma sl_compact : pres still abl_compact. Proof. sl abl_compact. Qed.
Lemma sl_ids : pres still abl_ids. Proof. intros s a s' E. apply ids_run in E. destruct E as (_ & ->). apply R_refl. Qed.
#[export] Hint Resolve sl_abl_bound sl_abl_set sl_push sl_compact sl_ids : pres.
Lemma sl_update_x y : pres still (update_current_x y). Proof. sl update_current_x. Qed.
Lemma sl_compare i j : pres still (intersection_compare i j).
Proof. intros s a s' E. apply compare_run in E. subst s'. apply R_refl. Qed.
Lemma sl_hp_swap i j : pres still (hot_pixels_on_swap i j). Proof. sl hot_pixels_on_swap. Qed.
#[export] Hint Resolve sl_update_x sl_compare sl_hp_swap : pres.
Lemma sl_insert_abl l r : pres still (insert_bound_into_abl l r). Proof. sl insert_bound_into_abl. Qed.
#[export] Hint Resolve sl_insert_abl : pres.
Lemma sl_shift y d i idx : forall k, pres still (shift_bound y d i k idx).
Proof. induction idx; intros k; cbn [shift_bound]; sl_auto. Qed.
#[export] Hint Resolve sl_shift : pres.
Lemma sl_hor y k : pres still (horizontals_at_top_scanbeam y k). Proof. sl horizontals_at_top_scanbeam. Qed.
#[export] Hint Resolve sl_hor : pres.
