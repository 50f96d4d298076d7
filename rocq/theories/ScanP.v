(** * The scanbeam queue *)
From Coq Require Import ZArith List Bool Lia Permutation Sorting.Sorted FMapPositive.
From RecordUpdate Require Import RecordSet.
From Verif Require Import Py Monad Utils Spec Geometry LinearRingM BoundM LocalMinimumM StateM
     PointNodeM RingM SweepM ListP.
Import ListNotations RecordSetNotations.
Local Open Scope Z_scope.

(** a history of the queue: values [ins] are pushed (each at most the current
    level [y]; strictly below it if [strict]) and values [pops] are popped *)
Inductive scan_history (strict : bool) : st -> Z -> list Z -> list Z -> st -> Z -> Prop :=
| hist_end : forall s y, scan_history strict s y [] [] s y
| hist_push : forall s y v s1 ins pops s2 y2,
    (if strict then v < y else v <= y) ->
    insort_scan v s = Ok (tt, s1) ->
    scan_history strict s1 y ins pops s2 y2 ->
    scan_history strict s y (v :: ins) pops s2 y2
| hist_pop : forall s y v s1 ins pops s2 y2,
    s_scan s <> [] ->
    pop_scanbeam y s = Ok (v, s1) ->
    scan_history strict s1 v ins pops s2 y2 ->
    scan_history strict s y ins (v :: pops) s2 y2.

Lemma last_opt_app {A} (l : list A) x : last_opt (l ++ [x]) = Some x.
Proof. unfold last_opt. now rewrite rev_unit. Qed.
Lemma list_rev_ind_case {A} (l : list A) : l = [] \/ exists l' x, l = l' ++ [x].
Proof. destruct l using rev_ind; [now left|right; eauto]. Qed.
Lemma last_opt_some {A} (l : list A) x : last_opt l = Some x -> l = removelast l ++ [x].
Proof.
  destruct (list_rev_ind_case l) as [->|(l' & z & ->)]; [discriminate|].
  rewrite last_opt_app. intros E; injection E as ->. now rewrite removelast_last.
Qed.
Lemma last_opt_none {A} (l : list A) : last_opt l = None -> l = [].
Proof.
  destruct (list_rev_ind_case l) as [->|(l' & z & ->)]; [reflexivity|].
  now rewrite last_opt_app.
Qed.

Lemma insort_scan_eq v s : insort_scan v s = Ok (tt, s <| s_scan := insort_unique (s_scan s) v |>).
Proof. reflexivity. Qed.
Lemma pop_scan_eq y s l v : s_scan s = l ++ [v] ->
  pop_scanbeam y s = Ok (v, s <| s_scan := l |>).
Proof.
  intros E. unfold pop_scanbeam, bind, gets. rewrite E, last_opt_app.
  unfold modify, ret. now rewrite removelast_last.
Qed.

Lemma last_cons_default {A} (l : list A) a b : last l a = last (a :: l) b.
Proof.
  revert a b. induction l as [|x l IH]; intros a b; [reflexivity|].
  change (last (a :: x :: l) b) with (last (x :: l) b).
  rewrite <- (IH x a). rewrite <- (IH x b). reflexivity.
Qed.
Definition ge_or_gt (strict : bool) (a b : Z) : Prop := if strict then b < a else b <= a.
Definition le_or_lt (strict : bool) (a b : Z) : Prop := if strict then a < b else a <= b.

Lemma scan_history_spec strict s y ins pops s2 y2 :
  scan_history strict s y ins pops s2 y2 ->
  StronglySorted (le_or_lt strict) (s_scan s) ->
  Forall (fun v => le_or_lt strict v y) (s_scan s) ->
  StronglySorted (ge_or_gt strict) (y :: pops) /\
  StronglySorted (le_or_lt strict) (s_scan s2) /\
  Forall (fun v => le_or_lt strict v y2) (s_scan s2) /\
  (forall v, In v pops \/ In v (s_scan s2) <-> In v (s_scan s) \/ In v ins) /\
  y2 = last pops y.
Proof.
  assert (SSle : forall l, StronglySorted (le_or_lt strict) l -> StronglySorted Z.le l).
  { intros l H. destruct strict; [|exact H]. eapply SS_impl; [|exact H]. cbn. lia. }
  induction 1 as [s y|s y v s1 ins pops s2 y2 Hv E H IH|s y v s1 ins pops s2 y2 Hn E H IH]; intros Hs Hf.
  - repeat split; auto; try tauto. constructor; constructor.
  - rewrite insort_scan_eq in E. injection E as <-. cbn in IH.
    destruct IH as (H1 & H2 & H3 & H4 & H5).
    + destruct strict; [now apply insort_unique_sorted_lt|now apply insort_unique_sorted_le].
    + apply Forall_forall. intros x Hx. apply insort_unique_in in Hx; [|auto].
      rewrite Forall_forall in Hf. destruct Hx as [->|Hx]; [destruct strict; exact Hv|now apply Hf].
    + repeat split; auto.
      * intros Hx. apply H4 in Hx. rewrite insort_unique_in in Hx by auto. cbn. intuition.
      * intros Hx. apply H4. rewrite insort_unique_in by auto. cbn in Hx. intuition.
  - destruct (list_rev_ind_case (s_scan s)) as [C|(l & x & C)]; [contradiction|].
    rewrite (pop_scan_eq y s l x C) in E. injection E as -> <-. cbn in IH.
    rewrite C in Hs, Hf. destruct (SS_split _ _ _ Hs) as [Hl _].
    assert (Hlx : forall a, In a l -> le_or_lt strict a v).
    { clear - Hs. induction l as [|b l IH]; cbn in Hs; intros a [].
      - subst. inversion Hs; subst. rewrite Forall_forall in H2. apply H2. apply in_or_app. cbn. auto.
      - inversion Hs; subst. now apply IH. }
    destruct IH as (H1 & H2 & H3 & H4 & H5); [exact Hl|now apply Forall_forall|].
    apply Forall_app in Hf as [_ Hvy]. inversion Hvy as [|? ? Hvy' _]; subst.
    repeat split; auto.
    + constructor; [exact H1|]. constructor; [destruct strict; exact Hvy'|].
      inversion H1 as [|? ? _ F]; subst. eapply Forall_impl; [|exact F]. intros a Ha.
      destruct strict; cbn in *; lia.
    + rewrite C. intros Hx. cbn in Hx. rewrite in_app_iff. cbn. specialize (H4 v0). tauto.
    + rewrite C. rewrite in_app_iff. cbn. intros Hx. specialize (H4 v0). tauto.
    + apply last_cons_default.
Qed.

Lemma scanbeams_of_spec ms :
  Permutation (map lm_y ms) (scanbeams_of ms) /\ StronglySorted Z.le (scanbeams_of ms).
Proof.
  unfold scanbeams_of.
  destruct (pure_sort_spec Z.ltb) with (l := map lm_y ms) as [H1 H2].
  - intros a b. rewrite Z.ltb_lt, Z.ltb_ge. lia.
  - intros a b c. rewrite !Z.ltb_ge. lia.
  - split; [exact H1|]. eapply SS_impl; [|exact H2]. intros a b Hab. unfold le in Hab. apply Z.ltb_ge in Hab. exact Hab.
Qed.
