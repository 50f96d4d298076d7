(** * [sort_hot_pixels] (ring_manager.py:2052-2055, 2067-2068) *)
From Coq Require Import ZArith List Bool Lia Permutation Sorting.Sorted FMapPositive.
From RecordUpdate Require Import RecordSet.
From Verif Require Import Py Monad Utils Spec Geometry LinearRingM BoundM LocalMinimumM StateM
     PointNodeM RingM SweepM QuickP ListP MiscP.
Import ListNotations RecordSetNotations.
Local Open Scope Z_scope.

(** the order of hot pixels: y descending, then x ascending *)
Definition pixel_lt (a b : point) : Prop := py b < py a \/ py b = py a /\ px a < px b.
Definition pixel_le (a b : point) : Prop := py b < py a \/ py b = py a /\ px a <= px b.

Lemma compare_pixel_le a b : hot_pixels_compare b a = true <-> pixel_le a b.
Proof.
  unfold hot_pixels_compare, pixel_le.
  rewrite orb_true_iff, andb_true_iff, Z.gtb_lt, Z.eqb_eq, Z.geb_le. lia.
Qed.
Lemma pixel_le_lt a b : pixel_le a b -> a <> b -> pixel_lt a b.
Proof.
  unfold pixel_le, pixel_lt. destruct a, b; cbn. intros [H|[H1 H2]] Hn; [now left|].
  right. split; [exact H1|]. subst. destruct (Z.eq_dec px px0); [congruence|lia].
Qed.
Lemma pixel_lt_le_trans a b c : pixel_lt a b -> pixel_le b c -> pixel_lt a c.
Proof. unfold pixel_lt, pixel_le. lia. Qed.

Lemma groupby_go_in key l x : In x (groupby_go key l) -> In x l.
Proof.
  revert key. induction l as [|q l IH]; intros key; cbn; [tauto|].
  destruct (point_eqb key q); cbn; intros H; [right; eapply IH; exact H|].
  destruct H; [now left|right; eapply IH; exact H].
Qed.
Lemma groupby_go_in2 key l x : In x l -> x = key \/ In x (groupby_go key l).
Proof.
  revert key. induction l as [|q l IH]; intros key; cbn; [tauto|].
  destruct (point_eqb_spec key q) as [<-|Hn]; intros [H|H].
  - left. congruence.
  - now apply IH.
  - right. now left.
  - right. destruct (IH q H) as [->|H']; [now left|now right].
Qed.
Lemma groupby_go_sorted key l :
  StronglySorted pixel_le l -> Forall (pixel_le key) l ->
  StronglySorted pixel_lt (groupby_go key l) /\ Forall (pixel_lt key) (groupby_go key l).
Proof.
  revert key. induction l as [|q l IH]; intros key Hs Hf; cbn; [split; constructor|].
  inversion Hs as [|? ? Hs' Hq]; subst. inversion Hf as [|? ? Hkq Hf']; subst.
  destruct (point_eqb_spec key q) as [<-|Hn]; [now apply IH|].
  destruct (IH q Hs' Hq) as [H1 H2]. split; [now constructor|].
  assert (Hlt : pixel_lt key q) by now apply pixel_le_lt.
  constructor; [exact Hlt|]. eapply Forall_impl; [|exact H2].
  intros a Ha. eapply pixel_lt_le_trans; [exact Hlt|]. unfold pixel_lt, pixel_le in *. lia.
Qed.

Lemma sort_hot_pixels_spec fuel s : (3 ^ length (s_hp s) < fuel)%nat ->
  exists hp', sort_hot_pixels fuel s = Ok (tt, s <| s_hp := hp' |>) /\
    (forall p, In p hp' <-> In p (s_hp s)) /\ StronglySorted pixel_lt hp'.
Proof.
  intros Hf.
  destruct (quicksort_sorts hot_pixels_compare) with (l := s_hp s) (fuel := fuel)
    as (l & E & Hp & Hs); auto.
  - intros a b. rewrite !compare_pixel_le. unfold pixel_le. lia.
  - intros a b c. rewrite !compare_pixel_le. unfold pixel_le. lia.
  - exists (groupby l). split; [|split].
    + unfold sort_hot_pixels, bind, gets, lift. now rewrite E.
    + intros p. assert (Hl : In p l <-> In p (s_hp s)).
      { split; apply Permutation_in; [now symmetry|exact Hp]. }
      rewrite <- Hl. destruct l as [|q l]; cbn; [tauto|]. split.
      * intros [H|H]; [now left|right; eapply groupby_go_in; exact H].
      * intros [H|H]; [now left|]. destruct (groupby_go_in2 q l p H); [left; congruence|now right].
    + assert (Hs' : StronglySorted pixel_le l).
      { clear - Hs. induction Hs as [|a l Hs IH F]; constructor; [exact IH|].
        eapply Forall_impl; [|exact F]. intros b. apply compare_pixel_le. }
      destruct l as [|q l]; cbn; [constructor|]. inversion Hs'; subst.
      destruct (groupby_go_sorted q l) as [A B]; auto. now constructor.
Qed.
