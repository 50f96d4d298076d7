(** * [process_intersections] keeps the active list right and leaves it sorted *)
From Coq Require Import ZArith List Bool Lia FMapPositive Permutation.
From Coq Require Import Floats.SpecFloat.
From RecordUpdate Require Import RecordSet.
From Verif Require Import Py Monad Utils Geometry LinearRingM BoundM LocalMinimumM
     StateM PointNodeM RingM SweepM Spec SortP ListP OrderP HoareP SweepFrameP SpecSweep SpecActive WindingP CalmP WindingInvP.
Import ListNotations RecordSetNotations.
Open Scope Z_scope.

(** ** Lists *)
Lemma upd_middle {A} (l : list A) : forall a b m, upd (l ++ a :: m) (length l) b = l ++ b :: m.
Proof. induction l as [|x l IH]; intros a b m; cbn; [reflexivity|]. rewrite IH. reflexivity. Qed.
Lemma upd_length {A} (l : list A) : forall k b, length (upd l k b) = length l.
Proof. induction l as [|x l IH]; intros [|k] b; cbn; auto. Qed.
Lemma nth_error_middle {A} (l : list A) a m : nth_error (l ++ a :: m) (length l) = Some a.
Proof. rewrite nth_error_app2, Nat.sub_diag by lia. reflexivity. Qed.
Lemma nth_res_middle {A} (l : list A) a m : nth_res (l ++ a :: m) (length l) = Ok a.
Proof. unfold nth_res. rewrite nth_error_middle. reflexivity. Qed.
Lemma nth_res_Ok {A} (l : list A) k a : nth_res l k = Ok a <-> nth_error l k = Some a.
Proof. unfold nth_res. destruct (nth_error l k); split; congruence. Qed.
Lemma nth_res_split {A} (l : list A) k a : nth_res l k = Ok a ->
  exists l1 l2, l = l1 ++ a :: l2 /\ length l1 = k.
Proof. rewrite nth_res_Ok. apply nth_error_split. Qed.
Lemma somes_app l m : somes_of (l ++ m) = somes_of l ++ somes_of m.
Proof. apply flat_map_app. Qed.
Lemma somes_map l : somes_of (map Some l) = l.
Proof. induction l as [|i l IH]; cbn; [reflexivity|]. f_equal. exact IH. Qed.

Lemma abl_set_at s A a B o : s_abl s = A ++ a :: B ->
  abl_set (length A) o s = Ok (tt, s <| s_abl := A ++ o :: B |>).
Proof.
  intros E. unfold abl_set, bind, gets. rewrite E. rewrite app_length. cbn [length].
  destruct (Nat.ltb_spec (length A) (length A + S (length B))); [|lia].
  unfold modify. rewrite upd_middle. reflexivity.
Qed.
Lemma abl_get_at s A a B : s_abl s = A ++ a :: B -> abl_get (length A) s = Ok (a, s).
Proof. intros E. unfold abl_get, bind, gets. rewrite E. unfold lift. rewrite nth_res_middle. reflexivity. Qed.
Lemma abl_swap_at s A a B b C : s_abl s = A ++ a :: B ++ b :: C ->
  abl_swap (length A) (S (length A + length B)) s
  = Ok (tt, s <| s_abl := A ++ b :: B ++ a :: C |>).
Proof.
  intros E. unfold abl_swap. unfold bind at 1. rewrite (abl_get_at _ _ _ _ E).
  assert (E2 : s_abl s = (A ++ a :: B) ++ b :: C) by (rewrite E, <- app_assoc; reflexivity).
  assert (L2 : S (length A + length B) = length (A ++ a :: B)) by (rewrite app_length; cbn; lia).
  unfold bind at 1. rewrite L2, (abl_get_at _ _ _ _ E2).
  unfold bind at 1. rewrite (abl_set_at s A a (B ++ b :: C) b E).
  assert (L3 : length (A ++ a :: B) = length (A ++ b :: B)) by (rewrite !app_length; reflexivity).
  rewrite L3, (abl_set_at _ (A ++ b :: B) b C a).
  - rewrite <- app_assoc. destruct s. reflexivity.
  - cbn. rewrite <- app_assoc. reflexivity.
Qed.

(** ** The frame of [update_current_x] *)
Definition steady (s s' : st) : Prop := s_abl s' = s_abl s /\ forall i, same_counts s s' i.
#[export] Instance steady_pre : PreOrd steady.
Proof.
  split; [intros s; repeat split|]. intros s1 s2 s3 (A1 & H1) (A2 & H2).
  split; [congruence|]. intros i. specialize (H1 i). specialize (H2 i). unfold same_counts in *. intuition congruence.
Qed.
#[export] Instance steady_sweep : SweepRel steady.
Proof.
  split; [apply steady_pre|]. intros s s' (E&E1&E2&E3&E4). split; [congruence|].
  intros i. unfold same_counts, has_ring. rewrite E. auto.
Qed.
#[export] Hint Resolve steady_pre steady_sweep : pres.
Lemma sd_upd_bound i f : (forall b, sig (f b) = sig b /\ b_wc (f b) = b_wc b /\ b_owc (f b) = b_owc b
     /\ is_some (b_ring (f b)) = is_some (b_ring b)) -> pres steady (upd_bound i f).
Proof.
  intros H. apply pres_modify. intros s. split; [reflexivity|]. intros j. unfold same_counts, has_ring. cbn.
  rewrite bget_hset. destruct (Pos.eqb_spec i j) as [->|_]; [apply H|auto].
Qed.
Lemma sd_modify f : (forall s, s_abl (f s) = s_abl s /\ s_bounds (f s) = s_bounds s) -> pres steady (modify f).
Proof.
  intros H. apply pres_modify. intros s. destruct (H s) as (E & B). split; [exact E|].
  intros j. unfold same_counts, has_ring. rewrite B. auto.
Qed.
Ltac sd_prim := first [apply sd_upd_bound; intros; repeat split; reflexivity
                      |apply sd_modify; intros; split; reflexivity].
Ltac sd_auto := repeat first [progress pres_step | sd_prim].
Ltac sd f := intros; unfold f; sd_auto.
Lemma sd_calm_ring {A} (m : prog A) : pres calm_ring m -> pres steady m.
Proof.
  apply pres_mono. intros s s' C. split; [apply C|]. intros i. apply calm_ring_same. exact C.
Qed.
Lemma sd_bd i : pres steady (bd i). Proof. sd bd. Qed.
Lemma sd_current_edge i : pres steady (current_edge i). Proof. sd current_edge. Qed.
Lemma sd_next_edge i : pres steady (next_edge i). Proof. sd next_edge. Qed.
#[export] Hint Resolve sd_bd sd_current_edge sd_next_edge : pres.
Lemma sd_update_current_x y : pres steady (update_current_x y). Proof. sd update_current_x. Qed.
Lemma sd_insort y : pres steady (insort_scan y). Proof. sd insort_scan. Qed.
#[export] Hint Resolve sd_update_current_x sd_insort : pres.
Lemma sd_to_next_edge i : pres steady (to_next_edge i). Proof. sd to_next_edge. Qed.
#[export] Hint Resolve sd_to_next_edge : pres.

Lemma steady_active op sfk cfk s s' : steady s s' -> active_right op sfk cfk s -> active_right op sfk cfk s'.
Proof.
  intros (A & H). apply active_right_frame; [exact H|]. unfold live. rewrite A. reflexivity.
Qed.

(** programs that only read *)
Definition unchanged (s s' : st) : Prop := s' = s.
#[export] Instance unchanged_pre : PreOrd unchanged.
Proof. split; unfold unchanged; congruence. Qed.
#[export] Hint Resolve unchanged_pre : pres.
Lemma un_bd i : pres unchanged (bd i). Proof. unfold bd. pres_auto. Qed.
#[export] Hint Resolve un_bd : pres.
Lemma un_current_edge i : pres unchanged (current_edge i). Proof. unfold current_edge. pres_auto. Qed.
#[export] Hint Resolve un_current_edge : pres.
Lemma un_in_lt a b : pres unchanged (in_lt a b). Proof. unfold in_lt. pres_auto. Qed.
Lemma un_intersection_compare a b : pres unchanged (intersection_compare a b).
Proof. unfold intersection_compare. pres_auto. Qed.
#[export] Hint Resolve un_in_lt un_intersection_compare : pres.
Lemma un_py_sort l : pres unchanged (py_sort in_lt l). Proof. pres_auto. Qed.

Lemma abl_ids_Ok s ids s' : abl_ids s = Ok (ids, s') -> s' = s /\ s_abl s = map Some ids.
Proof.
  unfold abl_ids, bind, gets. intros H. apply lift_Ok in H. destruct H as (H & ->). split; [reflexivity|].
  revert ids H. generalize (s_abl s). induction l as [|[i|] l IH]; intros ids H; try discriminate.
  - injection H as <-. reflexivity.
  - cbn in H.
    match type of H with context [rbind ?m _] => destruct m as [r| |] eqn:E; cbn in H; try discriminate end.
    injection H as <-. cbn. f_equal. apply IH. reflexivity.
Qed.

(** ** The list of crossings *)
(** the comparator of the scan line: to the left, or parallel *)
Definition in_place (s : st) (i j : bid) : bool :=
  match intersection_compare i j s with Ok (b, _) => b | _ => true end.
Definition x_ordered (s : st) : Prop := forall i j,
  In i (live s) -> In j (live s) ->
  num_leb (b_cx (bget (s_bounds s) i)) (b_cx (bget (s_bounds s) j)) = true \/
  num_leb (b_cx (bget (s_bounds s) j)) (b_cx (bget (s_bounds s) i)) = true.
Lemma in_place_asym s i j : x_ordered s -> In i (live s) -> In j (live s) ->
  in_place s i j = false -> in_place s j i = true.
Proof.
  intros X Hi Hj H. unfold in_place, intersection_compare, bind, bd, gets in *.
  destruct (num_leb (b_cx (bget (s_bounds s) i)) (b_cx (bget (s_bounds s) j))) eqn:E; [discriminate|].
  destruct (X i j Hi Hj) as [E'|E']; [congruence|]. rewrite E'. reflexivity.
Qed.
Definition pair_of (n : intersect_node) : bid * bid := (in_first n, in_second n).

Lemma build_intersect_list_spec fuel s l s' : build_intersect_list fuel s = Ok (l, s') ->
  s' = s /\ exists ids sorted, s_abl s = map Some ids /\
    swap_run (in_place s) ids (map pair_of l) sorted /\ adjacent_ok (in_place s) sorted.
Proof.
  unfold build_intersect_list. destruct (abl_ids s) as [[ids s0]| |] eqn:Ei; try discriminate.
  apply abl_ids_Ok in Ei. destruct Ei as (-> & Ei).
  match goal with |- context [bubble_sort ?c ?w fuel ids []] => set (cmp := c); set (sw := w) end.
  destruct (bubble_sort cmp sw fuel ids []) as [[sorted log]| |] eqn:Eb; try discriminate.
  intros H. injection H as <- <-. split; [reflexivity|]. exists ids, sorted. split; [exact Ei|].
  apply (bubble_sort_log cmp sw (in_place s) (map pair_of)) in Eb.
  - destruct Eb as (lg & -> & H). cbn. exact H.
  - clear. intros a b acc r acc'. unfold cmp, in_place. destruct (intersection_compare a b s) as [[r0 ?]| |]; try discriminate.
    intros E. injection E as <- <-. auto.
  - clear. intros a b acc u acc'. unfold sw.
    match goal with |- context [match ?m with _ => _ end] => destruct m as [[[q|] ?]| |] end; try discriminate.
    intros E. injection E as <- <-. rewrite map_app. reflexivity.
Qed.

(** ** The adjacency test *)
Lemma adjacent_at_spec ids n k : NoDup ids -> before ids (in_first n) (in_second n) ->
  adjacent_at (map Some ids) n = Ok (k, true) ->
  exists l1 l2, ids = l1 ++ in_first n :: in_second n :: l2 /\ length l1 = k.
Proof.
  intros N B H. unfold adjacent_at in H.
  destruct (nth_res (map Some ids) (S (find_if (has_bound n) (map Some ids)))) as [o| |] eqn:Eo; try discriminate.
  cbn in H. injection H as Hk Ho.
  destruct (find_if_spec (has_bound n) (map Some ids)) as (Fl & _ & Fs).
  rewrite Hk in *. apply nth_res_Ok in Eo.
  assert (Ek : exists a, nth_error (map Some ids) k = Some a).
  { destruct (nth_error (map Some ids) k) eqn:E; [eauto|]. apply nth_error_None in E.
    assert (nth_error (map Some ids) (S k) <> None) by congruence. apply nth_error_Some in H. lia. }
  destruct Ek as (a & Ea). specialize (Fs _ Ea).
  rewrite nth_error_map in Ea, Eo.
  destruct (nth_error ids k) as [x|] eqn:Ex; [|discriminate]. injection Ea as <-.
  destruct (nth_error ids (S k)) as [y|] eqn:Ey; [|discriminate]. injection Eo as <-.
  apply nth_error_split in Ex. destruct Ex as (l1 & m & -> & Lk).
  rewrite nth_error_app2 in Ey by lia. rewrite Lk in Ey. replace (S k - k)%nat with 1%nat in Ey by lia.
  destruct m as [|y' l2]; [discriminate|]. injection Ey as ->.
  assert (Hx : x = in_first n \/ x = in_second n).
  { unfold has_bound, opt_is in Fs. apply orb_prop in Fs. destruct Fs as [F|F]; apply Pos.eqb_eq in F; auto. }
  assert (Hy : y = in_first n \/ y = in_second n).
  { unfold has_bound, opt_is in Ho. apply orb_prop in Ho. destruct Ho as [F|F]; apply Pos.eqb_eq in F; auto. }
  assert (Nxy : x <> y).
  { intros ->. apply NoDup_remove_2 in N. apply N. apply in_or_app. right. left. reflexivity. }
  assert (Bxy : before (l1 ++ x :: y :: l2) x y) by (exists l1, [], l2; reflexivity).
  exists l1, l2. split; [|exact Lk].
  destruct Hx as [->| ->], Hy as [->| ->]; try congruence.
  exfalso. exact (before_asym _ _ _ N B Bxy).
Qed.
Lemma find_adjacent_spec abl l : forall pos p k, find_adjacent abl l pos = Ok (Some (p, k)) ->
  exists m, (p >= pos)%nat /\ nth_error l (p - pos) = Some m /\ adjacent_at abl m = Ok (k, true).
Proof.
  induction l as [|n l IH]; intros pos p k H; cbn [find_adjacent] in H; [discriminate|].
  destruct (adjacent_at abl n) as [[k' ok]| |] eqn:E; try discriminate. cbn in H. destruct ok.
  - injection H as <- <-. exists n. rewrite Nat.sub_diag. auto.
  - apply IH in H. destruct H as (m & Hp & Hm & Ha). exists m. split; [lia|].
    split; [|exact Ha]. replace (p - pos)%nat with (S (p - S pos)) by lia. exact Hm.
Qed.
Lemma upd_perm {A} (l : list A) : forall pos m n, nth_error l pos = Some m ->
  Permutation (n :: l) (m :: upd l pos n).
Proof.
  induction l as [|x l IH]; intros [|pos] m n H; cbn in *; try discriminate.
  - injection H as ->. apply perm_swap.
  - rewrite perm_swap, (IH pos m n H). apply perm_swap.
Qed.

Section Process.
Context (fuel : nat) (op : operation_kind) (sfk cfk : fill_kind).
Notation active_right := (active_right op sfk cfk).
Notation list_right := (list_right op sfk cfk).

Lemma process_intersect_list_spec count : forall l ids s u s',
  length l = count ->
  s_abl s = map Some ids -> NoDup ids -> list_right s ids ->
  NoDup (map pair_of l) ->
  (forall a b, In (a, b) (map pair_of l) -> before ids a b) ->
  process_intersect_list fuel op sfk cfk l count s = Ok (u, s') ->
  exists ids' log, s_abl s' = map Some ids' /\ Permutation (map pair_of l) log /\
    flips_run ids log ids' /\ NoDup ids' /\ list_right s' ids' /\
    (forall i, qcore (bget (s_bounds s') i) = qcore (bget (s_bounds s) i)).
Proof.
  induction count as [|count IH]; intros l ids s u s' Lc Ea N L Np B H.
  { destruct l; [|discriminate]. apply ret_Ok in H. destruct H as (_ & ->).
    exists ids, []. split; [exact Ea|]. split; [constructor|]. split; [apply flips_done|]. auto. }
  destruct l as [|n rest]; [discriminate|]. cbn [process_intersect_list] in H.
  inv_bind H abl s0 E0. apply gets_Ok in E0. destruct E0 as (-> & ->).
  inv_bind H ka s0 E0. apply lift_Ok in E0. destruct E0 as (E0 & ->). rewrite Ea in E0.
  destruct ka as [k ok]. cbv beta iota zeta in H. inv_bind H c s0 E1.
  assert (Sel : s0 = s /\ exists m rest' k', c = (m, rest', k') /\ Permutation (n :: rest) (m :: rest') /\
                 adjacent_at (map Some ids) m = Ok (k', true)).
  { destruct ok.
    - apply ret_Ok in E1. destruct E1 as (-> & ->). split; [reflexivity|]. exists n, rest, k.
      repeat split; auto.
    - inv_bind E1 f s1 E2. apply lift_Ok in E2. destruct E2 as (E2 & ->).
      destruct f as [[pos k']|]; [|discriminate]. rewrite Ea in E2. apply find_adjacent_spec in E2.
      destruct E2 as (m & _ & Hm & Ha). rewrite Nat.sub_0_r in Hm.
      inv_bind E1 m' s1 E3. apply lift_Ok in E3. destruct E3 as (E3 & ->). apply nth_res_Ok in E3.
      assert (m' = m) by congruence. subst m'. apply ret_Ok in E1. destruct E1 as (-> & ->).
      split; [reflexivity|]. exists m, (upd rest pos n), k'. split; [reflexivity|]. split; [|exact Ha].
      apply upd_perm. exact Hm. }
  destruct Sel as (-> & m & rest' & k' & -> & P & Ad). clear E1 E0 ok k.
  cbv beta iota zeta in H.
  assert (Pp : Permutation (map pair_of (n :: rest)) (map pair_of (m :: rest'))) by (apply Permutation_map; exact P).
  assert (Np' : NoDup (map pair_of (m :: rest'))) by (eapply Permutation_NoDup; eassumption).
  assert (B' : forall a b, In (a, b) (map pair_of (m :: rest')) -> before ids a b).
  { intros a b Hab. apply B. eapply Permutation_in; [symmetry; exact Pp|exact Hab]. }
  destruct (adjacent_at_spec ids m k' N (B' _ _ (or_introl eq_refl)) Ad) as (l1 & l2 & Ei & Lk).
  inv_bind H p s1 E2. apply lift_Ok in E2. destruct E2 as (_ & ->).
  inv_bind H u1 s1 E3. rewrite Ei in L, N.
  apply (intersect_bounds_right op sfk cfk) with (l1 := l1) (l2 := l2) in E3; [|assumption..].
  destruct E3 as (Q & L'). set (i := in_first m) in *. set (j := in_second m) in *.
  inv_bind H u2 s2 E4.
  assert (Ea1 : s_abl s1 = map Some l1 ++ Some i :: [] ++ Some j :: map Some l2).
  { destruct Q as (-> & _). rewrite Ea, Ei, map_app. reflexivity. }
  assert (Lk' : S k' = S (length (map Some l1) + length (@nil (option bid))))
    by (rewrite map_length; cbn; lia).
  assert (Lk2 : k' = length (map (@Some bid) l1)) by (rewrite map_length; auto).
  rewrite Lk', Lk2, (abl_swap_at _ _ _ _ _ _ Ea1) in E4. injection E4 as _ <-.
  assert (N2 : NoDup (l1 ++ j :: i :: l2)).
  { eapply Permutation_NoDup; [|exact N]. apply Permutation_app_head, perm_swap. }
  assert (NoRev : forall a b, In (a, b) (map pair_of rest') -> before (l1 ++ j :: i :: l2) a b).
  { intros a b Hab. apply (before_swap Pos.eq_dec l1 i j l2 a b N). left. split.
    - pose proof (B' a b (or_intror Hab)) as Bab. rewrite Ei in Bab. exact Bab.
    - intros E. injection E as -> ->. cbn [map] in Np'. apply NoDup_cons_iff in Np'. apply (proj1 Np'). exact Hab. }
  apply (IH rest' (l1 ++ j :: i :: l2)) in H.
  - destruct H as (ids' & log & H1 & H2 & H3 & H4 & H5 & H6). exists ids', ((i, j) :: log).
    split; [exact H1|]. split; [rewrite Pp; cbn [map]; apply perm_skip; exact H2|].
    split; [rewrite Ei; constructor; exact H3|]. split; [exact H4|]. split; [exact H5|].
    intros x. rewrite H6. cbn. apply Q.
  - apply Permutation_length in P. cbn in P, Lc. lia.
  - cbn. rewrite map_app. reflexivity.
  - exact N2.
  - apply (list_right_frame op sfk cfk s1); [|exact L']. intros x. unfold same_counts, has_ring. cbn. auto.
  - cbn [map] in Np'. apply NoDup_cons_iff in Np'. apply Np'.
  - exact NoRev.
Qed.

(** the state in which the crossings are looked for *)
Definition positions_comparable (y : Z) (s : st) : Prop :=
  forall s1 u, update_current_x y s = Ok (u, s1) -> x_ordered s1.

Lemma in_place_frame s s' : (forall i, qcore (bget (s_bounds s') i) = qcore (bget (s_bounds s) i)) ->
  forall i j, in_place s' i j = in_place s i j.
Proof.
  intros Q i j. unfold in_place, intersection_compare, bind, bd, gets, lift, cur_edge_of.
  pose proof (Q i) as Qi. pose proof (Q j) as Qj. unfold qcore in Qi, Qj.
  injection Qi as E1 E2 _ E3 _ _ _ _. injection Qj as F1 F2 _ F3 _ _ _ _.
  rewrite E1, E2, E3, F1, F2, F3.
  destruct (num_leb _ _); [reflexivity|]. destruct (nth_res _ _); [|reflexivity..].
  destruct (nth_res _ _); reflexivity.
Qed.

Theorem process_intersections_right y s s' u :
  active_right s -> positions_comparable y s ->
  process_intersections fuel op sfk cfk y s = Ok (u, s') ->
  active_right s' /\ exists ids', s_abl s' = map Some ids' /\ Permutation (live s) ids' /\
    adjacent_ok (in_place s') ids'.
Proof.
  intros A X H. unfold process_intersections in H. inv_bind H abl s0 E0. apply gets_Ok in E0.
  destruct E0 as (-> & ->). destruct (s_abl s) as [|o abl] eqn:Ea.
  { apply ret_Ok in H. destruct H as (_ & ->). split; [exact A|]. exists [].
    unfold live. rewrite Ea. repeat split; constructor. }
  clear Ea o abl. inv_bind H u1 s1 E1. specialize (X _ _ E1).
  pose proof (sd_update_current_x _ _ _ _ E1) as Sd.
  apply (steady_active op sfk cfk) in Sd as A1; [|exact A].
  assert (Lv : live s = live s1) by (unfold live; destruct Sd as (-> & _); reflexivity). rewrite Lv. clear E1 Lv Sd A s.
  inv_bind H l s0 E2. apply build_intersect_list_spec in E2. destruct E2 as (-> & ids & sorted & Ei & R & Ad).
  destruct A1 as (N & L). unfold live in *. rewrite Ei, somes_map in *.
  destruct (swap_flips _ _ _ _ R) as (F & Cf).
  assert (Inl : forall a b, In (a, b) (map pair_of l) -> In a ids /\ In b ids).
  { clear -R. intros a b. remember (map pair_of l) as log eqn:El. clear El. induction R as [|pre c d post lg l' Hc R IH]; [intros []|].
    assert (Pm : forall x, In x (pre ++ d :: c :: post) -> In x (pre ++ c :: d :: post)).
    { intros x. apply Permutation_in, Permutation_app_head, perm_swap. }
    intros [E|Hab]; [injection E as <- <-; split; apply in_or_app; right; cbn; auto|].
    destruct (IH Hab). auto. }
  assert (NR : forall a b, In (a, b) (map pair_of l) -> ~ In (b, a) (map pair_of l)).
  { intros a b Hab Hba. pose proof (Cf _ _ Hab) as C1. pose proof (Cf _ _ Hba) as C2.
    destruct (Inl _ _ Hab) as (Ia & Ib).
    apply in_place_asym in C1; [congruence|exact X|..]; unfold live; rewrite Ei, somes_map; assumption. }
  destruct (flips_order Pos.eq_dec _ _ _ F N NR) as (Nl & Bl & Ol).
  destruct l as [|n0 l0].
  { apply ret_Ok in H. destruct H as (_ & ->). split.
    - split; unfold live; rewrite Ei, somes_map; assumption.
    - exists ids. split; [exact Ei|]. split; [reflexivity|]. inversion R; subst. exact Ad. }
  set (l := n0 :: l0) in *.
  inv_bind H l' s0 E3. pose proof (un_py_sort _ _ _ _ E3) as E4. unfold unchanged in E4. subst s0.
  apply py_sort_perm in E3. apply (Permutation_map pair_of) in E3.
  apply process_intersect_list_spec with (ids := ids) in H; auto.
  - destruct H as (ids' & log & H1 & H2 & H3 & H4 & H5 & H6).
    split; [split; unfold live; rewrite H1, somes_map; assumption|].
    exists ids'. split; [exact H1|]. split; [eapply flips_perm; exact H3|].
    assert (Pl : Permutation (map pair_of l) log) by (rewrite E3; exact H2).
    assert (In_l : forall p, In p log <-> In p (map pair_of l)).
    { intros p. split; apply Permutation_in; [symmetry|]; exact Pl. }
    assert (NR' : forall a b, In (a, b) log -> ~ In (b, a) log).
    { intros a b. rewrite !In_l. apply NR. }
    destruct (flips_order Pos.eq_dec _ _ _ H3 N NR') as (_ & _ & Ol').
    assert (E : sorted = ids').
    { apply before_unique; auto.
      - eapply Permutation_NoDup; [eapply flips_perm; exact F|exact N].
      - apply flips_perm in F, H3. intros x. split; intros Hx; eapply Permutation_in; try exact Hx.
        + rewrite <- F. exact H3.
        + rewrite <- H3. exact F.
      - intros a b Hab. apply Ol in Hab. apply Ol'. rewrite !In_l. exact Hab. }
    subst ids'. clear -Ad H6. unfold adjacent_ok in *. induction Ad; constructor; auto.
    rewrite (in_place_frame _ _ H6). assumption.
  - eapply Permutation_NoDup; eassumption.
  - intros a b Hab. apply Bl. eapply Permutation_in; [symmetry; exact E3|exact Hab].
Qed.
End Process.
