(** * The collection of the hot pixels always stops *)
From Coq Require Import ZArith List Bool Lia FMapPositive Permutation Sorting.Sorted.
From Coq Require Import Floats.SpecFloat.
From RecordUpdate Require Import RecordSet.
From Verif Require Import Py Monad Utils Spec Geometry LinearRingM BoundM LocalMinimumM
     StateM PointNodeM RingM SweepM SpecBounds HoareP SweepFrameP SpecSweep SpecActive SpecOrigin ListP QuickP SortP ScanP FuelP
     HotPixelP WindingP CalmP WindingInvP VatP IntersectP OriginP FloatP MaximaP PointersP PositionP NumberP PropOrigin HaltP PayP.
Import ListNotations RecordSetNotations.
Open Scope Z_scope.
Local Open Scope m_scope.

Section HotHalt.
Context (eds : bid -> list edge) (Rec : bid -> Prop) (U : list bid).
Hypothesis chain : forall i k e f, Rec i -> nth_error (eds i) k = Some e -> nth_error (eds i) (S k) = Some f ->
  ebot f = etop e /\ (is_horizontal e = true -> is_horizontal f = false).
Hypothesis hor_iff : forall i e, Rec i -> In e (eds i) -> (is_horizontal e = true <-> py (etop e) = py (ebot e)).
Hypothesis HU : forall i, Rec i -> In i U.
Hypothesis Hwm : forall i e, Rec i -> In e (eds i) -> well_made e.
Notation stat := (stat eds).
Notation Inv := (inv eds Rec).
Notation pot := (pot eds U).
Notation work := (work eds U).
Notation cap := (cap eds U).
Notation pay := (pay eds U).

Definition numb (i : bid) (b : bound) : Prop := exists x, b_cx b = NF x /\ f_is_nan x = false.
Lemma positions_num y s u s1 : stat s -> All (rec Rec) s -> update_current_x y s = Ok (u, s1) -> All numb s1.
Proof.
  intros St A E. unfold update_current_x in E. inv_bind E abl s0 E1. apply gets_Ok in E1. destruct E1 as (-> & ->).
  set (abl := s_abl s) in *.
  assert (K : forall l s s', stat s -> All (rec Rec) s -> s_abl s = abl ->
    (forall i, In (Some i) abl -> In (Some i) (map snd l) \/ numb i (bget (s_bounds s) i)) ->
    (forall o, In o (map snd l) -> In o abl) -> forM l (fun '(k, o) =>
     (i <- deref o ;;
      upd_bound i (fun b => b <| b_pos := k |>) ;;
      e <- current_edge i ;;
      x <- lift (get_current_x e y) ;;
      upd_bound i (fun b => b <| b_cx := NF x |>))) s = Ok (u, s') -> All numb s').
  { clear - Hwm. clearbody abl. intros l. induction l as [|[k o] l IH]; intros s0 s' S A Ea D Sub E; cbn [forM] in E.
    - apply ret_Ok in E. destruct E as (_ & ->). intros i I. rewrite Ea in I. destruct (D i I) as [[]|D']. exact D'.
    - inv_bind E u1 s1 E1. inv_bind E1 i s2 E2. apply deref_Ok in E2. destruct E2 as (-> & ->).
      inv_bind E1 u2 s2 E2. apply moved_upd in E2. inv_bind E1 e s3 E3.
      assert (S2 : stat s2) by (eapply moved_stat; [exact E2|apply S|exact S]).
      apply (edge_run eds) in E3; [|exact S2]. destruct E3 as (E3 & ->). rewrite (moved_self _ _ _ _ E2) in E3.
      inv_bind E1 x s3 E4. apply lift_Ok in E4. destruct E4 as (E4 & ->). apply moved_upd in E1.
      rewrite (moved_self _ _ _ _ E2) in E1. pose proof (moved_trans _ _ _ _ _ _ E2 E1) as M. cbn in E3.
      assert (Ii : In (Some i) (s_abl s0)) by (rewrite Ea; apply Sub; left; reflexivity).
      pose proof (A i Ii) as Qi.
      eapply (IH s1 s'); [| | | | |exact E].
      + eapply moved_stat; [exact M|apply S|exact S].
      + eapply moved_All; [exact M| |exact A]. exact Qi.
      + destruct M as (_ & M & _). congruence.
      + intros j Ij. destruct M as (_ & _ & M). rewrite M. destruct (Pos.eqb_spec i j) as [<-|N].
        * right. exists x. split; [reflexivity|]. eapply current_x_number'; [|exact E4]. eapply Hwm; [exact Qi|]. eapply nth_error_In. exact E3.
        * destruct (D j Ij) as [D'|D']; [|auto]. cbn in D'. destruct D' as [D'|D']; [congruence|auto].
      + intros o I. apply Sub. right. exact I. }
  eapply K; [exact St|exact A|reflexivity| | |exact E].
  - intros i I. left. rewrite snd_combine; [exact I|apply seq_length].
  - intros o I. rewrite snd_combine in I; [exact I|apply seq_length].
Qed.

(** the order in which bounds are sorted *)
Definition isnum (x : num) : bool := match x with NF f => negb (f_is_nan f) | NI _ => false end.
Definition slopes_of (a b : bound) : bool :=
  match cur_edge_of a, cur_edge_of b with Ok e, Ok f => edges_slopes_equal e f | _, _ => false end.
Definition cmp_of (h : heap bound) (i j : bid) : bool :=
  negb (isnum (b_cx (bget h i)) && isnum (b_cx (bget h j))) ||
  (num_leb (b_cx (bget h i)) (b_cx (bget h j)) || slopes_of (bget h i) (bget h j)).
Lemma cmp_total h i j : cmp_of h i j = true \/ cmp_of h j i = true.
Proof.
  unfold cmp_of. destruct (isnum (b_cx (bget h i))) eqn:Ni; [|left; reflexivity].
  destruct (isnum (b_cx (bget h j))) eqn:Nj; [|left; reflexivity]. unfold isnum in *.
  destruct (b_cx (bget h i)) as [|f]; [discriminate|]. destruct (b_cx (bget h j)) as [|g]; [discriminate|].
  apply negb_true_iff in Ni, Nj. destruct (leb_total f g Ni Nj) as [-> | ->]; [left|right]; reflexivity.
Qed.
Lemma compare_cmp i j s r s' : numb i (bget (s_bounds s) i) -> numb j (bget (s_bounds s) j) ->
  intersection_compare i j s = Ok (r, s') -> s' = s /\ r = cmp_of (s_bounds s) i j.
Proof.
  intros (f & Ef & Nf) (g & Eg & Ng) E. unfold intersection_compare in E. inv_bind E a s1 E1. apply bd_Ok in E1. destruct E1 as (-> & ->).
  inv_bind E b s1 E1. apply bd_Ok in E1. destruct E1 as (-> & ->). unfold cmp_of, isnum, slopes_of. rewrite Ef, Eg in *. rewrite Nf, Ng.
  cbn [negb andb orb]. destruct (num_leb (NF f) (NF g)); [apply ret_Ok in E; destruct E as (-> & ->); auto|].
  inv_bind E e s1 E1. apply lift_Ok in E1. destruct E1 as (Ee & ->). inv_bind E e' s1 E1. apply lift_Ok in E1. destruct E1 as (Ee' & ->).
  rewrite Ee, Ee'. apply ret_Ok in E. destruct E as (-> & ->). auto.
Qed.
Lemma halt_hot_intersections y s : Inv (All (rec Rec)) s -> halt (fun f => process_hot_pixel_intersections f y) s.
Proof.
  intros (_ & St & A). unfold process_hot_pixel_intersections. apply halt_bind.
  - apply mono_const.
  - intros u. apply mono_bind; [apply mono_const|]. intros ids. apply mono_bind; [|intros; apply mono_const].
    intros f f' L. apply lem_bubble_sort, L.
  - apply halt_fin. fi.
  - intros _ u s1 E1. pose proof (positions_num _ _ _ _ St A E1) as An. apply halt_bind.
    + apply mono_const.
    + intros ids. apply mono_bind; [|intros; apply mono_const]. intros f f' L. apply lem_bubble_sort, L.
    + apply halt_fin. fi.
    + intros _ ids s2 E2. apply ids_run in E2. destruct E2 as (Ei & ->). apply halt_bind.
      * intros f f' L. apply lem_bubble_sort, L.
      * intros. apply mono_const.
      * apply (halt_bubble intersection_compare hot_pixels_on_swap (fun t => s_bounds t = s_bounds s1) (cmp_of (s_bounds s1)) (fun i => In i ids)).
        -- intros i j t r t' Hi Hj Ht E. apply compare_cmp in E.
           ++ destruct E as (-> & ->). rewrite Ht. auto.
           ++ rewrite Ht. apply An. rewrite Ei. apply in_map, Hi.
           ++ rewrite Ht. apply An. rewrite Ei. apply in_map, Hj.
        -- intros i j t r t' Hi Hj Ht E. unfold hot_pixels_on_swap in E. inv_bind E a t1 E3. inv_bind E b t2 E4.
           assert (t1 = t) by (unfold current_edge in E3; inv_bind E3 x t0 E5; apply bd_Ok in E5; destruct E5 as (_ & ->); apply lift_Ok in E3; tauto).
           assert (t2 = t1) by (unfold current_edge in E4; inv_bind E4 x t0 E5; apply bd_Ok in E5; destruct E5 as (_ & ->); apply lift_Ok in E4; tauto).
           subst. inv_bind E o t1 E5. apply lift_Ok in E5. destruct E5 as (_ & ->). destruct o; [|discriminate].
           inv_bind E o t1 E5. apply lift_Ok in E5. destruct E5 as (_ & ->). apply modify_Ok in E. subst t'. exact Ht.
        -- intros. apply fin_compare.
        -- intros. apply fin_hp_swap.
        -- apply cmp_total.
        -- apply Forall_forall. auto.
        -- reflexivity.
      * intros. apply halt_fin. fi.
Qed.
Lemma hot_intersections_still f y : pres still (process_hot_pixel_intersections f y).
Proof.
  unfold process_hot_pixel_intersections. apply pres_bind; [exact _|apply sl_update_x|]. intros u. apply pres_bind; [exact _|apply sl_ids|]. intros ids.
  apply pres_bind; [exact _| |intros; sl_prim].
  intros s r s' E. pose proof (bubble_keeps intersection_compare hot_pixels_on_swap (still s) (fun _ => True)) as K.
  refine (proj1 (K _ _ f ids s r s' _ _ E)).
  - intros i j t b t' _ _ Ht Et. eapply R_trans; [exact Ht|]. eapply sl_compare, Et.
  - intros i j t b t' _ _ Ht Et. eapply R_trans; [exact Ht|]. eapply sl_hp_swap, Et.
  - apply Forall_forall. auto.
  - apply R_refl.
Qed.

(** ** Moving to the next edge is paid for *)
Lemma pot_moved i b s s' : moved i b s s' -> (b_cur (bget (s_bounds s) i) <= b_cur b)%nat ->
  (pot s' <= pot s)%nat /\ (In i U -> (b_cur (bget (s_bounds s) i) < b_cur b)%nat -> (b_cur (bget (s_bounds s) i) < length (eds i))%nat -> (pot s' < pot s)%nat).
Proof.
  intros (_ & _ & M) L. assert (H : forall j, (rest eds s' j <= rest eds s j)%nat).
  { intros j. unfold rest. rewrite M. destruct (Pos.eqb_spec i j) as [->|_]; lia. }
  split; [apply total_le, H|]. intros I L1 L2. apply (total_lt _ _ _ i); [exact H|exact I|]. unfold rest. rewrite M, Pos.eqb_refl. lia.
Qed.
Lemma next_pay i s u s' : stat s -> to_next_edge i s = Ok (u, s') ->
  moved i (bget (s_bounds s') i) s s' /\ b_edges (bget (s_bounds s') i) = eds i /\
  ((b_cur (bget (s_bounds s) i) < length (eds i))%nat -> b_cur (bget (s_bounds s') i) = Datatypes.S (b_cur (bget (s_bounds s) i)) /\ (In i U -> (pot s' < pot s)%nat)) /\
  ((length (eds i) <= b_cur (bget (s_bounds s) i))%nat -> s_scan s' = s_scan s /\ b_cur (bget (s_bounds s') i) = length (eds i)) /\
  (s_scan s' = s_scan s \/ exists v, s_scan s' = insort_unique (s_scan s) v).
Proof.
  intros S E. unfold to_next_edge in E. inv_bind E u1 s1 E1.
  assert (Sc1 : s_scan s1 = s_scan s) by (apply upd_bound_Ok in E1; subst s1; reflexivity).
  apply moved_upd in E1. inv_bind E b0 s2 E2.
  apply bd_Ok in E2. destruct E2 as (-> & ->). rewrite (moved_self _ _ _ _ E1) in E. cbn [b_cur b_edges] in E.
  set (b := bget (s_bounds s) i) in *.
  change (b_cur (b <| b_cur := clip_index b (Datatypes.S (b_cur b)) |>)) with (clip_index b (Datatypes.S (b_cur b))) in E.
  change (b_edges (b <| b_cur := clip_index b (Datatypes.S (b_cur b)) |>)) with (b_edges b) in E.
  assert (Eb : b_edges b = eds i) by apply S.
  destruct (Nat.ltb_spec (clip_index b (Datatypes.S (b_cur b))) (length (b_edges b))) as [L|L].
  - assert (Lc : (Datatypes.S (b_cur b) < length (b_edges b))%nat).
    { unfold clip_index in L. destruct (Nat.ltb_spec (Datatypes.S (b_cur b)) (length (b_edges b))); lia. }
    rewrite clip_lt in E1 by exact Lc.
    inv_bind E u2 s2 E2. assert (Sc2 : s_scan s2 = s_scan s) by (apply upd_bound_Ok in E2; subst s2; exact Sc1).
    apply moved_upd in E2. rewrite (moved_self _ _ _ _ E1) in E2.
    pose proof (moved_trans _ _ _ _ _ _ E1 E2) as M2. cbv beta in M2.
    assert (S2 : stat s2) by (eapply moved_stat; [exact M2|exact Eb|exact S]).
    inv_bind E f s3 E3. apply (edge_run eds) in E3; [|exact S2]. destruct E3 as (E3 & ->). rewrite (moved_self _ _ _ _ M2) in E3.
    inv_bind E u3 s3 E4. assert (Sc3 : s_scan s3 = s_scan s) by (apply upd_bound_Ok in E4; subst s3; exact Sc2).
    apply moved_upd in E4. rewrite (moved_self _ _ _ _ M2) in E4.
    pose proof (moved_trans _ _ _ _ _ _ M2 E4) as M3. cbv beta in M3.
    set (b' := b <| b_cur := Datatypes.S (b_cur b) |> <| b_next := clip_index b (Datatypes.S (b_next b)) |> <| b_cx := NI (px (ebot f)) |>) in *.
    assert (M : moved i b' s s').
    { destruct (is_horizontal f); [apply ret_Ok in E; destruct E as (_ & ->); exact M3|].
      apply modify_Ok in E. subst s'. eapply moved_frame; [exact M3|repeat split|reflexivity|reflexivity]. }
    rewrite (moved_self _ _ _ _ M). split; [exact M|]. split; [exact Eb|]. split; [|split].
    + intros Lt. split; [reflexivity|]. intros Iu. eapply pot_moved; [exact M| |exact Iu| |exact Lt]; cbn; fold b; lia.
    + rewrite Eb in Lc. fold b. intros; lia.
    + destruct (is_horizontal f); [apply ret_Ok in E; destruct E as (_ & ->); left; exact Sc3|].
      apply modify_Ok in E. subst s'. right. exists (py (etop f)). cbn. rewrite Sc3. reflexivity.
  - assert (Lc : (length (b_edges b) <= Datatypes.S (b_cur b))%nat).
    { unfold clip_index in L. destruct (Nat.ltb_spec (Datatypes.S (b_cur b)) (length (b_edges b))); lia. }
    apply ret_Ok in E. destruct E as (_ & ->). rewrite clip_ge in E1 by exact Lc. rewrite (moved_self _ _ _ _ E1).
    split; [exact E1|]. split; [exact Eb|]. split; [|split].
    + intros Lt. rewrite Eb in Lc. fold b in Lt. split; [cbn; rewrite Eb; fold b; lia|]. intros Iu. eapply pot_moved; [exact E1| |exact Iu| |exact Lt]; cbn; fold b; rewrite Eb; lia.
    + intros _. split; [exact Sc1|]. cbn. rewrite Eb. reflexivity.
    + left. exact Sc1.
Qed.
Definition scanr (s s' : st) : Prop := StronglySorted Z.le (s_scan s) -> StronglySorted Z.le (s_scan s') /\ incl (s_scan s) (s_scan s').
Lemma scan_insort s s' v : s_scan s' = insort_unique (s_scan s) v -> scanr s s'.
Proof.
  intros E So. rewrite E. split; [apply insort_unique_sorted_le, So|]. intros x I. apply insort_unique_in; auto.
Qed.
Lemma next_paid i : In i U -> pres pay (to_next_edge i).
Proof.
  intros Iu s u s' E S. pose proof (next_pay i s u s' S E) as (M & Eb & Lt & Ge & Sc).
  split; [eapply moved_stat; eassumption|].
  destruct (Nat.lt_ge_cases (b_cur (bget (s_bounds s) i)) (length (eds i))) as [L|L].
  - destruct (Lt L) as (_ & P). specialize (P Iu). split; [lia|]. split.
    + unfold PayP.work. destruct Sc as [-> | (v & ->)]; [lia|]. pose proof (insort_length (s_scan s) v). lia.
    + destruct Sc as [Es|(v & Es)]; [intros So; rewrite Es; split; [exact So|apply incl_refl]|]. eapply scan_insort, Es.
  - destruct (Ge L) as (Es & Ec). assert (P : (pot s' <= pot s)%nat).
    { apply total_le. intros j. destruct M as (_ & _ & M). unfold rest. rewrite M. destruct (Pos.eqb_spec i j) as [->|_]; [rewrite Ec|]; lia. }
    split; [exact P|]. unfold PayP.work. rewrite Es. split; [lia|]. intros So. split; [exact So|apply incl_refl].
Qed.

(** ** The edges that end at the scan line *)
Definition samelen (s s' : st) : Prop := length (s_abl s') = length (s_abl s).
#[local] Instance samelen_pre : PreOrd samelen.
Proof. split; unfold samelen; congruence. Qed.
Lemma sl_len_shift y d i idx : forall k, pres samelen (shift_bound y d i k idx).
Proof.
  induction idx as [|j idx IH]; intros k s a s' E; cbn [shift_bound] in E; [apply ret_Ok in E; destruct E as (_ & ->); reflexivity|].
  inv_bind E o s1 E1. apply get_run in E1. destruct E1 as (E1 & ->).
  inv_bind E b s1 E2. apply bd_Ok in E2. destruct E2 as (-> & ->). inv_bind E stop s1 E2.
  assert (B1 : s_abl s1 = s_abl s).
  { destruct o as [n|]; [|apply ret_Ok in E2; destruct E2 as (_ & ->); reflexivity].
    inv_bind E2 nb s2 E3. apply bd_Ok in E3. destruct E3 as (-> & ->).
    destruct (d _ _); [apply ret_Ok in E2; destruct E2 as (_ & ->); reflexivity|].
    inv_bind E2 e s2 E3. apply lift_Ok in E3. destruct E3 as (_ & ->). inv_bind E2 u s2 E3.
    apply ret_Ok in E2. destruct E2 as (_ & ->). destruct (_ && _).
    - inv_bind E3 x s3 E4. apply lift_Ok in E4. destruct E4 as (E4 & ->). apply modify_Ok in E3. subst s2. reflexivity.
    - apply ret_Ok in E3. destruct E3 as (_ & ->). reflexivity. }
  destruct stop; [apply ret_Ok in E; destruct E as (_ & ->); unfold samelen; congruence|].
  inv_bind E u s2 E3. inv_bind E u2 s3 E4. apply IH in E. apply set_run in E3, E4. unfold samelen in *.
  destruct E3 as ((_ & _ & A2) & _), E4 as ((_ & _ & A3) & _). rewrite E, A3, upd_length, A2, upd_length, B1. reflexivity.
Qed.
Lemma sl_len_hor y k : pres samelen (horizontals_at_top_scanbeam y k).
Proof.
  intros s a s' E. unfold horizontals_at_top_scanbeam in E. inv_bind E i s1 E1. apply bound_run in E1. destruct E1 as (_ & ->).
  inv_bind E e s1 E1. assert (s1 = s) by (unfold current_edge in E1; inv_bind E1 x t0 E5; apply bd_Ok in E5; destruct E5 as (_ & ->); apply lift_Ok in E1; tauto). subst s1.
  inv_bind E u s1 E2. apply upd_bound_Ok in E2. inv_bind E l s2 E3. apply gets_Ok in E3. destruct E3 as (_ & ->).
  assert (H : samelen s s1) by (subst s1; reflexivity). eapply R_trans; [exact H|].
  destruct (px (ebot e) <? px (etop e)); inv_bind E k' s2 E4; apply ret_Ok in E; destruct E as (_ & ->); eapply sl_len_shift, E4.
Qed.
Definition hot_body (y : Z) (i : bid) (x : nat * bool) : prog ((nat * bool) + (nat * bool)) :=
  let '(k, shifted) := x in
    (b <- bd i ;;
     if (b_cur b <? length (b_edges b))%nat then
       (e <- lift (cur_edge_of b) ;;
        if py (etop e) =? y then
          (push_hp (etop e) ;;
           ks <- (if is_horizontal e then horizontals_at_top_scanbeam y k
                  else ret (k, shifted)) ;;
           to_next_edge i ;;
           ret (inl ks))
        else ret (inr (k, shifted)))
     else ret (inr (k, shifted))).
Lemma hot_body_eq f y i k : hot_pixel_edges_of f y i k = loopM f (hot_body y i) (k, false).
Proof. reflexivity. Qed.
Lemma fin_hot_body y i x : fin (hot_body y i x).
Proof. unfold hot_body. destruct x as [k sh]. fi. Qed.
Lemma hot_body_run y i x s r s' : In i U -> stat s -> hot_body y i x s = Ok (r, s') -> pay s s' /\ samelen s s' /\
  (forall x', r = inl x' -> (rest eds s' i < rest eds s i)%nat /\ (pot s' < pot s)%nat) /\ (forall x', r = inr x' -> x' = x /\ s' = s).
Proof.
  intros Iu S E. unfold hot_body in E. destruct x as [k sh]. inv_bind E b s1 E1. apply bd_Ok in E1. destruct E1 as (-> & ->).
  assert (Stop : forall (t : prog ((nat * bool) + (nat * bool))), t = ret (inr (k, sh)) -> t s = Ok (r, s') ->
     pay s s' /\ samelen s s' /\
  (forall x', r = inl x' -> (rest eds s' i < rest eds s i)%nat /\ (pot s' < pot s)%nat) /\ (forall x', r = inr x' -> x' = (k, sh) /\ s' = s)).
  { intros t -> Et. apply ret_Ok in Et. destruct Et as (-> & ->). split; [apply R_refl|]. split; [reflexivity|]. split; [discriminate|].
    intros x' [= <-]. auto. }
  destruct (Nat.ltb_spec (b_cur (bget (s_bounds s) i)) (length (b_edges (bget (s_bounds s) i)))) as [L|L]; [|eapply Stop; [reflexivity|exact E]].
  inv_bind E e s1 E1. apply lift_Ok in E1. destruct E1 as (E1 & ->).
  destruct (py (etop e) =? y); [|eapply Stop; [reflexivity|exact E]]. clear Stop.
  inv_bind E u s1 E2. inv_bind E ks s2 E3. inv_bind E u2 s3 E4. apply ret_Ok in E. destruct E as (-> & ->).
  assert (H1 : still s s1) by (eapply sl_push, E2). assert (N1 : samelen s s1) by (apply modify_Ok in E2; subst s1; reflexivity).
  assert (H2 : still s1 s2 /\ samelen s1 s2).
  { destruct (is_horizontal e); [split; [eapply sl_hor, E3|eapply sl_len_hor, E3]|]. apply ret_Ok in E3. destruct E3 as (_ & ->). split; apply R_refl. }
  destruct H2 as (H2 & N2). pose proof (R_trans _ _ _ H1 H2) as H. clear H1 H2.
  assert (S2 : stat s2) by (eapply still_stat; eassumption). pose proof (next_pay i s2 u2 s3 S2 E4) as (M & Eb & Lt & _).
  assert (Ec : b_cur (bget (s_bounds s2) i) = b_cur (bget (s_bounds s) i)) by (destruct H as (H & _); apply H).
  rewrite S in L. rewrite Ec in Lt. destruct (Lt L) as (Ec3 & P). specialize (P Iu).
  split; [eapply R_trans; [apply still_pay, H|]; eapply next_paid; [exact Iu|exact E4]|].
  split; [unfold samelen in *; destruct M as (_ & -> & _); congruence|]. split; [|discriminate].
  intros x' _. split; [unfold rest; rewrite Ec3; lia|]. rewrite (still_pot eds U _ _ H) in P. exact P.
Qed.
Lemma mono_hot_edges_of y i k : mono (fun f => hot_pixel_edges_of f y i k).
Proof. intros f f' L. apply fuel_hot_pixel_edges_of, L. Qed.
Lemma halt_hot_edges_of y i k s : In i U -> stat s -> halt (fun f => hot_pixel_edges_of f y i k) s.
Proof.
  intros Iu S. change (halt (fun f => loopM f (hot_body y i) (k, false)) s).
  apply (halt_loop (fun _ => hot_body y i) (fun _ s => stat s) (fun _ s => rest eds s i)).
  - intros x. apply mono_const.
  - intros x t _. apply halt_fin, fin_hot_body.
  - intros f x t x' t' St E. apply hot_body_run in E; [|exact Iu|exact St]. destruct E as (P & _ & D & _).
    split; [apply (P St)|]. apply (D x' eq_refl).
  - exact S.
Qed.
Lemma hot_edges_run f y i k s r s' : In i U -> stat s -> hot_pixel_edges_of f y i k s = Ok (r, s') ->
  pay s s' /\ samelen s s' /\ (snd r = true -> (pot s' < pot s)%nat).
Proof.
  intros Iu S E. rewrite hot_body_eq in E.
  assert (K : forall f x s, stat s -> loopM f (hot_body y i) x s = Ok (r, s') -> pay s s' /\ samelen s s' /\ (r = x \/ (pot s' < pot s)%nat)).
  { clear f E s S. induction f as [|f IH]; intros x s S E; [discriminate|]. cbn [loopM] in E. inv_bind E v s1 E1.
    apply hot_body_run in E1; [|exact Iu|exact S]. destruct E1 as (P & N & D & Z). destruct v as [x'|x'].
    - destruct (IH x' s1 (proj1 (P S)) E) as (P' & N' & Q). destruct (D x' eq_refl) as (_ & D').
      split; [eapply R_trans; eassumption|]. split; [unfold samelen in *; congruence|]. right.
      destruct (P' (proj1 (P S))) as (_ & Le & _). lia.
    - apply ret_Ok in E. destruct E as (-> & ->). destruct (Z x' eq_refl) as (-> & ->). split; [apply R_refl|]. split; [reflexivity|]. auto. }
  destruct (K f (k, false) s S E) as (P & N & Q). split; [exact P|]. split; [exact N|]. intros T. destruct Q as [-> |Q]; [discriminate|exact Q].
Qed.
Definition edges_body (f : nat) (y : Z) (k : nat) : prog (nat + unit) :=
     (abl <- gets s_abl ;;
      match nth_error abl k with
      | None => ret (inr tt)
      | Some None => ret (inl (S k))
      | Some (Some i) =>
          (ks <- hot_pixel_edges_of f y i k ;;
           let '(k', shifted) := (ks : nat * bool) in
           b <- bd i ;;
           (if (b_cur b =? length (b_edges b))%nat then abl_set k' None else ret tt) ;;
           ret (inl (if (shifted : bool) then k else S k)))
      end).
Lemma edges_body_eq f y : process_hot_pixel_edges f y = bind (loopM f (edges_body f y) O) (fun _ => abl_compact).
Proof. reflexivity. Qed.
Lemma mono_edges_body y k : mono (fun f => edges_body f y k).
Proof.
  unfold edges_body. apply mono_bind; [apply mono_const|]. intros abl. destruct (nth_error abl k) as [[i|]|]; try apply mono_const.
  apply mono_bind; [apply mono_hot_edges_of|]. intros [k' sh]. apply mono_const.
Qed.
Lemma edges_body_run f y k s r s' : Inv (All (hq eds Rec y)) s -> edges_body f y k s = Ok (r, s') ->
  Inv (All (hq eds Rec y)) s' /\ pay s s' /\ samelen s s' /\
  (forall k', r = inl k' -> (k < length (s_abl s))%nat /\ (k' = S k \/ (k' = k /\ (pot s' < pot s)%nat))).
Proof.
  intros H E. unfold edges_body in E. inv_bind E abl s1 E1. apply gets_Ok in E1. destruct E1 as (-> & ->).
  destruct (nth_error (s_abl s) k) as [[i|]|] eqn:En.
  - assert (Lk : (k < length (s_abl s))%nat) by (apply nth_error_Some; congruence).
    inv_bind E ks s1 E1. destruct ks as [k' sh].
    assert (H0 : Inv (onq eds Rec y i k) s).
    { destruct H as (V & S & A). split; [exact V|]. split; [exact S|]. split; [exact A|]. split; [|exact En].
      apply A. eapply nth_error_In, En. }
    assert (Iu : In i U) by (apply HU; apply H0).
    pose proof (hot_edges_run f y i k s _ _ Iu (proj1 (proj2 H)) E1) as (P & N & D).
    apply (hot_edges_of eds Rec chain hor_iff) in E1; [|exact H0]. cbn [fst] in E1.
    inv_bind E b s2 E2. apply bd_Ok in E2. destruct E2 as (-> & ->). inv_bind E u s2 E2. apply ret_Ok in E. destruct E as (-> & ->).
    assert (H1 : Inv (All (hq eds Rec y)) s1) by (eapply inv_weak; [|exact E1]; intros (A & _); exact A).
    assert (H2 : Inv (All (hq eds Rec y)) s2 /\ still s1 s2 /\ samelen s1 s2).
    { destruct (_ =? _)%nat; [|apply ret_Ok in E2; destruct E2 as (_ & ->); split; [exact H1|split; apply R_refl]].
      split; [eapply All_set_None; eassumption|]. split; [eapply sl_abl_set, E2|]. apply set_run in E2. destruct E2 as ((_ & _ & A2) & _).
      unfold samelen. rewrite A2. apply upd_length. }
    destruct H2 as (H2 & St2 & N2). split; [exact H2|]. split; [eapply R_trans; [exact P|apply still_pay, St2]|].
    split; [unfold samelen in *; congruence|]. intros k1 [= <-]. split; [exact Lk|]. cbn [snd] in D. destruct sh; [|auto].
    right. split; [reflexivity|]. rewrite (still_pot eds U _ _ St2). apply D. reflexivity.
  - assert (Lk : (k < length (s_abl s))%nat) by (apply nth_error_Some; congruence).
    apply ret_Ok in E. destruct E as (-> & ->). split; [exact H|]. split; [apply R_refl|]. split; [reflexivity|]. intros k' [= <-]. auto.
  - apply ret_Ok in E. destruct E as (-> & ->). split; [exact H|]. split; [apply R_refl|]. split; [reflexivity|]. discriminate.
Qed.
Lemma halt_hot_edges y s : Inv (All (hq eds Rec y)) s -> halt (fun f => process_hot_pixel_edges f y) s.
Proof.
  intros H. unfold process_hot_pixel_edges. apply (halt_bind (fun f => loopM f (edges_body f y) O) (fun _ _ => abl_compact)).
  - intros f f' L. apply lem_loop; [exact L|]. intros x. apply mono_edges_body, L.
  - intros. apply mono_const.
  - apply (halt_loop (fun f => edges_body f y) (fun _ s => Inv (All (hq eds Rec y)) s) (fun k s => (pot s + (length (s_abl s) - k))%nat)).
    + intros x. apply mono_edges_body.
    + intros x t Ht. unfold edges_body. apply halt_bind; [apply mono_const| |apply halt_fin, fin_gets|].
      * intros abl. destruct (nth_error abl x) as [[i|]|]; try apply mono_const. apply mono_bind; [apply mono_hot_edges_of|]. intros [k' sh]. apply mono_const.
      * intros _ abl t' E1. apply gets_Ok in E1. destruct E1 as (-> & ->).
        destruct (nth_error (s_abl t) x) as [[i|]|] eqn:En; try (apply halt_fin, fin_ret).
        apply halt_bind; [apply mono_hot_edges_of|intros [k' sh]; apply mono_const| |].
        -- apply halt_hot_edges_of; [|apply Ht]. apply HU. destruct Ht as (_ & _ & A). apply (A i). eapply nth_error_In, En.
        -- intros _ [k' sh] t' _. apply halt_fin. fi.
    + intros f x t x' t' Ht E. apply edges_body_run in E; [|exact Ht]. destruct E as (H' & P & N & D). split; [exact H'|].
      destruct (P (proj1 (proj2 Ht))) as (_ & Le & _). destruct (D x' eq_refl) as (Lx & [-> | (-> & Lt)]); unfold samelen in N; rewrite N; lia.
    + exact H.
  - intros. apply halt_fin. fi.
Qed.
Lemma hot_edges_pay f y s u s' : Inv (All (hq eds Rec y)) s -> process_hot_pixel_edges f y s = Ok (u, s') -> pay s s'.
Proof.
  intros H E. rewrite edges_body_eq in E. inv_bind E u1 s1 E1. eapply R_trans; [|apply still_pay; eapply sl_compact, E].
  assert (K : forall g k s, Inv (All (hq eds Rec y)) s -> loopM g (edges_body f y) k s = Ok (u1, s1) -> pay s s1).
  { clear s H E1. induction g as [|g IH]; intros k s H E1; [discriminate|]. cbn [loopM] in E1. inv_bind E1 v s2 E2.
    apply edges_body_run in E2; [|exact H]. destruct E2 as (H' & P & _ & _). eapply R_trans; [exact P|].
    destruct v as [k'|r]; [eapply IH; eassumption|]. apply ret_Ok in E1. destruct E1 as (_ & ->). apply R_refl. }
  eapply K; eassumption.
Qed.

(** ** Entering minima *)
Definition scan2 (n : nat) (s s' : st) : Prop := scanr s s' /\ (length (s_scan s') <= length (s_scan s) + n)%nat.
Lemma scan2_same s s' : s_scan s' = s_scan s -> scan2 0 s s'.
Proof. intros E. split; [intros So; rewrite E; split; [exact So|apply incl_refl]|rewrite E; lia]. Qed.
Lemma scan2_trans a b s1 s2 s3 : scan2 a s1 s2 -> scan2 b s2 s3 -> scan2 (a + b) s1 s3.
Proof.
  intros (H1 & L1) (H2 & L2). split; [|lia]. intros So. destruct (H1 So) as (So' & I1). destruct (H2 So') as (So2 & I2).
  split; [exact So2|eapply incl_tran; eassumption].
Qed.
Lemma scan2_insort v s u s' : insort_scan v s = Ok (u, s') -> scan2 1 s s'.
Proof.
  intros E. apply modify_Ok in E. subst s'. split; [eapply scan_insort; reflexivity|]. cbn. pose proof (insort_length (s_scan s) v). lia.
Qed.
Lemma scan2_opt (b : bool) v s u s' : (if b then ret tt else insort_scan v) s = Ok (u, s') -> scan2 1 s s'.
Proof.
  destruct b; [|apply scan2_insort]. intros E. apply ret_Ok in E. destruct E as (_ & ->). destruct (scan2_same s s eq_refl) as (H & L). split; [exact H|lia].
Qed.
Lemma still_scan s s' : still s s' -> scan2 0 s s'.
Proof. intros (_ & E). apply scan2_same, E. Qed.
Lemma start_scan i s u s' : stat s -> start_bound i s = Ok (u, s') -> stat s' /\ scan2 0 s s'.
Proof.
  intros S E. pose proof (start_run eds i s u s' S E) as (b' & e & M & Eb & _). split; [eapply moved_stat; eassumption|]. apply scan2_same.
  unfold start_bound in E. inv_bind E u1 s1 E1. apply upd_bound_Ok in E1. inv_bind E e1 s2 E2.
  assert (s2 = s1) by (unfold current_edge in E2; inv_bind E2 x t0 E5; apply bd_Ok in E5; destruct E5 as (_ & ->); apply lift_Ok in E2; tauto). subst s2.
  apply upd_bound_Ok in E. subst s1 s'. reflexivity.
Qed.
Definition enter_body (y : Z) (ms : list local_minimum) (k : nat) : prog (nat + nat) :=
    match nth_error ms k with
    | Some m =>
        if lm_y m =? y then
          (lb <- bd (lm_left m) ;;
           e0 <- lift (nth_res (b_edges lb) 0) ;;
           push_hp (ebot e0) ;;
           start_bound (lm_left m) ;;
           start_bound (lm_right m) ;;
           i <- insert_bound_into_abl (lm_left m) (lm_right m) ;;
           li <- abl_bound i ;;
           le <- current_edge li ;;
           (if is_horizontal le then ret tt else insort_scan (py (etop le))) ;;
           ri <- abl_bound (S i) ;;
           re <- current_edge ri ;;
           (if is_horizontal re then ret tt else insort_scan (py (etop re))) ;;
           ret (inl (S k)))
        else ret (inr k)
    | None => ret (inr k)
    end.
Lemma enter_eq f y ms k : insert_minima_hot_pixel f y ms k = loopM f (enter_body y ms) k.
Proof. reflexivity. Qed.
Lemma fin_enter y ms k : fin (enter_body y ms k).
Proof. unfold enter_body. fi. Qed.
Lemma enter_run y ms k s r s' : stat s -> enter_body y ms k s = Ok (r, s') -> stat s' /\
  ((r = inl (S k) /\ (k < length ms)%nat /\ scan2 2 s s') \/
   (r = inr k /\ s' = s /\ forall m, nth_error ms k = Some m -> lm_y m <> y)).
Proof.
  intros S E. unfold enter_body in E. destruct (nth_error ms k) as [m|] eqn:Em.
  2:{ apply ret_Ok in E. destruct E as (-> & ->). split; [exact S|]. right. split; [reflexivity|]. split; [reflexivity|]. discriminate. }
  assert (Lk : (k < length ms)%nat) by (apply nth_error_Some; congruence).
  destruct (Z.eqb_spec (lm_y m) y) as [Y|Y].
  2:{ apply ret_Ok in E. destruct E as (-> & ->). split; [exact S|]. right. split; [reflexivity|]. split; [reflexivity|]. intros m' [= <-]. exact Y. }
  inv_bind E lb s1 E1. apply bd_Ok in E1. destruct E1 as (-> & ->). inv_bind E e0 s1 E1. apply lift_Ok in E1. destruct E1 as (_ & ->).
  inv_bind E u s1 E1. apply sl_push in E1. pose proof (still_stat eds _ _ E1 S) as S1. apply still_scan in E1.
  inv_bind E u2 s2 E2. apply start_scan in E2; [|exact S1]. destruct E2 as (S2 & E2).
  inv_bind E u3 s3 E3. apply start_scan in E3; [|exact S2]. destruct E3 as (S3 & E3).
  inv_bind E i s4 E4. apply sl_insert_abl in E4. pose proof (still_stat eds _ _ E4 S3) as S4. apply still_scan in E4.
  inv_bind E li s5 E5. apply bound_run in E5. destruct E5 as (_ & ->).
  inv_bind E ee s5 E5. apply (edge_run eds) in E5; [|exact S4]. destruct E5 as (_ & ->).
  inv_bind E u5 s5 E5. assert (S5 : stat s5).
  { destruct (is_horizontal ee); [apply ret_Ok in E5; destruct E5 as (_ & ->); exact S4|]. apply modify_Ok in E5. subst s5. exact S4. }
  apply scan2_opt in E5. inv_bind E ri s6 E6. apply bound_run in E6. destruct E6 as (_ & ->).
  inv_bind E edr s6 E6. apply (edge_run eds) in E6; [|exact S5]. destruct E6 as (_ & ->).
  inv_bind E u6 s6 E6. assert (S6 : stat s6).
  { destruct (is_horizontal edr); [apply ret_Ok in E6; destruct E6 as (_ & ->); exact S5|]. apply modify_Ok in E6. subst s6. exact S5. }
  apply scan2_opt in E6. apply ret_Ok in E. destruct E as (-> & ->). split; [exact S6|]. left. split; [reflexivity|]. split; [exact Lk|].
  exact (scan2_trans _ _ _ _ _ E1 (scan2_trans _ _ _ _ _ E2 (scan2_trans _ _ _ _ _ E3 (scan2_trans _ _ _ _ _ E4 (scan2_trans _ _ _ _ _ E5 E6))))).
Qed.
Lemma halt_enter y ms k s : stat s -> halt (fun f => insert_minima_hot_pixel f y ms k) s.
Proof.
  intros S. apply (halt_loop (fun _ => enter_body y ms) (fun _ s => stat s) (fun k _ => (length ms - k)%nat)).
  - intros x. apply mono_const.
  - intros x t _. apply halt_fin, fin_enter.
  - intros f x t x' t' St E. apply enter_run in E; [|exact St]. destruct E as (S' & [(R & L & _)|(R & _)]); [|discriminate].
    injection R as ->. split; [exact S'|lia].
  - exact S.
Qed.
Definition fee : nat := (cap + 3)%nat.
Definition bill (ms : list local_minimum) (k : nat) (s : st) : nat := (work s + (length ms - k) * fee)%nat.
Definition queued (ms : list local_minimum) (k : nat) (s : st) : Prop :=
  StronglySorted Z.le (s_scan s) /\ forall j m, (k <= j)%nat -> nth_error ms j = Some m -> In (lm_y m) (s_scan s).
Lemma bill_enter ms k s s' : (k < length ms)%nat -> (length (s_scan s') <= length (s_scan s) + 2)%nat -> (bill ms (S k) s' <= bill ms k s)%nat.
Proof.
  intros L Ls. unfold bill, PayP.work, fee. pose proof (pot_cap eds U s'). 
  replace (length ms - k)%nat with (Datatypes.S (length ms - S k)) by lia. cbn [Nat.mul]. lia.
Qed.
Lemma enters_run f y ms : forall k s k' s', stat s -> insert_minima_hot_pixel f y ms k s = Ok (k', s') ->
  stat s' /\ scanr s s' /\ (k <= k')%nat /\ ((k <= length ms)%nat -> (k' <= length ms)%nat) /\ (bill ms k' s' <= bill ms k s)%nat /\ (forall m, nth_error ms k' = Some m -> lm_y m <> y).
Proof.
  intros k s k' s'. rewrite enter_eq. revert k s. induction f as [|f IH]; intros k s S E; [discriminate|]. cbn [loopM] in E. inv_bind E v s1 E1.
  apply enter_run in E1; [|exact S]. destruct E1 as (S1 & [(-> & L & Sc & Ls)|(-> & -> & Y)]).
  - destruct (IH _ _ S1 E) as (S' & Sc' & Lk & Ll & B & Y). split; [exact S'|]. split.
    + intros So. destruct (Sc So) as (So1 & I1). destruct (Sc' So1) as (So2 & I2). split; [exact So2|eapply incl_tran; eassumption].
    + split; [lia|]. split; [lia|]. split; [|exact Y]. pose proof (bill_enter ms k s s1 L Ls). lia.
  - apply ret_Ok in E. destruct E as (-> & ->). split; [exact S|]. split; [intros So; split; [exact So|apply incl_refl]|].
    split; [lia|]. split; [auto|]. split; [lia|exact Y].
Qed.

(** ** The queue of scanbeams *)
Lemma pending_run ms k s b s' : sweep_pending ms k s = Ok (b, s') -> s' = s /\ (b = true -> s_scan s = [] -> (k < length ms)%nat).
Proof.
  intros E. unfold sweep_pending in E. inv_bind E l s1 E1. apply gets_Ok in E1. destruct E1 as (-> & ->). apply ret_Ok in E. destruct E as (-> & ->).
  split; [reflexivity|]. intros T Ez. rewrite Ez in T. apply Nat.ltb_lt, T.
Qed.
Lemma pop_run y s y' s' : s_scan s <> [] -> pop_scanbeam y s = Ok (y', s') -> s_scan s = s_scan s' ++ [y'] /\ s_bounds s' = s_bounds s /\ s_abl s' = s_abl s.
Proof.
  intros N E. unfold pop_scanbeam in E. inv_bind E l s1 E1. apply gets_Ok in E1. destruct E1 as (-> & ->).
  destruct (last_opt (s_scan s)) as [v|] eqn:El; [|apply last_opt_none in El; contradiction].
  inv_bind E u s1 E1. apply modify_Ok in E1. apply ret_Ok in E. destruct E as (-> & ->). subst s1. cbn.
  split; [apply last_opt_some, El|auto].
Qed.
Definition before (ms : list local_minimum) : Prop := forall p q a b, (p < q)%nat -> nth_error ms p = Some a -> nth_error ms q = Some b -> lm_y b <= lm_y a.
Lemma lm_before l : before (pure_sort_rev lm_lt l).
Proof. intros p q a b L Ha Hb. pose proof (lm_sorted l p q a b L Ha Hb) as H. unfold lm_lt in H. destruct (lm_hor a), (lm_hor b); lia. Qed.
(** the pending minima are still queued after the turn at the level [y'] *)
Lemma queued_turn ms k k' s s1 s2 y' : before ms -> queued ms k s -> s_scan s = s_scan s1 ++ [y'] -> scanr s1 s2 -> (k <= k')%nat ->
  (forall m, nth_error ms k' = Some m -> lm_y m <> y') -> queued ms k' s2.
Proof.
  intros Be (So & Q) Es Sc L Y. rewrite Es in So, Q. assert (So1 : StronglySorted Z.le (s_scan s1) /\ forall x, In x (s_scan s1) -> x <= y').
  { clear - So. induction (s_scan s1) as [|a l IH]; [split; [constructor|intros x []]|]. cbn in So. inversion So as [|? ? So' F]; subst.
    destruct (IH So') as (I1 & I2). rewrite Forall_forall in F. split.
    - constructor; [exact I1|]. apply Forall_forall. intros x I. apply F. apply in_or_app. auto.
    - intros x [->|I]; [apply F, in_or_app; right; left; reflexivity|apply I2, I]. }
  destruct So1 as (So1 & Mx). destruct (Sc So1) as (So2 & I2). split; [exact So2|]. intros j m Lj Hj. apply I2.
  assert (Hk : forall a j m, (k <= j)%nat -> nth_error ms j = Some m -> In (lm_y m) (s_scan s1 ++ [y']) -> a = lm_y m -> a <= y' /\ (a <> y' -> In a (s_scan s1))).
  { clear - Mx. intros a j m _ _ I ->. apply in_app_or in I. destruct I as [I|[<-|[]]]; [split; [apply Mx, I|auto]|]. split; [lia|]. intros; contradiction. }
  destruct (Hk (lm_y m) j m ltac:(lia) Hj (Q j m ltac:(lia) Hj) eq_refl) as (_ & Hin). apply Hin. intros Eq.
  destruct (Nat.eq_dec j k') as [->|N]; [eapply Y; eassumption|].
  destruct (nth_error ms k') as [m'|] eqn:Ek; [|apply nth_error_None in Ek; assert (j < length ms)%nat by (apply nth_error_Some; congruence); lia].
  destruct (Hk (lm_y m') k' m' L Ek (Q k' m' L Ek) eq_refl) as (Le & _). pose proof (Be k' j m' m ltac:(lia) Ek Hj). specialize (Y m' eq_refl). lia.
Qed.

(** ** The pass *)
Definition hot_turn (f : nat) (ms : list local_minimum) (x : Z * nat) : prog ((Z * nat) + unit) :=
   let '(y, k) := x in
     (go <- sweep_pending ms k ;;
      if (go : bool) then
        (y' <- pop_scanbeam y ;;
         process_hot_pixel_intersections f y' ;;
         k' <- insert_minima_hot_pixel f y' ms k ;;
         process_hot_pixel_edges f y' ;;
         ret (inl (y', k')))
      else ret (inr tt)).
Lemma mono_turn ms x : mono (fun f => hot_turn f ms x).
Proof.
  unfold hot_turn. destruct x as [y k]. apply mono_bind; [apply mono_const|]. intros []; [|apply mono_const]. apply mono_bind; [apply mono_const|].
  intros y'. apply mono_bind; [intros f f' L; apply fuel_process_hot_pixel_intersections, L|]. intros ?.
  apply mono_bind; [intros f f' L; apply fuel_insert_minima_hot_pixel, L|]. intros k'. apply mono_bind; [intros f f' L; apply fuel_process_hot_pixel_edges, L|].
  intros. apply mono_const.
Qed.
Definition ready (ms : list local_minimum) (x : Z * nat) (s : st) : Prop := Inv (All (rec Rec)) s /\ queued ms (snd x) s.
Lemma tri_pop' y s y' s' : Inv (All (rec Rec)) s -> pop_scanbeam y s = Ok (y', s') -> Inv (All (rec Rec)) s'.
Proof. intros H E. eapply (tri_pop eds Rec y (All (rec Rec))); [apply All_jab|exact H|exact E]. Qed.
Lemma halt_turn ms x s : Forall (min_ok eds Rec) ms -> ready ms x s -> halt (fun f => hot_turn f ms x) s.
Proof.
  intros F (H & Q). destruct x as [y k]. unfold hot_turn. apply halt_bind; [apply mono_const| |apply halt_fin; fi|].
  { intros []; [|apply mono_const]. exact (fun f f' L => lem_bind _ _ _ _ (lem_refl _) (fun y' => lem_bind _ _ _ _ (fuel_process_hot_pixel_intersections f f' L y')
      (fun _ => lem_bind _ _ _ _ (fuel_insert_minima_hot_pixel f f' L y' ms k) (fun k' => lem_bind _ _ _ _ (fuel_process_hot_pixel_edges f f' L y') (fun _ => lem_refl _))))). }
  intros _ b s0 E0. apply pending_run in E0. destruct E0 as (-> & _). destruct b; [|apply halt_fin, fin_ret].
  apply halt_bind; [apply mono_const| |apply halt_fin; fi|].
  { intros y'. exact (fun f f' L => lem_bind _ _ _ _ (fuel_process_hot_pixel_intersections f f' L y')
      (fun _ => lem_bind _ _ _ _ (fuel_insert_minima_hot_pixel f f' L y' ms k) (fun k' => lem_bind _ _ _ _ (fuel_process_hot_pixel_edges f f' L y') (fun _ => lem_refl _)))). }
  intros _ y' s1 E1. apply tri_pop' in E1; [|exact H].
  apply halt_bind; [intros f f' L; apply fuel_process_hot_pixel_intersections, L| |apply halt_hot_intersections; assumption|].
  { intros ?. exact (fun f f' L => lem_bind _ _ _ _ (fuel_insert_minima_hot_pixel f f' L y' ms k) (fun k' => lem_bind _ _ _ _ (fuel_process_hot_pixel_edges f f' L y') (fun _ => lem_refl _))). }
  intros f u s2 E2. apply (tri_hot_intersections eds Rec) in E2; [|exact E1].
  apply halt_bind; [intros g f' L; apply fuel_insert_minima_hot_pixel, L| |apply halt_enter, E2|].
  { intros k'. exact (fun f f' L => lem_bind _ _ _ _ (fuel_process_hot_pixel_edges f f' L y') (fun _ => lem_refl _)). }
  intros g k' s3 E3. apply (tri_hot_minima eds Rec) in E3; [|exact F|exact E2].
  apply halt_bind; [intros ff f' L; apply fuel_process_hot_pixel_edges, L|intros; apply mono_const|apply halt_hot_edges, E3|].
  intros. apply halt_fin, fin_ret.
Qed.
Lemma turn_run f ms x s x' s' : Forall (min_ok eds Rec) ms -> before ms -> ready ms x s -> hot_turn f ms x s = Ok (inl x', s') ->
  ready ms x' s' /\ (bill ms (snd x') s' < bill ms (snd x) s)%nat.
Proof.
  intros F Be (H & Q) E. destruct x as [y k]. cbn [snd] in *. unfold hot_turn in E. inv_bind E go s0 E0. apply pending_run in E0. destruct E0 as (-> & Pe).
  destruct go; [|discriminate].
  assert (Ne : s_scan s <> []).
  { intros Ez. specialize (Pe eq_refl Ez). destruct (nth_error ms k) as [m|] eqn:Em; [|apply nth_error_None in Em; lia].
    destruct Q as (_ & Q). specialize (Q k m (Nat.le_refl _) Em). rewrite Ez in Q. destruct Q. }
  inv_bind E y' s1 E1. pose proof (tri_pop' _ _ _ _ H E1) as H1. apply (pop_run _ _ _ _ Ne) in E1. destruct E1 as (Es & Eb & Ea).
  inv_bind E u2 s2 E2. pose proof (hot_intersections_still _ _ _ _ _ E2) as St2. apply (tri_hot_intersections eds Rec) in E2; [|exact H1].
  inv_bind E k' s3 E3. pose proof (enters_run _ _ _ _ _ _ _ (proj1 (proj2 E2)) E3) as (S3 & Sc3 & Lk & Ll & B & Y).
  apply (tri_hot_minima eds Rec) in E3; [|exact F|exact E2].
  inv_bind E u4 s4 E4. pose proof (hot_edges_pay _ _ _ _ _ E3 E4) as P4. apply (tri_hot_edges eds Rec chain hor_iff) in E4; [|exact E3].
  apply ret_Ok in E. destruct E as ([= ->] & ->). destruct (P4 S3) as (_ & _ & W4 & Sc4). cbn [snd].
  split.
  - split; [eapply inv_weak; [|exact E4]; intros A i I; apply A, I|]. eapply (queued_turn ms k k' s s1 s4 y'); [exact Be|exact Q|exact Es| |exact Lk|exact Y].
    intros So. assert (So2 : StronglySorted Z.le (s_scan s2)) by (destruct St2 as (_ & ->); exact So).
    destruct (Sc3 So2) as (So3 & I3). destruct (Sc4 So3) as (So4 & I4). split; [exact So4|]. destruct St2 as (_ & <-). eapply incl_tran; eassumption.
  - unfold bill in *. pose proof (still_pot eds U _ _ St2) as P2. destruct St2 as (_ & Sc2). unfold PayP.work in *. rewrite Sc2, P2 in B.
    assert (P1 : pot s1 = pot s) by (unfold PayP.pot; apply total_ext; intros i; unfold rest; rewrite Eb; reflexivity). rewrite P1 in B.
    rewrite Es, app_length. cbn [length]. lia.
Qed.
Lemma halt_sort_pixels s : halt sort_hot_pixels s.
Proof.
  unfold sort_hot_pixels. apply (halt_bind (fun _ => gets s_hp) (fun f l => (sorted <- lift (quicksort hot_pixels_compare f l) ;; modify (fun s => s <| s_hp := groupby sorted |>)))).
  - apply mono_const.
  - intros l. apply mono_bind; [|intros; apply mono_const]. intros f f' L. apply lem_lift, ler_quicksort, L.
  - apply halt_fin. fi.
  - intros _ l s1 _. apply (halt_bind (fun f => lift (quicksort hot_pixels_compare f l)) (fun _ sorted => modify (fun s => s <| s_hp := groupby sorted |>))).
    + intros f f' L. apply lem_lift, ler_quicksort, L.
    + intros. apply mono_const.
    + destruct (quicksort_sorts hot_pixels_compare) with (l := l) (fuel := Datatypes.S (3 ^ length l)) as (r' & E' & _).
      * intros a b. rewrite !compare_pixel_le. unfold pixel_le. lia.
      * intros a b c. rewrite !compare_pixel_le. unfold pixel_le. lia.
      * lia.
      * exists (Datatypes.S (3 ^ length l)). unfold lift. rewrite E'. discriminate.
    + intros. apply halt_fin. fi.
Qed.
Theorem halt_build_hot minimums s : Forall (min_ok eds Rec) minimums -> Inv (fun _ => True) s -> halt (fun f => build_hot_pixels f minimums) s.
Proof.
  intros F H. unfold build_hot_pixels. set (ms := pure_sort_rev lm_lt minimums).
  assert (Fm : Forall (min_ok eds Rec) ms) by (eapply Permutation_Forall; [apply pure_sort_rev_perm|exact F]).
  apply (halt_bind (fun _ => modify (fun s => s <| s_scan := scanbeams_of minimums |> <| s_abl := [] |>))
    (fun f _ => (loopM f (hot_turn f ms) (0, O) ;; sort_hot_pixels f))).
  - apply mono_const.
  - intros u. apply mono_bind; [|intros; intros f f' L; apply fuel_sort_hot_pixels, L]. intros f f' L. apply lem_loop; [exact L|]. intros x. apply mono_turn, L.
  - apply halt_fin. fi.
  - intros _ u s1 E1. apply modify_Ok in E1. apply (halt_bind (fun f => loopM f (hot_turn f ms) (0, O)) (fun f _ => sort_hot_pixels f)).
    + intros f f' L. apply lem_loop; [exact L|]. intros x. apply mono_turn, L.
    + intros u1 f f' L. apply fuel_sort_hot_pixels, L.
    + apply (halt_loop (fun f => hot_turn f ms) (ready ms) (fun x s => bill ms (snd x) s)).
      * intros x. apply mono_turn.
      * intros x t. apply halt_turn, Fm.
      * intros f x t x' t' R E. eapply turn_run; [exact Fm|apply lm_before|exact R|exact E].
      * subst s1. destruct H as (V & S & _). split.
        -- split; [eapply vat_frame; [|exact V]; repeat split|]. split; [exact S|]. intros i [].
        -- cbn [snd]. destruct (scanbeams_of_spec minimums) as (Pm & So). split; [exact So|]. intros j m _ Hj. cbn.
           eapply Permutation_in; [exact Pm|]. apply in_map. eapply Permutation_in; [symmetry; apply pure_sort_rev_perm|]. eapply nth_error_In, Hj.
    + intros. apply halt_sort_pixels.
Qed.
End HotHalt.
