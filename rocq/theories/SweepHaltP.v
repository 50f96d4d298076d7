(** * The sweep that builds the rings always stops *)
From Coq Require Import ZArith List Bool Lia FMapPositive Permutation Sorting.Sorted.
From Coq Require Import Floats.SpecFloat.
From RecordUpdate Require Import RecordSet.
From Verif Require PointersP.
From Verif Require Import Py Monad Utils Spec Geometry LinearRingM BoundM LocalMinimumM
     StateM PointNodeM RingM SweepM WagyuM SpecBounds HoareP SweepFrameP SpecSweep SpecActive SpecRun SpecOrigin ListP QuickP SortP ScanP FuelP
     AddRingP HistoryP HotPixelP WindingP CalmP WindingInvP VatP IntersectP InsertP MaximaP OriginP FloatP PositionP PropOrigin SweepInvP SweepRunP HaltP PayP HotHaltP
     NodeFrameP RingedP TreeP ChainP ChainOpsP RingHaltP GroundP AppendHaltP SoundP SweepMoveP.
Import ListNotations RecordSetNotations.
Open Scope Z_scope.
Local Open Scope m_scope.

Section Sweep.
Context (w : wagyu) (rs : list (linear_ring * polygon_kind)) (R0 : well_recorded w rs) (op : operation_kind) (sfk cfk : fill_kind).
Context (U : list bid) (HU : forall i, recorded w i -> In i U).
Notation bs := (lml_bounds (w_minimums w)).
Notation minimums := (lml_values (w_minimums w)).
Notation ms := (pure_sort_rev lm_lt minimums).
Notation Rec := (recorded w).
Let eds (i : bid) : list edge := b_edges (bget bs i).
Notation Inv := (inv eds Rec).
Notation stat := (stat eds).
Notation stc := (stc w).
Notation G := (G w op sfk cfk true).
Notation between := (between w op sfk cfk true).
Notation pot := (pot eds U).
Notation pay := (pay eds U).
Notation mv := (mv eds U).
Notation bill := (bill eds U ms).
Notation QA := (QA eds Rec). Notation QB := (QB eds Rec). Notation QC := (QC eds Rec). Notation QD := (QD eds Rec). Notation QE := (QE eds Rec).
Notation pr := (pr eds). Notation nf := (nf eds).
#[local] Instance mv_pre' : PreOrd mv := mv_pre eds U.
Hint Resolve mv_pre' : pres.
Hint Extern 3 (pres (SweepMoveP.mv _ _) _) => apply mv_quiet : pres.
Let Hwm : forall i e, Rec i -> In e (eds i) -> well_made e.
Proof. intros i e Ri I. exact (recorded_edge_well_made w rs i e R0 Ri I). Qed.

Definition fixed (s s' : st) : Prop := s_abl s' = s_abl s /\ s_scan s' = s_scan s.
#[local] Instance fixed_pre : PreOrd fixed.
Proof. split; unfold fixed; [auto|]. intros a b c (A1 & A2) (B1 & B2). split; congruence. Qed.
Hint Resolve fixed_pre : pres.
Lemma fx_quiet {A} (m : prog A) : pres quiet m -> pres fixed m.
Proof. apply pres_mono. intros s s' (E1 & E2 & _). split; assumption. Qed.
Hint Extern 3 (pres fixed _) => apply fx_quiet : pres.
Ltac fxp := apply pres_modify; intros; split; reflexivity.
Ltac fxa := repeat first [progress pres_step | fxp].
Lemma fx_upd i f : pres fixed (upd_bound i f). Proof. unfold upd_bound. fxp. Qed.
Hint Resolve fx_upd : pres.
Lemma fx_update_x y : pres fixed (update_current_x y). Proof. unfold update_current_x. fxa. Qed.
Lemma fx_initialize m : pres fixed (initialize m). Proof. unfold initialize, init_bound. fxa. Qed.

(** ** Intersections *)
Lemma mo_build : mono build_intersect_list. Proof. mof fuel_build_intersect_list. Qed.
Lemma mo_list l c : mono (fun f => process_intersect_list f op sfk cfk l c). Proof. mof fuel_process_intersect_list. Qed.
Hint Resolve mo_build mo_list : mono.
Lemma halt_build s : All numb s -> halt build_intersect_list s.
Proof.
  intros A. unfold halt, build_intersect_list. destruct (abl_ids s) as [[ids s0]|e|] eqn:Ei; [|exists O; discriminate|exfalso; exact (fin_ids s Ei)].
  apply ids_run in Ei. destruct Ei as (Ei & ->).
  match goal with |- context [bubble_sort ?c ?x _ ids []] => assert (H : halt (fun f => bubble_sort c x f ids) []) end.
  { apply (halt_bubble _ _ (fun _ => True) (cmp_of (s_bounds s)) (fun i => In i ids)).
    - intros i j t r t' Hi Hj _ E. split; [exact I|]. destruct (intersection_compare i j s) as [[b s1]|e|] eqn:E1; try discriminate. injection E as <- <-.
      apply compare_cmp in E1; [apply E1|apply A; rewrite Ei; apply in_map, Hi|apply A; rewrite Ei; apply in_map, Hj].
    - auto.
    - intros i j t. pose proof (fin_compare i j s). destruct (intersection_compare i j s) as [[b s1]|e|]; [discriminate|discriminate|congruence].
    - intros i j t. assert (F : fin (a <- current_edge i ;; b <- current_edge j ;; lift (edge_and a b))) by fi. specialize (F s).
      match goal with |- (match ?m with _ => _ end) <> _ => destruct m as [[[q|] s1]|e|] end; try discriminate. congruence.
    - apply cmp_total.
    - apply Forall_forall. auto.
    - exact I. }
  destruct H as (f & N). exists f. match goal with |- (match ?m with _ => _ end) <> _ => destruct m as [[a l]|e|] end; try discriminate. congruence.
Qed.
Lemma un_build f : pres unchanged (build_intersect_list f).
Proof. intros s l s' E. apply build_intersect_list_spec in E. exact (proj1 E). Qed.
Lemma jr_build f : pres keeps (build_intersect_list f). Proof. apply jr_read, un_build. Qed.
Lemma jr_list f l c : pres keeps (process_intersect_list f op sfk cfk l c). Proof. exact (good_pres _ (good_list op sfk cfk c l) f). Qed.
Hint Resolve jr_build jr_list : pres.
Lemma jr_intersections f y : pres keeps (process_intersections f op sfk cfk y). Proof. unfold process_intersections. jr_auto. Qed.
Lemma halt_intersections y s : Inv (All QA) s -> sound s -> halt (fun f => process_intersections f op sfk cfk y) s.
Proof.
  intros (_ & St & A) S0. unfold process_intersections.
  assert (Mk : forall u : unit, mono (fun f => l <- build_intersect_list f ;; match l with [] => ret tt | _ => (l' <- py_sort in_lt l ;; process_intersect_list f op sfk cfk l' (length l')) end)) by (intros; mo).
  apply (halt_bind (fun _ => gets s_abl) (fun f abl => match abl with [] => ret tt | _ => (update_current_x y ;; l <- build_intersect_list f ;; match l with [] => ret tt | _ => (l' <- py_sort in_lt l ;; process_intersect_list f op sfk cfk l' (length l')) end) end)).
  - mo.
  - intros abl. destruct abl; [mo|]. apply mono_bind; [mo|exact Mk].
  - apply halt_fin. fi.
  - intros _ abl s1 E. apply gets_Ok in E. destruct E as (-> & ->). destruct (s_abl s) as [|o0 l0]; [apply halt_fin; fi|].
    apply (halt_bind (fun _ => update_current_x y) (fun f _ => l <- build_intersect_list f ;; match l with [] => ret tt | _ => (l' <- py_sort in_lt l ;; process_intersect_list f op sfk cfk l' (length l')) end)); [mo|exact Mk|apply halt_fin; fi|].
    intros _ u s1 E. pose proof (jr_update_x _ _ _ _ E S0) as S1. apply (positions_num eds Rec Hwm) in E; [|exact St|intros i I; apply A in I; apply I].
    apply halt_bind; [mo|intros; mo|apply halt_build, E|]. intros f l s2 E2. apply jr_build in E2. specialize (E2 S1).
    destruct l as [|n l]; [apply halt_fin; fi|]. apply (halt_bind (fun _ => py_sort in_lt (n :: l)) (fun f l' => process_intersect_list f op sfk cfk l' (length l'))); [mo|intros; mo|apply halt_fin, fin_py_sort; intros; apply fin_in_lt|].
    intros _ l' s3 E3. assert (P : pres keeps (py_sort in_lt (n :: l))) by jr_auto. apply P in E3. specialize (E3 E2).
    exact (proj1 (proj2 (good_list op sfk cfk (length l') l') s3 E3)).
Qed.
Hint Resolve mv_swap : pres.
Lemma mv_list f c : forall l, pres mv (process_intersect_list f op sfk cfk l c).
Proof. induction c as [|c IH]; intros [|n l]; cbn [process_intersect_list]; pres_auto. Qed.
Lemma mv_intersections f y : pres mv (process_intersections f op sfk cfk y).
Proof.
  assert (X1 : pres mv (update_current_x y)).
  { intros s u s' E. split; [apply still_pay; eapply sl_update_x, E|]. apply fx_update_x in E. destruct E as (E & _). unfold live. rewrite E. auto. }
  assert (X2 : pres mv (build_intersect_list f)) by (apply mv_unchanged, un_build). pose proof mv_list as X3. assert (X4 : forall a b, pres mv (in_lt a b)) by (intros; apply mv_unchanged, un_in_lt). unfold process_intersections. pres_auto.
Qed.

(** ** The hot pixel index *)
Lemma mv_still {A} (m : prog A) : pres still m -> pres fixed m -> pres mv m.
Proof.
  intros P1 P2 s a s' E. split; [apply still_pay; eapply P1, E|]. apply P2 in E. destruct E as (E & _). unfold live. rewrite E. auto.
Qed.
Definition hpi_body (y : Z) (x : unit) : prog (unit + unit) :=
    (s <- get ;;
     h <- lift (nth_res (s_hp s) (s_hpi s)) ;;
     if py h >? y then
       (modify (fun s => s <| s_hpi := Nat.min (Datatypes.S (s_hpi s)) (length (s_hp s)) |>) ;;
        ret (inl tt))
     else ret (inr tt)).
Lemma hpi_eq f y : update_current_hot_pixel_index f y = loopM f (hpi_body y) tt. Proof. reflexivity. Qed.
Lemma halt_hpi y s : halt (fun f => update_current_hot_pixel_index f y) s.
Proof.
  change (halt (fun f => loopM f (hpi_body y) tt) s).
  apply (halt_loop (fun _ => hpi_body y) (fun _ _ => True) (fun _ s => (length (s_hp s) - s_hpi s)%nat)).
  - intros x. apply mono_const.
  - intros x t _. apply halt_fin. unfold hpi_body. fi.
  - intros _ x t x' t' _ E. split; [exact I|]. unfold hpi_body in E. inv_bind E s0 s1 E1. apply get_Ok in E1. destruct E1 as (-> & ->).
    inv_bind E h s1 E1. apply lift_Ok in E1. destruct E1 as (E1 & ->). apply nth_res_Ok in E1.
    assert (L : (s_hpi t < length (s_hp t))%nat) by (apply nth_error_Some; congruence).
    destruct (py h >? y); [|discriminate]. inv_bind E u s1 E2. apply modify_Ok in E2. apply ret_Ok in E. destruct E as (_ & ->). subst s1. change (length (s_hp t) - Nat.min (Datatypes.S (s_hpi t)) (length (s_hp t)) < length (s_hp t) - s_hpi t)%nat. lia.
  - exact I.
Qed.
Lemma jr_hpi f y : pres keeps (update_current_hot_pixel_index f y).
Proof. unfold update_current_hot_pixel_index. jr_auto. Qed.
Lemma mv_hpi f y : pres mv (update_current_hot_pixel_index f y).
Proof. apply mv_still; [unfold update_current_hot_pixel_index; sl_auto|unfold update_current_hot_pixel_index; fxa]. Qed.

(** ** Accounts *)
Definition dues (n : nat) (l : list Z) (k : nat) (s : st) : Prop := (bill k s < n)%nat /\ StronglySorted Z.le (s_scan s) /\ incl l (s_scan s).
Lemma dues_pay n l k s s' : stat s -> pay s s' -> dues n l k s -> dues n l k s'.
Proof.
  intros S P (B & So & In_). destruct (P S) as (_ & _ & W & Sc). destruct (Sc So) as (So' & I'). split; [|split; [exact So'|eapply incl_tran; eassumption]].
  unfold HotHaltP.bill in *. lia.
Qed.
Lemma dues_mv n l k s s' : stat s -> mv s s' -> dues n l k s -> dues n l k s'.
Proof. intros S (P & _) D. eapply dues_pay; eassumption. Qed.
Lemma stc_stat s : stc s -> stat s.
Proof. intros HS i. specialize (HS i). unfold static_of in HS. injection HS as X _ _ _. exact X. Qed.

(** ** The edges that end at the scan line *)
Definition top_body (f : nat) (y : Z) (idx : nat) : prog (nat + unit) :=
     (abl <- gets s_abl ;;
      match nth_error abl idx with
      | None => ret (inr tt)
      | Some None => ret (inl (Datatypes.S idx))
      | Some (Some i) => (idx' <- top_step f op sfk cfk y idx i ;; ret (inl idx'))
      end).
Lemma mo_top_step y k i : mono (fun f => top_step f op sfk cfk y k i). Proof. mof fuel_top_step. Qed.
Lemma mo_top_body y x : mono (fun f => top_body f y x).
Proof.
  unfold top_body. apply mono_bind; [apply mono_const|]. intros abl. destruct (nth_error abl x) as [[i|]|]; try apply mono_const.
  apply mono_bind; [apply mo_top_step|intros; apply mono_const].
Qed.
Definition room (k : nat) (s : st) : nat := (length (s_abl s) - k)%nat.
Definition top_bill (k : nat) (s : st) : nat := (length (live s) * Datatypes.S (length (s_abl s)) + room k s)%nat.
Lemma weigh L a a' k k' : (a' <= a)%nat -> ((k' = Datatypes.S k /\ k < L) \/ a' < a)%nat ->
  (a' * Datatypes.S L + (L - k') < a * Datatypes.S L + (L - k))%nat.
Proof. intros A [(-> & B)|B]; nia. Qed.
Definition at_top (n : nat) (l : list Z) (k : nat) (y : Z) (c x : nat) (s : st) : Prop :=
  c = top_bill x s /\ Inv (both x (QC y) (pr y)) s /\ sound s /\ dues n l k s.
Lemma tot_top_loop n l k y : tot (fun s => Inv (All (QB y)) s /\ stc s /\ G k s /\ sound s /\ dues n l k s)
  (fun f => loopM f (top_body f y) O) (fun _ s => Inv (All (QD y)) s /\ stc s /\ G k s /\ sound s /\ dues n l k s).
Proof.
  intros s (HI & HS & HG & S0 & Du).
  assert (T : tot (at_top n l k y (top_bill O s) O) (fun f => loopM f (top_body f y) O) (fun _ s => Inv (All (QD y)) s /\ sound s /\ dues n l k s)).
  { apply (tot_loop (fun f x => top_body f y x) (at_top n l k y)); [apply mo_top_body|]. clear s HI HS HG S0 Du.
    intros c x s (-> & H & S0 & Du). destruct (nth_error (s_abl s) x) as [[i|]|] eqn:En.
    - assert (Lx : (x < length (s_abl s))%nat) by (apply nth_error_Some; congruence).
      assert (Iu : In i U). { destruct H as (_ & _ & A & _). apply HU. apply (A i (nth_error_In _ _ En)). }
      split.
      + unfold top_body. apply (halt_bind (fun _ => gets s_abl) (fun f abl => match nth_error abl x with
          | None => ret (inr tt) | Some None => ret (inl (Datatypes.S x)) | Some (Some i) => (idx' <- top_step f op sfk cfk y x i ;; ret (inl idx')) end)).
        * apply mono_const.
        * intros abl. destruct (nth_error abl x) as [[j|]|]; try apply mono_const. apply mono_bind; [apply mo_top_step|intros; apply mono_const].
        * apply halt_fin. fi.
        * intros _ abl s1 E. apply gets_Ok in E. destruct E as (-> & ->). rewrite En.
          apply (halt_bind (fun f => top_step f op sfk cfk y x i) (fun _ idx' => ret (inl idx'))); [apply mo_top_step|intros; apply mono_const| |intros; apply halt_fin; fi].
          apply (good_top_step op sfk cfk y x i). exact S0.
      + intros f r s' E. unfold top_body in E. inv_bind E abl s1 E1. apply gets_Ok in E1. destruct E1 as (-> & ->). rewrite En in E.
        inv_bind E x' s1 E1. apply ret_Ok in E. destruct E as (-> & ->). exists (top_bill x' s1).
        pose proof (top_less eds U op sfk cfk _ _ _ _ _ _ _ Iu E1) as (L1 & L2 & L3).
        pose proof (mv_top eds U op sfk cfk _ _ _ _ Iu _ _ _ E1) as M. pose proof (good_pres _ (good_top_step op sfk cfk y x i) f _ _ _ E1 S0) as S1.
        apply (top_inv eds Rec (eds_chain w rs R0) (eds_hor w rs R0)) in E1; [|exact H|exact En].
        split; [|split; [reflexivity|split; [exact E1|split; [exact S1|eapply dues_mv; [apply H|exact M|exact Du]]]]].
        unfold top_bill, room. rewrite L1. apply weigh; [exact L2|]. tauto.
    - assert (Lx : (x < length (s_abl s))%nat) by (apply nth_error_Some; congruence). split.
      + exists O. unfold top_body. unfold bind at 1. unfold gets. rewrite En. discriminate.
      + intros f r s' E. unfold top_body in E. inv_bind E abl s1 E1. apply gets_Ok in E1. destruct E1 as (-> & ->). rewrite En in E.
        apply ret_Ok in E. destruct E as (-> & ->). exists (top_bill (Datatypes.S x) s). split; [unfold top_bill, room; lia|]. split; [reflexivity|].
        split; [|split; [exact S0|exact Du]]. destruct H as (V & S & A & B). split; [exact V|]. split; [exact S|]. split; [exact A|].
        intros p j L Hp. destruct (Nat.eq_dec p x) as [->|N]; [congruence|]. apply B with (p := p); [lia|exact Hp].
    - split.
      + exists O. unfold top_body. unfold bind at 1. unfold gets. rewrite En. discriminate.
      + intros f r s' E. unfold top_body in E. inv_bind E abl s1 E1. apply gets_Ok in E1. destruct E1 as (-> & ->). rewrite En in E.
        apply ret_Ok in E. destruct E as (-> & ->). split; [|split; [exact S0|exact Du]]. destruct H as (V & S & A & B). split; [exact V|]. split; [exact S|].
        intros i Ii. split; [apply A, Ii|]. apply In_nth_error in Ii. destruct Ii as (p & Hp). apply B with (p := p); [|exact Hp].
        apply nth_error_None in En. assert (p < length (s_abl s))%nat by (apply nth_error_Some; congruence). lia. }
  destruct (T s) as (T1 & T2).
  { split; [reflexivity|]. split; [|split; [exact S0|exact Du]]. destruct HI as (V & S & A). split; [exact V|]. split; [exact S|].
    split; [intros i Ii; apply QB_QC, A, Ii|]. intros p i L. lia. }
  split; [exact T1|]. intros f u s' E. destruct (T2 f u s' E) as (H1 & H2 & H3).
  destruct (top_loop w rs R0 f op sfk cfk true y k s u s' HI HS HG E) as (H4 & H5). auto.
Qed.

(** ** New minima *)
Definition enter (m : local_minimum) : prog unit := (initialize m ;; insert_lm_left_and_right_bound op sfk cfk (lm_left m) (lm_right m)).
Definition insert_rest (left : bid) (k : nat) : prog unit :=
  (set_winding_count sfk cfk k ;;
   i <- abl_bound k ;;
   j <- abl_bound (Datatypes.S k) ;;
   bi <- bd i ;;
   upd_bound j (fun b => b <| b_wc := b_wc bi |> <| b_owc := b_owc bi |>) ;;
   lb <- bd left ;;
   (if is_contributing op sfk cfk (b_kind lb) (b_wc lb) (b_owc lb)
    then (e <- current_edge i ;; add_local_minimum_point (ebot e) i j)
    else ret tt) ;;
   ei <- current_edge i ;;
   insort_scan (py (etop ei)) ;;
   ej <- current_edge j ;;
   if is_horizontal ej then ret tt else insort_scan (py (etop ej))).
Lemma insert_eq l r : insert_lm_left_and_right_bound op sfk cfk l r = bind (insert_bound_into_abl l r) (insert_rest l).
Proof. reflexivity. Qed.
Lemma jr_rest l k : pres keeps (insert_rest l k). Proof. unfold insert_rest. jr_auto. Qed.
#[local] Instance sabl_pre3 : PreOrd sabl. Proof. split; unfold sabl; congruence. Qed.
Lemma sabl_rest l k : pres sabl (insert_rest l k).
Proof.
  apply pres_bind; [exact _|apply sa_quiet, qt_winding|]. intros ?. apply pres_bind; [exact _|apply sa_quiet, qt_abl_bound|]. intros i.
  apply pres_bind; [exact _|apply sa_quiet, qt_abl_bound|]. intros j. apply pres_bind; [exact _|apply sa_quiet, qt_bd|]. intros bi.
  apply pres_bind; [exact _|apply sa_quiet; qt_prim|]. intros ?. apply pres_bind; [exact _|apply sa_quiet, qt_bd|]. intros lb.
  apply pres_bind; [exact _|apply sa_quiet; qt_auto|]. intros ?. apply pres_bind; [exact _|apply sa_quiet, qt_current_edge|]. intros ei.
  apply pres_bind; [exact _|apply sa_steady, sd_insort|]. intros ?. apply pres_bind; [exact _|apply sa_quiet, qt_current_edge|]. intros ej.
  destruct (is_horizontal ej); [apply pres_ret; exact _|apply sa_steady, sd_insort].
Qed.
Lemma fixed_scan s s' : fixed s s' -> scan2 0 s s'.
Proof. intros (_ & E). apply scan2_same, E. Qed.
Lemma insert_rest_scan l k s u s' : insert_rest l k s = Ok (u, s') -> scan2 2 s s'.
Proof.
  intros E. unfold insert_rest in E. inv_bind E u1 s1 E1. apply (fx_quiet _ (qt_winding _ _ _)), fixed_scan in E1.
  inv_bind E i s2 E2. apply bound_run in E2. destruct E2 as (_ & ->). inv_bind E j s2 E2. apply bound_run in E2. destruct E2 as (_ & ->).
  inv_bind E bi s2 E2. apply bd_Ok in E2. destruct E2 as (-> & ->). inv_bind E u2 s2 E2. apply fx_upd, fixed_scan in E2.
  inv_bind E lb s3 E3. apply bd_Ok in E3. destruct E3 as (-> & ->). inv_bind E u3 s3 E3.
  assert (E3' : scan2 0 s2 s3).
  { apply fixed_scan. revert E3. match goal with |- ?m s2 = _ -> _ => assert (P : pres fixed m) by (apply fx_quiet; qt_auto) end. apply P. }
  clear E3. inv_bind E ei s4 E4. apply un_current_edge in E4. unfold unchanged in E4. subst s4. inv_bind E u4 s4 E4. apply scan2_insort in E4.
  inv_bind E ej s5 E5. apply un_current_edge in E5. unfold unchanged in E5. subst s5. apply scan2_opt in E.
  exact (scan2_trans _ _ _ _ _ E1 (scan2_trans _ _ _ _ _ E2 (scan2_trans _ _ _ _ _ E3' (scan2_trans _ _ _ _ _ E4 E)))).
Qed.
Lemma enter_scan m s u s' : enter m s = Ok (u, s') -> scan2 2 s s'.
Proof.
  intros E. unfold enter in E. inv_bind E u1 s1 E1. apply fx_initialize, fixed_scan in E1. rewrite insert_eq in E. inv_bind E k s2 E2.
  apply sl_insert_abl, still_scan in E2. apply insert_rest_scan in E. exact (scan2_trans _ _ _ _ _ E1 (scan2_trans _ _ _ _ _ E2 E)).
Qed.
Lemma enter_sound k m s u s' : nth_error ms k = Some m -> stc s -> G k s -> sound s -> enter m s = Ok (u, s') -> stc s' /\ G (Datatypes.S k) s' /\ sound s'.
Proof.
  intros Hm HS HG S0 E. pose proof (G_insert w rs R0 op sfk cfk true k m s u s' Hm HS HG E) as HG'.
  assert (HS' : stc s').
  { unfold enter in E. inv_bind E u1 s1 E1. eapply stc_pres; [apply st_insert_lm|exact E|]. eapply stc_pres; [apply st_initialize|exact E1|exact HS]. }
  split; [exact HS'|]. split; [exact HG'|]. unfold enter in E. inv_bind E u1 s1 E1. apply jr_initialize in E1. specialize (E1 S0).
  rewrite insert_eq in E. inv_bind E j s2 E2. pose proof (sabl_rest _ _ _ _ _ E) as Ea. apply jr_rest in E. apply E. clear E.
  apply (sound_abl s1); [|unfold live; rewrite <- Ea; apply HG'|exact E1].
  unfold insert_bound_into_abl in E2. inv_bind E2 sx s0 E0. apply get_Ok in E0. destruct E0 as (-> & ->). inv_bind E2 k0 s0 E0. apply lift_Ok in E0. destruct E0 as (_ & ->).
  inv_bind E2 u2 s3 E3. apply ret_Ok in E2. destruct E2 as (_ & ->). apply modify_Ok in E3. subst s3. reflexivity.
Qed.
Definition minima_body (h : bool) (y : Z) (k : nat) : prog (nat + nat) :=
    match nth_error ms k with
    | Some m =>
        if (lm_y m =? y) && (negb h || lm_hor m) then
          (initialize m ;;
           insert_lm_left_and_right_bound op sfk cfk (lm_left m) (lm_right m) ;;
           ret (inl (Datatypes.S k)))
        else ret (inr k)
    | None => ret (inr k)
    end.
Lemma minima_eq f h y k : insert_local_minima f op sfk cfk h y ms k = loopM f (minima_body h y) k. Proof. reflexivity. Qed.
Definition going (n : nat) (l : list Z) (k0 : nat) (c k : nat) (s : st) : Prop :=
  c = (length ms - k)%nat /\ (k0 <= k)%nat /\ stc s /\ G k s /\ sound s /\ dues n l k s.
Lemma tot_minima n l h y k : tot (fun s => stc s /\ G k s /\ sound s /\ dues n l k s) (fun f => insert_local_minima f op sfk cfk h y ms k)
  (fun k' s => (k <= k')%nat /\ stc s /\ G k' s /\ sound s /\ dues n l k' s /\ (h = false -> forall m, nth_error ms k' = Some m -> lm_y m <> y)).
Proof.
  intros s (HS & HG & S0 & Du). change (fun f => insert_local_minima f op sfk cfk h y ms k) with (fun f => loopM f (minima_body h y) k).
  assert (T : tot (going n l k (length ms - k)%nat k) (fun f => loopM f (minima_body h y) k) (fun k' s => (k <= k')%nat /\ stc s /\ G k' s /\ sound s /\ dues n l k' s /\ (h = false -> forall m, nth_error ms k' = Some m -> lm_y m <> y))).
  { apply (tot_loop (fun _ x => minima_body h y x) (going n l k)); [intros; apply mono_const|]. clear s HS HG S0 Du.
    intros c x s (-> & Lx & HS & HG & S0 & Du). split; [apply halt_fin; unfold minima_body; fi|].
    intros f r s' E. unfold minima_body in E. destruct (nth_error ms x) as [m|] eqn:Em.
    2:{ apply ret_Ok in E. destruct E as (-> & ->). split; [exact Lx|]. split; [exact HS|]. split; [exact HG|]. split; [exact S0|]. split; [exact Du|]. intros _ m Hm. congruence. }
    assert (L : (x < length ms)%nat) by (apply nth_error_Some; congruence).
    destruct (_ && _) eqn:C.
    2:{ apply ret_Ok in E. destruct E as (-> & ->). split; [exact Lx|]. split; [exact HS|]. split; [exact HG|]. split; [exact S0|]. split; [exact Du|].
        intros -> m' Hm'. assert (m' = m) by congruence. subst m'. destruct (Z.eqb_spec (lm_y m) y) as [|N]; [discriminate|exact N]. }
    inv_bind E u1 s1 E1. inv_bind E u2 s2 E2. apply ret_Ok in E. destruct E as (-> & ->).
    assert (E3 : enter m s = Ok (u2, s2)). { unfold enter. unfold bind. rewrite E1. exact E2. }
    exists (length ms - Datatypes.S x)%nat. split; [lia|]. split; [reflexivity|]. split; [lia|].
    destruct (enter_sound x m s u2 s2 Em HS HG S0 E3) as (HS' & HG' & S'). split; [exact HS'|]. split; [exact HG'|]. split; [exact S'|].
    apply enter_scan in E3. destruct E3 as (Sc & Ls). destruct Du as (B & So & Ii). destruct (Sc So) as (So' & I'). split; [|split; [exact So'|eapply incl_tran; eassumption]].
    pose proof (bill_enter eds U ms x s s2 L Ls). unfold HotHaltP.bill in *. lia. }
  apply T. split; [reflexivity|]. split; [apply le_n|]. auto.
Qed.

(** ** Horizontal edges *)
Definition hor_body (f : nat) (y : Z) (k : nat) : prog (nat + unit) :=
     (abl <- gets s_abl ;;
      match nth_error abl k with
      | None => ret (inr tt)
      | Some None => ret (inl (Datatypes.S k))
      | Some (Some i) =>
          (e <- current_edge i ;;
           if is_horizontal e then (k' <- process_horizontal f op sfk cfk y k ;; ret (inl k'))
           else ret (inl (Datatypes.S k)))
      end).
Lemma hor_eq f y : process_horizontals f op sfk cfk y = bind (loopM f (hor_body f y) O) (fun _ => abl_compact). Proof. reflexivity. Qed.
Lemma mo_horizontal y k : mono (fun f => process_horizontal f op sfk cfk y k). Proof. mof fuel_process_horizontal. Qed.
Lemma mo_hor_cont y x abl : mono (fun f => match nth_error abl x with
      | None => ret (inr tt) | Some None => ret (inl (Datatypes.S x))
      | Some (Some i) => (e <- current_edge i ;; if is_horizontal e then (k' <- process_horizontal f op sfk cfk y x ;; ret (inl k')) else ret (inl (Datatypes.S x))) end : prog (nat + unit)).
Proof.
  destruct (nth_error abl x) as [[i|]|]; try apply mono_const. apply mono_bind; [apply mono_const|]. intros e. destruct (is_horizontal e); [|apply mono_const].
  apply mono_bind; [apply mo_horizontal|intros; apply mono_const].
Qed.
Lemma mo_hor_body y x : mono (fun f => hor_body f y x).
Proof. unfold hor_body. apply mono_bind; [apply mono_const|]. intros abl. apply mo_hor_cont. Qed.
Definition hor_bill (k : nat) (s : st) : nat := (left_over eds U s * Datatypes.S (length (s_abl s)) + room k s)%nat.
Definition at_hor (n : nat) (l : list Z) (k : nat) (y : Z) (c x : nat) (s : st) : Prop :=
  c = hor_bill x s /\ Inv (both x (QD y) nf) s /\ stc s /\ sound s /\ dues n l k s.
Lemma tot_hor n l k y : tot (fun s => Inv (All (QD y)) s /\ stc s /\ G k s /\ sound s /\ dues n l k s)
  (fun f => process_horizontals f op sfk cfk y) (fun _ s => Inv (All (QE y)) s /\ stc s /\ G k s /\ sound s /\ dues n l k s).
Proof.
  intros s (HI & HS & HG & S0 & Du).
  assert (T : tot (at_hor n l k y (hor_bill O s) O) (fun f => loopM f (hor_body f y) O) (fun _ s => stc s /\ sound s /\ dues n l k s)).
  { apply (tot_loop (fun f x => hor_body f y x) (at_hor n l k y)); [apply mo_hor_body|]. clear s HI HS HG S0 Du.
    intros c x s (-> & H & HS & S0 & Du). destruct (nth_error (s_abl s) x) as [[i|]|] eqn:En.
    - assert (Lx : (x < length (s_abl s))%nat) by (apply nth_error_Some; congruence).
      assert (Bi : base eds Rec i (bget (s_bounds s) i)) by (destruct H as (_ & _ & A & _); apply (A i (nth_error_In _ _ En))).
      pose proof Bi as (Ri & Lc & _). assert (Iu : In i U) by (apply HU, Ri).
      split.
      + unfold hor_body. apply (halt_bind (fun _ => gets s_abl) (fun f abl => match nth_error abl x with
          | None => ret (inr tt) | Some None => ret (inl (Datatypes.S x))
          | Some (Some i) => (e <- current_edge i ;; if is_horizontal e then (k' <- process_horizontal f op sfk cfk y x ;; ret (inl k')) else ret (inl (Datatypes.S x))) end)).
        * apply mono_const.
        * intros abl. apply mo_hor_cont.
        * apply halt_fin. fi.
        * intros _ abl s1 E. apply gets_Ok in E. destruct E as (-> & ->). rewrite En.
          apply (halt_bind (fun _ => current_edge i) (fun f e => if is_horizontal e then (k' <- process_horizontal f op sfk cfk y x ;; ret (inl k')) else ret (inl (Datatypes.S x)))).
          -- apply mono_const.
          -- intros e. destruct (is_horizontal e); [|apply mono_const]. apply mono_bind; [apply mo_horizontal|intros; apply mono_const].
          -- apply halt_fin. fi.
          -- intros _ e s1 E1. apply un_current_edge in E1. unfold unchanged in E1. subst s1. destruct (is_horizontal e); [|apply halt_fin; fi].
             apply (halt_bind (fun f => process_horizontal f op sfk cfk y x) (fun _ k' => ret (inl k'))); [apply mo_horizontal|intros; apply mono_const| |intros; apply halt_fin; fi].
             apply (good_horizontal op sfk cfk y x). exact S0.
      + intros f r s' E. unfold hor_body in E. inv_bind E abl s1 E1. apply gets_Ok in E1. destruct E1 as (-> & ->). rewrite En in E.
        inv_bind E e s1 E1. apply (edge_run eds) in E1; [|apply H]. destruct E1 as (E1 & ->). destruct (is_horizontal e) eqn:Hh.
        * inv_bind E x' s1 E2. apply ret_Ok in E. destruct E as (-> & ->). exists (hor_bill x' s1).
          assert (Nself : b_max (bget (s_bounds s) i) <> Some i).
          { destruct (part w rs R0 i Ri) as (m & Rm & P). rewrite (paired_max w i s m HS P). pose proof (paired_ne w rs R0 i m Ri P). congruence. }
          destruct (horizontal_less eds U op sfk cfk _ _ _ _ _ _ _ Iu (stc_stat s HS) Lc En Nself E2) as (Ls & M).
          pose proof (good_pres _ (good_horizontal op sfk cfk y x) f _ _ _ E2 S0) as S1. pose proof M as (_ & L1 & _).
          assert (HS1 : stc s1) by (eapply stc_pres; [apply st_ph|exact E2|exact HS]).
          apply (horizontal_inv eds Rec (eds_chain w rs R0) (eds_hor w rs R0)) with (i := i) (e := e) in E2; [|exact H|exact En|exact E1|exact Hh].
          split; [|split; [reflexivity|split; [exact E2|split; [exact HS1|split; [exact S1|eapply dues_mv; [apply H|exact M|exact Du]]]]]].
          unfold hor_bill, room. rewrite L1. apply weigh; [lia|]. auto.
        * apply ret_Ok in E. destruct E as (-> & ->). exists (hor_bill (Datatypes.S x) s). split; [unfold hor_bill, room; lia|]. split; [reflexivity|].
          split; [|split; [exact HS|split; [exact S0|exact Du]]]. destruct H as (V & S & A & B). split; [exact V|]. split; [exact S|]. split; [exact A|].
          intros p j L Hp. destruct (Nat.eq_dec p x) as [->|N]; [|apply B with (p := p); [lia|exact Hp]]. rewrite En in Hp. injection Hp as <-.
          intros g Hg. unfold cure in Hg, E1. congruence.
    - assert (Lx : (x < length (s_abl s))%nat) by (apply nth_error_Some; congruence). split.
      + exists O. unfold hor_body. unfold bind at 1. unfold gets. rewrite En. discriminate.
      + intros f r s' E. unfold hor_body in E. inv_bind E abl s1 E1. apply gets_Ok in E1. destruct E1 as (-> & ->). rewrite En in E.
        apply ret_Ok in E. destruct E as (-> & ->). exists (hor_bill (Datatypes.S x) s). split; [unfold hor_bill, room; lia|]. split; [reflexivity|].
        split; [|split; [exact HS|split; [exact S0|exact Du]]]. destruct H as (V & S & A & B). split; [exact V|]. split; [exact S|]. split; [exact A|].
        intros p j L Hp. destruct (Nat.eq_dec p x) as [->|N]; [congruence|]. apply B with (p := p); [lia|exact Hp].
    - split.
      + exists O. unfold hor_body. unfold bind at 1. unfold gets. rewrite En. discriminate.
      + intros f r s' E. unfold hor_body in E. inv_bind E abl s1 E1. apply gets_Ok in E1. destruct E1 as (-> & ->). rewrite En in E.
        apply ret_Ok in E. destruct E as (-> & ->). auto. }
  destruct (T s) as (T1 & T2).
  { split; [reflexivity|]. split; [|split; [exact HS|split; [exact S0|exact Du]]]. destruct HI as (V & S & A). split; [exact V|]. split; [exact S|].
    split; [exact A|]. intros p i L. lia. }
  split.
  - change (halt (fun f => bind (loopM f (hor_body f y) O) (fun _ => abl_compact)) s). apply (halt_bind (fun f => loopM f (hor_body f y) O) (fun _ _ => abl_compact)).
    + apply mono_loop. apply mo_hor_body.
    + intros; apply mono_const.
    + exact T1.
    + intros. apply halt_fin. fi.
  - intros f u s' E. pose proof E as E'. pose proof (tri_horizontals eds Rec (eds_chain w rs R0) (eds_hor w rs R0) _ _ _ _ _ _ _ _ HI E) as HI'.
    split; [exact HI'|]. pose proof (G_horizontals w rs R0 f op sfk cfk true k y s u s' HI HS HG E) as HG'.
    rewrite hor_eq in E. inv_bind E u1 s1 E1. destruct (T2 f u1 s1 E1) as (H1 & H2 & H3). split; [eapply stc_pres; [apply st_abl_compact|exact E|exact H1]|].
    split; [exact HG'|]. split; [eapply jr_compact; eassumption|]. apply sl_compact in E.
    eapply dues_pay; [apply stc_stat, H1|apply still_pay, E|exact H3].
Qed.

(** ** The last pass over the active bounds *)
Definition last_body (y : Z) (i : bid) : prog unit :=
     (im <- is_intermediate i y ;;
      if (im : bool) then
        (b <- bd i ;;
         (if is_some (b_ring b)
          then (e <- current_edge i ;; add_point_to_ring i (etop e)) else ret tt) ;;
         to_next_edge i)
      else ret tt).
Lemma last_run y s u s' : All (fun i _ => Rec i) s -> (ids <- abl_ids ;; forM ids (last_body y)) s = Ok (u, s') -> mv s s'.
Proof.
  intros A E. inv_bind E ids s1 E1. apply ids_run in E1. destruct E1 as (E1 & ->).
  assert (F : forall i, In i ids -> In i U). { intros i I. apply HU, (A i). rewrite E1. apply in_map, I. }
  clear E1 A. revert s E F. induction ids as [|i ids IH]; intros s E F; cbn [forM] in E; [apply ret_Ok in E; destruct E as (_ & ->); apply R_refl|].
  inv_bind E u1 s1 E1. eapply R_trans; [eapply mv_last; [apply F; left; reflexivity|exact E1]|]. apply IH; [exact E|]. intros j I. apply F. right. exact I.
Qed.
Lemma jr_last y : pres keeps (ids <- abl_ids ;; forM ids (last_body y)). Proof. unfold last_body. jr_auto. Qed.
Lemma fin_last y : fin (ids <- abl_ids ;; forM ids (last_body y)). Proof. unfold last_body. fi. Qed.
Lemma peats_eq f y k : process_edges_at_top_of_scanbeam f op sfk cfk y ms k =
  bind (loopM f (top_body f y) O) (fun _ => bind abl_compact (fun _ => bind (insert_local_minima f op sfk cfk true y ms k) (fun k' =>
    bind (process_horizontals f op sfk cfk y) (fun _ => bind abl_ids (fun ids => bind (forM ids (last_body y)) (fun _ => ret k')))))).
Proof. reflexivity. Qed.

Lemma mo_top_loop y : mono (fun f => loopM f (top_body f y) O). Proof. apply mono_loop, mo_top_body. Qed.
Lemma mo_minima h y k : mono (fun f => insert_local_minima f op sfk cfk h y ms k). Proof. mof fuel_insert_local_minima. Qed.
Lemma mo_hors y : mono (fun f => process_horizontals f op sfk cfk y). Proof. mof fuel_process_horizontals. Qed.
Lemma mo_peats y k : mono (fun f => process_edges_at_top_of_scanbeam f op sfk cfk y ms k). Proof. mof fuel_process_edges_at_top_of_scanbeam. Qed.
Lemma mo_hpi y : mono (fun f => update_current_hot_pixel_index f y). Proof. mof fuel_update_current_hot_pixel_index. Qed.
Lemma mo_inter y : mono (fun f => process_intersections f op sfk cfk y). Proof. mof fuel_process_intersections. Qed.
Hint Resolve mo_top_loop mo_minima mo_hors mo_peats mo_hpi mo_inter : mono.
Definition fine (J : st -> Prop) (n : nat) (l : list Z) (k : nat) (s : st) : Prop := Inv J s /\ stc s /\ G k s /\ sound s /\ dues n l k s.
Lemma tot_edges n l y k : tot (fine (All (QB y)) n l k) (fun f => process_edges_at_top_of_scanbeam f op sfk cfk y ms k)
  (fun k' s => (k <= k')%nat /\ stopped y ms k' /\ fine (All (QE y)) n l k' s).
Proof.
  assert (T : tot (fine (All (QB y)) n l k) (fun f => process_edges_at_top_of_scanbeam f op sfk cfk y ms k) (fun k' s => (k <= k')%nat /\ stc s /\ sound s /\ dues n l k' s)).
  { apply (tot_bind (fine (All (QB y)) n l k) (fun f => loopM f (top_body f y) O) (fun f _ => bind abl_compact (fun _ => bind (insert_local_minima f op sfk cfk true y ms k) (fun k' =>
      bind (process_horizontals f op sfk cfk y) (fun _ => bind abl_ids (fun ids => bind (forM ids (last_body y)) (fun _ => ret k')))))) (fun _ => fine (All (QD y)) n l k)).
    { apply mo_top_loop. }
    { intros; mo. }
    { apply tot_top_loop. }
    intros u. apply (tot_bind _ (fun _ => abl_compact) (fun f _ => bind (insert_local_minima f op sfk cfk true y ms k) (fun k' =>
      bind (process_horizontals f op sfk cfk y) (fun _ => bind abl_ids (fun ids => bind (forM ids (last_body y)) (fun _ => ret k'))))) (fun _ => fine (All (QD y)) n l k)).
    { mo. }
    { intros; mo. }
    { apply tot_fin; [fi|]. intros s u1 s' (HI & HS & HG & S0 & Du) E. split; [eapply tri_compact; eassumption|]. split; [eapply stc_pres; [apply st_abl_compact|exact E|exact HS]|].
      split; [eapply (G_compact w op sfk cfk true); eassumption|]. split; [eapply jr_compact; eassumption|].
      apply sl_compact in E. eapply dues_pay; [apply stc_stat, HS|apply still_pay, E|exact Du]. }
    intros u1. apply (tot_bind _ (fun f => insert_local_minima f op sfk cfk true y ms k) (fun f k' =>
      bind (process_horizontals f op sfk cfk y) (fun _ => bind abl_ids (fun ids => bind (forM ids (last_body y)) (fun _ => ret k')))) (fun k' s => (k <= k')%nat /\ fine (All (QD y)) n l k' s)).
    { mo. }
    { intros; mo. }
    { intros s (HI & HS & HG & S0 & Du). destruct (tot_minima n l true y k s) as (H1 & H2); [auto|]. split; [exact H1|]. intros f k' s' E.
      destruct (H2 f k' s' E) as (L & HS' & HG' & S' & Du' & _). split; [exact L|].
      apply (insert_true_inv eds Rec (eds_hor w rs R0) _ _ _ _ _ _ (ms_ok w rs R0) _ _ _ _ HI) in E. split; [apply E|]. auto. }
    intros k'. apply (tot_bind _ (fun f => process_horizontals f op sfk cfk y) (fun _ _ => bind abl_ids (fun ids => bind (forM ids (last_body y)) (fun _ => ret k'))) (fun _ s => (k <= k')%nat /\ fine (All (QE y)) n l k' s)).
    { mo. }
    { intros; mo. }
    { intros s (L & H). destruct (tot_hor n l k' y s H) as (H1 & H2). split; [exact H1|]. intros f a s' E. split; [exact L|]. eapply H2, E. }
    intros u2. apply tot_fin; [unfold last_body; fi|]. intros s k1 s' (L & HI & HS & HG & S0 & Du) E.
    assert (E' : (ids <- abl_ids ;; forM ids (last_body y)) s = Ok (tt, s') /\ k1 = k').
    { inv_bind E ids s1 E1. inv_bind E u3 s2 E2. apply ret_Ok in E. destruct E as (-> & ->). split; [|reflexivity]. unfold bind. rewrite E1. destruct u3. exact E2. }
    clear E. destruct E' as (E & ->). split; [exact L|]. split; [|split; [eapply jr_last; eassumption|]].
    - revert E HS. apply stc_pres. apply pres_bind; [exact _|apply st_abl_ids|]. intros ids. apply pres_forM; [exact _|]. intros i. unfold last_body. pres_auto.
    - eapply dues_mv; [apply stc_stat, HS| |exact Du]. eapply last_run; [|exact E]. destruct HI as (_ & _ & A). intros i I. apply A, I. }
  intros s H. destruct (T s H) as (H1 & H2). split; [exact H1|]. intros f k' s' E. destruct (H2 f k' s' E) as (L & HS & S0 & Du). destruct H as (HI & HS0 & HG & _).
  split; [exact L|]. pose proof (edges_inv eds Rec (eds_chain w rs R0) (eds_hor w rs R0) _ _ _ _ _ _ _ _ _ _ (ms_ok w rs R0) HI E) as (HI' & Sp). split; [exact Sp|].
  split; [exact HI'|]. split; [exact HS|]. split; [exact (G_edges w rs R0 f op sfk cfk true y k s k' s' HI HS0 HG E)|]. auto.
Qed.

(** ** One turn *)
Definition turn_rest (f : nat) (y' : Z) (k : nat) : prog (Z * nat + unit) :=
     (process_intersections f op sfk cfk y' ;;
      update_current_hot_pixel_index f y' ;;
      k' <- process_edges_at_top_of_scanbeam f op sfk cfk y' ms k ;;
      k'' <- insert_local_minima f op sfk cfk false y' ms k' ;;
      ret (inl (y', k''))).
Lemma mo_rest' y k : mono (fun f => turn_rest f y k). Proof. unfold turn_rest. mo. Qed.
Lemma tot_turn_rest n l y k : tot (fine (All QA) n l k) (fun f => turn_rest f y k)
  (fun r s => exists k', r = inl (y, k') /\ (k <= k')%nat /\ sound s /\ dues n l k' s /\ forall m, nth_error ms k' = Some m -> lm_y m <> y).
Proof.
  apply (tot_bind _ (fun f => process_intersections f op sfk cfk y) (fun f _ => bind (update_current_hot_pixel_index f y) (fun _ =>
    bind (process_edges_at_top_of_scanbeam f op sfk cfk y ms k) (fun k' => bind (insert_local_minima f op sfk cfk false y ms k') (fun k'' => ret (inl (y, k'')))))) (fun _ => fine (All (QB y)) n l k)).
  { mo. }
  { intros; mo. }
  { intros s (HI & HS & HG & S0 & Du). split; [apply halt_intersections; assumption|]. intros f u s' E.
    pose proof (tri_intersections eds Rec f op sfk cfk y _ _ _ HI E) as HI'. split; [exact HI'|]. split; [eapply stc_pres; [apply st_process_intersections|exact E|exact HS]|].
    split; [exact (G_intersections w rs R0 f op sfk cfk true k y s u s' HI HG E)|]. split; [eapply jr_intersections; eassumption|].
    eapply dues_mv; [apply stc_stat, HS|eapply mv_intersections, E|exact Du]. }
  intros u. apply (tot_bind _ (fun f => update_current_hot_pixel_index f y) (fun f _ =>
    bind (process_edges_at_top_of_scanbeam f op sfk cfk y ms k) (fun k' => bind (insert_local_minima f op sfk cfk false y ms k') (fun k'' => ret (inl (y, k''))))) (fun _ => fine (All (QB y)) n l k)).
  { mo. }
  { intros; mo. }
  { intros s (HI & HS & HG & S0 & Du). split; [apply halt_hpi|]. intros f u1 s' E.
    split; [eapply (tri_hpi eds Rec); [apply All_jab|exact HI|exact E]|]. split; [eapply stc_pres; [apply st_update_hpi|exact E|exact HS]|]. split.
    { eapply (G_steady w op sfk cfk true); [|exact HG]. revert E. assert (P : pres steady (update_current_hot_pixel_index f y)) by (unfold update_current_hot_pixel_index; sd_auto). apply P. }
    split; [eapply jr_hpi; eassumption|]. eapply dues_mv; [apply stc_stat, HS|eapply mv_hpi, E|exact Du]. }
  intros u1. apply (tot_bind _ (fun f => process_edges_at_top_of_scanbeam f op sfk cfk y ms k) (fun f k' => bind (insert_local_minima f op sfk cfk false y ms k') (fun k'' => ret (inl (y, k''))))
    (fun k' s => (k <= k')%nat /\ stopped y ms k' /\ fine (All (QE y)) n l k' s)).
  { mo. }
  { intros; mo. }
  { apply tot_edges. }
  intros k'. apply (tot_bind _ (fun f => insert_local_minima f op sfk cfk false y ms k') (fun _ k'' => ret (inl (y, k'')))
    (fun k'' s => (k <= k'')%nat /\ sound s /\ dues n l k'' s /\ forall m, nth_error ms k'' = Some m -> lm_y m <> y)).
  { mo. }
  { intros; mo. }
  { intros s (L & _ & HI & HS & HG & S0 & Du). destruct (tot_minima n l false y k' s) as (H1 & H2); [auto|]. split; [exact H1|]. intros f k2 s' E.
    destruct (H2 f k2 s' E) as (L' & _ & _ & S' & Du' & N). split; [lia|]. auto. }
  intros k2. apply tot_fin; [fi|]. intros s r s' H E. apply ret_Ok in E. destruct E as (-> & ->). exists k2. split; [reflexivity|exact H].
Qed.
Definition set_out (k : nat) (s : st) : Prop := between k s /\ sound s /\ queued ms k s.
Definition turn (f : nat) (x : Z * nat) : prog (Z * nat + unit) := scanbeam_turn f op sfk cfk ms x.
Lemma mo_turn x : mono (fun f => turn f x).
Proof. unfold turn, scanbeam_turn. destruct x as [y k]. mo. Qed.
Lemma turn_eq f y k : turn f (y, k) = (go <- sweep_pending ms k ;; if (go : bool) then (y' <- pop_scanbeam y ;; turn_rest f y' k) else ret (inr tt)).
Proof. reflexivity. Qed.
Definition prepared (n : nat) (s0 : st) (k : nat) (y' : Z) (s : st) : Prop := s_scan s0 = s_scan s ++ [y'] /\ fine (All QA) n (s_scan s) k s.
Lemma pop_prepared k s y y' s' : set_out k s -> s_scan s <> [] -> pop_scanbeam y s = Ok (y', s') -> prepared (bill k s) s k y' s'.
Proof.
  intros ((HI & HS & HG) & S0 & (So & Q)) Ne E. pose proof (pop_run _ _ _ _ Ne E) as (Es & Eb & Ea). split; [exact Es|].
  split; [eapply (tri_pop eds Rec y); [apply All_jab|exact HI|exact E]|]. split; [eapply stc_pres; [apply st_pop_scanbeam|exact E|exact HS]|]. split.
  { eapply (G_steady w op sfk cfk true); [|exact HG]. revert E. assert (P : pres steady (pop_scanbeam y)) by (unfold pop_scanbeam; sd_auto). apply P. }
  split; [eapply jr_pop; eassumption|]. split; [|split; [|apply incl_refl]].
  - assert (P1 : pot s' = pot s) by (unfold PayP.pot; apply total_ext; intros i; unfold rest; rewrite Eb; reflexivity).
    unfold HotHaltP.bill, PayP.work. rewrite P1, Es, app_length. cbn [length]. lia.
  - rewrite Es in So. clear - So. induction (s_scan s') as [|a m IH]; [constructor|]. cbn in So. inversion So as [|? ? So' F]; subst. constructor; [apply IH, So'|].
    rewrite Forall_forall in F. apply Forall_forall. intros x I. apply F, in_or_app. auto.
Qed.
Lemma queue_full k s b s' : set_out k s -> sweep_pending ms k s = Ok (b, s') -> s' = s /\ (b = true -> s_scan s <> []).
Proof.
  intros (_ & _ & (_ & Q)) E. apply pending_run in E. destruct E as (-> & Pe). split; [reflexivity|]. intros -> Ez. specialize (Pe eq_refl Ez).
  destruct (nth_error ms k) as [m|] eqn:Em; [|apply nth_error_None in Em; lia]. specialize (Q k m (Nat.le_refl _) Em). rewrite Ez in Q. destruct Q.
Qed.
Lemma halt_turn' x s : set_out (snd x) s -> halt (fun f => turn f x) s.
Proof.
  intros H. destruct x as [y k]. cbn [snd] in H.
  change (halt (fun f => (go <- sweep_pending ms k ;; if (go : bool) then (y' <- pop_scanbeam y ;; turn_rest f y' k) else ret (inr tt))) s).
  pose proof mo_rest' as Mr.
  apply (halt_bind (fun _ => sweep_pending ms k) (fun f go => if (go : bool) then (y' <- pop_scanbeam y ;; turn_rest f y' k) else ret (inr tt))).
  - mo.
  - intros []; [|mo]. apply mono_bind; [mo|]. intros y'. apply Mr.
  - apply halt_fin. fi.
  - intros _ b s1 E. apply (queue_full k s) in E; [|exact H]. destruct E as (-> & Ne). destruct b; [|apply halt_fin; fi]. specialize (Ne eq_refl).
    apply (halt_bind (fun _ => pop_scanbeam y) (fun f y' => turn_rest f y' k)); [mo|intros; apply Mr|apply halt_fin; fi|].
    intros _ y' s1 E. apply pop_prepared with (k := k) in E; [|exact H|exact Ne]. destruct E as (_ & E). eapply (tot_turn_rest (bill k s) (s_scan s1) y' k), E.
Qed.
Lemma turn_run' f x s x' s' : set_out (snd x) s -> turn f x s = Ok (inl x', s') -> set_out (snd x') s' /\ (bill (snd x') s' < bill (snd x) s)%nat.
Proof.
  intros H E. destruct x as [y k], x' as [y' k']. cbn [snd] in *. pose proof (G_turn w rs R0 f op sfk cfk true y k s y' k' s' (proj1 H) E) as B.
  rewrite turn_eq in E. inv_bind E b s1 E1. apply (queue_full k s) in E1; [|exact H]. destruct E1 as (-> & Ne). destruct b; [|discriminate]. specialize (Ne eq_refl).
  inv_bind E y1 s1 E1. apply pop_prepared with (k := k) in E1; [|exact H|exact Ne]. destruct E1 as (Es & F).
  apply (proj2 (tot_turn_rest _ _ _ _ _ F)) in E. destruct E as (k2 & Eq & L & S' & (Bl & So & Ii) & N). injection Eq as -> ->.
  split; [|exact Bl]. split; [exact B|]. split; [exact S'|]. eapply (queued_turn ms k k2 s s1 s' y1); [apply lm_before|apply H|exact Es| |exact L|exact N].
  intros _. split; assumption.
Qed.
Lemma halt_vatti s0 : Inv (fun _ => True) s0 -> stc s0 -> sound (sweep_start minimums s0) -> halt (fun f => execute_vatti f op sfk cfk minimums) s0.
Proof.
  intros HI HS S0. pose proof mo_turn as Mt.
  change (halt (fun f => bind (modify (sweep_start minimums)) (fun _ => loopM f (turn f) (0, O))) s0).
  apply (halt_bind (fun _ => modify (sweep_start minimums)) (fun f _ => loopM f (turn f) (0, O))).
  - apply mono_const.
  - intros _. apply mono_loop. exact Mt.
  - apply halt_fin. fi.
  - intros _ u s1 E. apply modify_Ok in E. subst s1.
    apply (halt_loop turn (fun x => set_out (snd x)) (fun x s => bill (snd x) s)).
    + exact Mt.
    + intros x t. apply halt_turn'.
    + intros f x t x' t' Ht E. eapply turn_run'; eassumption.
    + cbn [snd]. split; [|split; [exact S0|]].
      * apply (G_swept w rs R0 O op sfk cfk true s0 0 O _ eq_refl HI HS). apply swept_start.
      * destruct (scanbeams_of_spec minimums) as (Pm & So). split; [exact So|]. intros j m _ Hj. cbn.
        eapply Permutation_in; [exact Pm|]. apply in_map. eapply Permutation_in; [symmetry; apply PointersP.pure_sort_rev_perm|]. eapply nth_error_In, Hj.
Qed.
End Sweep.
