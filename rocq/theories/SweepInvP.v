(** * A whole sweep keeps the active list right, unless a bound leaves without its partner *)
From Coq Require Import ZArith List Bool Lia FMapPositive Permutation.
From Coq Require Import Floats.SpecFloat.
From RecordUpdate Require Import RecordSet.
From Verif Require Import Py Monad Utils Geometry LinearRingM BoundM LocalMinimumM
     StateM PointNodeM RingM SweepM TopologyM WagyuM SpecBounds HoareP SweepFrameP SpecSweep SpecActive SpecOrigin SpecRun ListP QuickP FuelP
     HotPixelP WindingP CalmP WindingInvP PointersP VatP IntersectP InsertP MaximaP OriginP FloatP PositionP AddRingP HistoryP PropOrigin SweepRunP.
Import ListNotations RecordSetNotations.
Open Scope Z_scope.
Local Open Scope m_scope.

(** ** No bound occurs twice *)
Definition nd (s s' : st) : Prop := NoDup (live s) -> NoDup (live s').
#[export] Instance nd_pre : PreOrd nd.
Proof. split; unfold nd; auto. Qed.
#[export] Hint Resolve nd_pre : pres.
Lemma nd_abl s s' : s_abl s' = s_abl s -> nd s s'.
Proof. intros E. unfold nd, live. rewrite E. auto. Qed.
Lemma nd_quiet {A} (m : prog A) : pres quiet m -> pres nd m.
Proof. apply pres_mono. intros s s' Q. apply nd_abl, Q. Qed.
Lemma nd_steady {A} (m : prog A) : pres steady m -> pres nd m.
Proof. apply pres_mono. intros s s' Q. apply nd_abl, Q. Qed.
Lemma nd_unchanged {A} (m : prog A) : pres unchanged m -> pres nd m.
Proof. apply pres_mono. intros s s' ->. apply R_refl. Qed.
#[export] Hint Resolve nd_quiet nd_steady nd_unchanged qt_intersect_bounds qt_add_lmax : pres.
Lemma somes_in l i : In i (somes_of l) <-> In (Some i) l.
Proof.
  unfold somes_of. rewrite in_flat_map. split.
  - intros ([x|] & I1 & I2); [|destruct I2]. destruct I2 as [->|[]]. exact I1.
  - intros I. exists (Some i). split; [exact I|left; reflexivity].
Qed.
Lemma somes_upd_none : forall l k, NoDup (somes_of l) -> NoDup (somes_of (upd l k None)).
Proof.
  induction l as [|o l IH]; intros [|k] N; cbn [upd] in *; auto.
  - destruct o; cbn in *; [inversion N; assumption|exact N].
  - destruct o as [i|]; cbn in *; [|apply IH, N]. inversion N as [|? ? A B]; subst. constructor; [|apply IH, B].
    intros X. apply A. change (In i (somes_of (upd l k None))) in X. change (In i (somes_of l)). rewrite somes_in in *. apply In_upd in X. destruct X as [X|X]; [discriminate|exact X].
Qed.
Lemma nd_set_none k : pres nd (abl_set k None).
Proof. intros s u s' E. apply set_run in E. destruct E as ((_ & _ & A) & _). unfold nd, live. rewrite A. apply somes_upd_none. Qed.
Lemma upd_split {A} : forall (l : list A) k x, (k < length l)%nat -> exists l1 y l2, l = l1 ++ y :: l2 /\ length l1 = k /\ upd l k x = l1 ++ x :: l2.
Proof.
  induction l as [|a l IH]; intros k x L; [cbn in L; lia|]. destruct k as [|k].
  - exists [], a, l. auto.
  - cbn in L. destruct (IH k x ltac:(lia)) as (l1 & y & l2 & E1 & E2 & E3). exists (a :: l1), y, l2. cbn. rewrite E3. split; [congruence|]. auto.
Qed.
Lemma swap_perm {A} (l : list A) a b x y : nth_error l a = Some x -> nth_error l b = Some y -> Permutation l (upd (upd l a y) b x).
Proof.
  revert a b. induction l as [|z l IH]; intros a b Ha Hb; [destruct a; discriminate|]. destruct a as [|a], b as [|b]; cbn in Ha, Hb |- *.
  - injection Ha as ->. apply Permutation_refl.
  - injection Ha as ->. assert (Lb : (b < length l)%nat) by (apply nth_error_Some; congruence).
    destruct (upd_split l b x Lb) as (l1 & y' & l2 & E1 & E2 & E3). rewrite E3. subst l. rewrite nth_error_app2 in Hb by lia.
    rewrite E2, Nat.sub_diag in Hb. injection Hb as ->. rewrite <- (Permutation_middle l1 l2 x), <- (Permutation_middle l1 l2 y).
    apply perm_swap.
  - injection Hb as ->. assert (La : (a < length l)%nat) by (apply nth_error_Some; congruence).
    destruct (upd_split l a y La) as (l1 & x' & l2 & E1 & E2 & E3). rewrite E3. subst l. rewrite nth_error_app2 in Ha by lia.
    rewrite E2, Nat.sub_diag in Ha. injection Ha as ->. rewrite <- (Permutation_middle l1 l2 x), <- (Permutation_middle l1 l2 y).
    apply perm_swap.
  - apply perm_skip, IH; assumption.
Qed.
Lemma somes_perm l l' : Permutation l l' -> Permutation (somes_of l) (somes_of l').
Proof. apply Permutation_flat_map. Qed.
Lemma nd_swap a b : pres nd (abl_swap a b).
Proof.
  intros s u s' E. apply swap_run in E. destruct E as (x & y & Hx & Hy & (_ & _ & A)). unfold nd, live. rewrite A. apply Permutation_NoDup, somes_perm.
  apply swap_perm; assumption.
Qed.
#[export] Hint Resolve nd_set_none nd_swap : pres.
Lemma somes_filter l : somes_of (filter is_some l) = somes_of l.
Proof. unfold somes_of in *. induction l as [|[i|] l IH]; [reflexivity| |exact IH]. cbn. f_equal. exact IH. Qed.
Lemma live_compact s u s' : abl_compact s = Ok (u, s') -> live s' = live s.
Proof. intros E. apply modify_Ok in E. subst s'. unfold live. cbn. apply somes_filter. Qed.
Section Nd.
Context (fuel : nat) (op : operation_kind) (sfk cfk : fill_kind).
Lemma nd_walk k m : pres nd (maxima_walk fuel op sfk cfk k m).
Proof.
  unfold maxima_walk. apply pres_bind; [typeclasses eauto|auto with pres|]. intros n.
  generalize (range (S k) n) as js. generalize false. intros b0 js. revert k b0.
  induction js as [|j js IH]; intros k' sk; pres_auto.
Qed.
#[local] Hint Resolve nd_walk : pres.
Lemma nd_do_maxima k m : pres nd (do_maxima fuel op sfk cfk k m).
Proof. unfold do_maxima. pres_auto. Qed.
Lemma nd_ltr_step i y mx mi j x : pres nd (ltr_step fuel op sfk cfk i y mx mi j x).
Proof. unfold ltr_step. pres_auto. Qed.
Lemma nd_rtl_step i y mx mi j x : pres nd (rtl_step fuel op sfk cfk i y mx mi j x).
Proof. unfold rtl_step. pres_auto. Qed.
#[local] Hint Resolve nd_ltr_step nd_rtl_step : pres.
Lemma nd_ltr_loop i y mx mi js : forall x, pres nd (ltr_loop fuel op sfk cfk i y mx mi js x).
Proof. induction js as [|j js IH]; intros x; cbn [ltr_loop]; pres_auto. Qed.
Lemma nd_rtl_loop i y mx mi js : forall x, pres nd (rtl_loop fuel op sfk cfk i y mx mi js x).
Proof. induction js as [|j js IH]; intros x; cbn [rtl_loop]; pres_auto. Qed.
#[local] Hint Resolve nd_ltr_loop nd_rtl_loop : pres.
Lemma nd_finish i k : pres nd (finish_horizontal i k).
Proof. unfold finish_horizontal. pres_auto. Qed.
#[local] Hint Resolve nd_finish : pres.
Lemma nd_horizontal y k : pres nd (process_horizontal fuel op sfk cfk y k).
Proof. unfold process_horizontal, process_horizontal_left_to_right, process_horizontal_right_to_left. pres_auto. Qed.
Lemma nd_intersections y : pres nd (process_intersections fuel op sfk cfk y).
Proof.
  unfold process_intersections. apply pres_bind; [exact _|apply pres_gets; exact _|]. intros abl. destruct abl; [apply pres_ret; exact _|].
  apply pres_bind; [exact _|apply nd_steady, sd_update_current_x|]. intros u.
  apply pres_bind; [exact _| |].
  { intros s l s' E. apply build_intersect_list_spec in E. destruct E as (-> & _). apply R_refl. }
  intros l. destruct l as [|n l]; [apply pres_ret; exact _|]. generalize (n :: l). clear n l abl u. intros l.
  apply pres_bind; [exact _|apply nd_unchanged, un_py_sort|]. intros l'. generalize (length l'). intros c. revert l'.
  induction c as [|c IH]; intros [|n rest]; cbn [process_intersect_list]; try (apply pres_ret; exact _).
  apply pres_bind; [exact _|apply pres_gets; exact _|]. intros abl. apply pres_bind; [exact _|apply pres_lift; exact _|]. intros [k ok].
  apply pres_bind; [exact _| |].
  { destruct ok; [apply pres_ret; exact _|]. apply pres_bind; [exact _|apply pres_lift; exact _|]. intros [[pos k']|]; [|apply pres_raise].
    apply pres_bind; [exact _|apply pres_lift; exact _|]. intros m. apply pres_ret; exact _. }
  intros [[m rest'] k']. apply pres_bind; [exact _|apply pres_lift; exact _|]. intros p.
  apply pres_bind; [exact _|apply nd_quiet, qt_intersect_bounds|]. intros ?. apply pres_bind; [exact _|apply nd_swap|]. intros ?. apply IH.
Qed.
End Nd.
(** positions are determined *)
Lemma nodup_pos : forall l p q i, NoDup (somes_of l) -> nth_error l p = Some (Some i) -> nth_error l q = Some (Some i) -> p = q.
Proof.
  induction l as [|o l IH]; intros p q i N Hp Hq; [destruct p; discriminate|].
  assert (N' : NoDup (somes_of l)) by (destruct o; cbn in N; [inversion N; assumption|exact N]).
  assert (Hd : forall r, nth_error l r = Some (Some i) -> o <> Some i).
  { intros r Hr ->. cbn in N. inversion N as [|? ? A B]; subst. apply A. change (In i (somes_of l)). apply somes_in. eapply nth_error_In, Hr. }
  destruct p as [|p], q as [|q]; cbn in Hp, Hq.
  - reflexivity.
  - injection Hp as ->. destruct (Hd _ Hq eq_refl).
  - injection Hq as ->. destruct (Hd _ Hp eq_refl).
  - f_equal. eapply IH; eassumption.
Qed.

Section Sweep.
Context (w : wagyu) (rs : list (linear_ring * polygon_kind)) (R0 : well_recorded w rs).
Context (fuel : nat) (op : operation_kind) (sfk cfk : fill_kind).
Notation bs := (lml_bounds (w_minimums w)).
Notation minimums := (lml_values (w_minimums w)).
Notation ms := (pure_sort_rev lm_lt minimums).
Notation Rec := (recorded w).
Let eds (i : bid) : list edge := b_edges (bget bs i).
Notation Inv := (inv eds Rec).
Notation active_right := (active_right op sfk cfk).
Notation entered := (entered minimums).

Definition stc (s : st) : Prop := forall i, static_of (bget (s_bounds s) i) = static_of (bget bs i).
Lemma stc_pres {A} (m : prog A) s a s' : pres static_rel m -> m s = Ok (a, s') -> stc s -> stc s'.
Proof. intros P E H i. pose proof (P _ _ _ E i) as X. rewrite X. apply H. Qed.
Lemma ms_perm : Permutation minimums ms.
Proof. apply pure_sort_rev_perm. Qed.
Lemma rec_in i : Rec i <-> exists m, In m ms /\ (i = lm_left m \/ i = lm_right m).
Proof.
  unfold recorded. split; intros (m & I & H); exists m; (split; [|exact H]).
  - eapply Permutation_in; [apply ms_perm|exact I].
  - eapply Permutation_in; [apply Permutation_sym, ms_perm|exact I].
Qed.
Lemma entered_rec k i : entered k i -> Rec i.
Proof.
  intros (m & I & H). apply rec_in. exists m. split; [|exact H]. rewrite <- (firstn_skipn k). apply in_or_app. left. exact I.
Qed.
Lemma part i : Rec i -> exists j, Rec j /\ paired bs i j.
Proof. apply (wr_pair _ _ R0). Qed.
Lemma paired_fun i j j' : paired bs i j -> b_max (bget bs i) = Some j' -> j' = j.
Proof. intros (A & _) B. congruence. Qed.
Lemma paired_sym i j : paired bs i j -> paired bs j i.
Proof. intros (A & B & C & D & E). repeat split; try congruence. lia. Qed.
Lemma rec_delta i : Rec i -> unit_delta (b_wd (bget bs i)) /\ (b_wd (bget bs i) = -1 -> ends_sloped (eds i)).
Proof.
  intros (m & I & H). pose proof (wr_shape _ _ R0) as S. rewrite Forall_forall in S. specialize (S m I).
  destruct S as (_ & _ & _ & _ & _ & _ & _ & D & _ & _ & D1 & D2). unfold unit_delta, eds. destruct H as [->| ->]; split; auto; tauto.
Qed.
Lemma paired_ne i j : Rec i -> paired bs i j -> i <> j.
Proof. intros R (_ & _ & _ & D & _) ->. destruct (rec_delta j R) as ([U|U] & _); lia. Qed.
Lemma paired_rec i j : Rec i -> paired bs i j -> Rec j.
Proof. intros R P. destruct (part i R) as (j' & Rj & P'). destruct P as (A & _), P' as (A' & _). congruence. Qed.
Lemma max_paired i s j : stc s -> Rec i -> b_max (bget (s_bounds s) i) = Some j -> paired bs i j.
Proof.
  intros H R E. destruct (part i R) as (j' & _ & P). specialize (H i). unfold static_of in H. injection H as _ _ _ H.
  rewrite H in E. rewrite (paired_fun _ _ _ P E). exact P.
Qed.
Lemma paired_max i s j : stc s -> paired bs i j -> b_max (bget (s_bounds s) i) = Some j.
Proof. intros H (E & _). specialize (H i). unfold static_of in H. injection H as _ _ _ H. congruence. Qed.
Lemma paired_partners i j s : stc s -> paired bs i j -> partners s i j.
Proof.
  intros H (_ & _ & _ & D & K). pose proof (H i) as Hi. pose proof (H j) as Hj. unfold static_of in *. injection Hi as _ D1 K1 _. injection Hj as _ D2 K2 _.
  split; [congruence|]. rewrite D1, D2. lia.
Qed.
(** the minima are used one after the other *)
Lemma entered_S k m i : nth_error ms k = Some m -> (entered (S k) i <-> entered k i \/ i = lm_left m \/ i = lm_right m).
Proof.
  intros Hm. assert (E : firstn (S k) ms = firstn k ms ++ [m]).
  { revert k Hm. generalize ms. induction l as [|x l IH]; intros [|k] Hm; cbn in Hm; try discriminate.
    - injection Hm as ->. reflexivity.
    - cbn [firstn app]. f_equal. apply IH, Hm. }
  unfold SpecRun.entered. rewrite E. split.
  - intros (x & I & H). apply in_app_or in I. destruct I as [I|[<-|[]]]; [left; eauto|right; exact H].
  - intros [(x & I & H)|H].
    + exists x. split; [apply in_or_app; auto|exact H].
    + exists m. split; [apply in_or_app; right; left; reflexivity|exact H].
Qed.
Lemma entered_fresh k m : nth_error ms k = Some m -> ~ entered k (lm_left m) /\ ~ entered k (lm_right m) /\ lm_left m <> lm_right m.
Proof.
  intros Hm. assert (N : NoDup (flat_map ids_of ms)).
  { eapply Permutation_NoDup; [apply Permutation_flat_map, ms_perm|apply (wr_nodup _ _ R0)]. }
  unfold SpecRun.entered. apply nth_error_split in Hm. destruct Hm as (l1 & l2 & E & L).
  rewrite E in N. rewrite E. rewrite firstn_app, L, Nat.sub_diag, <- L, firstn_all. cbn [firstn]. rewrite app_nil_r.
  rewrite flat_map_app in N. cbn [flat_map ids_of app] in N.
  assert (X : forall i, (exists m0, In m0 l1 /\ (i = lm_left m0 \/ i = lm_right m0)) -> In i (flat_map ids_of l1)).
  { intros i (m0 & I & H). apply in_flat_map. exists m0. split; [exact I|]. cbn. destruct H; auto. }
  split; [|split].
  - intros H. apply X in H. apply NoDup_remove_2 in N. apply N, in_or_app. auto.
  - intros H. apply X in H. apply NoDup_remove_1 in N. apply NoDup_remove_2 in N. apply N, in_or_app. auto.
  - intros H. apply NoDup_remove_2 in N. apply N, in_or_app. right. left. auto.
Qed.

(** ** The invariant *)
Definition fine (k : nat) (s : st) : Prop :=
  forall i j, entered k i -> ~ In i (live s) -> paired bs i j -> entered k j /\ ~ In j (live s).
Definition lost (k : nat) (s : st) (i m : bid) : Prop :=
  paired bs i m /\ entered k i /\ ~ In i (live s) /\ (In m (live s) \/ ~ entered k m) /\ ends_sloped (eds m) /\ ~ ends_sloped (eds i).
(** with [flag = false] a bound has been lost for certain *)
Context (flag : bool).
Definition G (k : nat) (s : st) : Prop :=
  NoDup (live s) /\ (forall i, In i (live s) -> entered k i) /\ (flag = true /\ active_right s /\ fine k s \/ exists i m, lost k s i m).
Lemma G_members k s s' : same_members s s' -> nd s s' -> (active_right s -> active_right s') -> G k s -> G k s'.
Proof.
  intros M N A (H1 & H2 & H3). split; [apply N, H1|]. split; [intros i I; apply H2, M, I|]. destruct H3 as [(Hf & H3 & H4)|(i & m & P & E & Ni & Hm & Sl)].
  - left. split; [exact Hf|]. split; [apply A, H3|]. intros i j Ei Ni P. destruct (H4 i j Ei) as (X & Y); [intros I; apply Ni, M, I|exact P|].
    split; [exact X|]. intros I. apply Y, M, I.
  - right. exists i, m. split; [exact P|]. split; [exact E|]. split; [intros I; apply Ni, M, I|]. split; [|exact Sl].
    destruct Hm as [Hm|Hm]; [left; apply M, Hm|right; exact Hm].
Qed.
Lemma G_steady k s s' : steady s s' -> G k s -> G k s'.
Proof. intros (A & B). apply G_members; [apply sm_abl, A|apply nd_abl, A|apply steady_active; split; assumption]. Qed.

(** ** Intersections *)
Lemma positions_numbers y s u s1 : Inv (All (QA eds Rec)) s -> update_current_x y s = Ok (u, s1) ->
  forall i, In i (live s1) -> exists x, b_cx (bget (s_bounds s1) i) = NF x /\ f_is_nan x = false.
Proof.
  intros (_ & St & A) E. unfold update_current_x in E. inv_bind E abl s0 E1. apply gets_Ok in E1. destruct E1 as (-> & ->).
  set (abl := s_abl s) in *.
  set (num (i : bid) (b : bound) := exists x, b_cx b = NF x /\ f_is_nan x = false) in *.
  assert (K : forall l s s', stat eds s -> All (QA eds Rec) s -> s_abl s = abl ->
    (forall i, In (Some i) abl -> In (Some i) (map snd l) \/ num i (bget (s_bounds s) i)) ->
    (forall o, In o (map snd l) -> In o abl) -> forM l (fun '(k, o) =>
     (i <- deref o ;;
      upd_bound i (fun b => b <| b_pos := k |>) ;;
      e <- current_edge i ;;
      x <- lift (get_current_x e y) ;;
      upd_bound i (fun b => b <| b_cx := NF x |>))) s = Ok (u, s') -> forall i, In i (live s') -> num i (bget (s_bounds s') i)).
  { clear - R0. clearbody abl. intros l. induction l as [|[k o] l IH]; intros s0 s' S A Ea D Sub E; cbn [forM] in E.
    - apply ret_Ok in E. destruct E as (_ & ->). intros i I. apply live_in in I. rewrite Ea in I. destruct (D i I) as [[]|D']. exact D'.
    - inv_bind E u1 s1 E1. inv_bind E1 i s2 E2. apply deref_Ok in E2. destruct E2 as (-> & ->).
      inv_bind E1 u2 s2 E2. apply moved_upd in E2. inv_bind E1 e s3 E3.
      assert (S2 : stat eds s2) by (eapply moved_stat; [exact E2|apply S|exact S]).
      apply (edge_run eds) in E3; [|exact S2]. destruct E3 as (E3 & ->). rewrite (moved_self _ _ _ _ E2) in E3.
      inv_bind E1 x s3 E4. apply lift_Ok in E4. destruct E4 as (E4 & ->). apply moved_upd in E1.
      rewrite (moved_self _ _ _ _ E2) in E1. pose proof (moved_trans _ _ _ _ _ _ E2 E1) as M. cbn in E3.
      assert (Ii : In (Some i) (s_abl s0)) by (rewrite Ea; apply Sub; left; reflexivity).
      pose proof (A i Ii) as Qi.
      eapply (IH s1 s'); [| | | | |exact E].
      + eapply moved_stat; [exact M|apply S|exact S].
      + eapply moved_All; [exact M| |exact A]. exact Qi.
      + destruct M as (_ & M & _). congruence.
      + intros j Ij. destruct M as (_ & _ & M). rewrite M. destruct (Pos.eqb_spec i j) as [<-|N].
        * right. exists x. split; [reflexivity|]. destruct Qi as ((Ri & _) & Nf). eapply current_x_number; [|apply Nf; exact E3|exact E4].
          eapply recorded_edge_well_made; [exact R0|exact Ri|]. eapply nth_error_In. exact E3.
        * destruct (D j Ij) as [D'|D']; [|auto]. cbn in D'. destruct D' as [D'|D']; [congruence|auto].
      + intros o I. apply Sub. right. exact I. }
  eapply K; [exact St|exact A|reflexivity| | |exact E].
  - intros i I. left. rewrite snd_combine; [exact I|apply seq_length].
  - intros o I. rewrite snd_combine in I; [exact I|apply seq_length].
Qed.
Lemma positions_ok y s : Inv (All (QA eds Rec)) s -> positions_comparable y s.
Proof.
  intros H s1 u E i j Hi Hj. destruct (positions_numbers _ _ _ _ H E i Hi) as (x & -> & Nx).
  destruct (positions_numbers _ _ _ _ H E j Hj) as (z & -> & Nz). apply leb_total; assumption.
Qed.
Lemma G_intersections k y s u s' : Inv (All (QA eds Rec)) s -> G k s -> process_intersections fuel op sfk cfk y s = Ok (u, s') -> G k s'.
Proof.
  intros H HG E. eapply G_members; [eapply sm_intersections, E|eapply nd_intersections, E| |exact HG].
  intros A. destruct (process_intersections_right fuel op sfk cfk y s s' u A (positions_ok y s H) E) as (X & _). exact X.
Qed.

(** ** The top of a scanbeam *)
(** the bound is on its last edge, which is not horizontal and ends at height [y] *)
Definition atmax (y : Z) (i : bid) (b : bound) : Prop :=
  b_next b = length (eds i) /\ exists e, cure eds i b e /\ is_horizontal e = false /\ py (etop e) = y.
Lemma atmax_qst y : qst (atmax y).
Proof.
  intros i b b' E (A & e & B & C). unfold qcore in E. injection E as _ Ec En _ _ _ _ _. split; [congruence|].
  exists e. unfold cure in *. rewrite Ec. auto.
Qed.
Definition unv (k : nat) (s : st) : Prop :=
  forall p i, (k <= p)%nat -> nth_error (s_abl s) p = Some (Some i) -> nf eds i (bget (s_bounds s) i).
Definition vis (y : Z) (k : nat) (s : st) : Prop :=
  forall p q i j, (p < k)%nat -> nth_error (s_abl s) p = Some (Some i) -> nth_error (s_abl s) q = Some (Some j) -> paired bs i j ->
  ~ (atmax y i (bget (s_bounds s) i) /\ atmax y j (bget (s_bounds s) j)).
Definition T (y : Z) (K k : nat) (s : st) : Prop := Inv (both k (QC eds Rec y) (pr eds y)) s /\ stc s /\ unv k s /\ vis y k s /\ G K s.

Lemma maxima_true i y s b s' : stat eds s -> is_maxima i y s = Ok (b, s') ->
  (b = true -> b_next (bget (s_bounds s) i) = length (eds i) /\ exists e, cure eds i (bget (s_bounds s) i) e /\ py (etop e) = y) /\
  (forall e, cure eds i (bget (s_bounds s) i) e -> b_next (bget (s_bounds s) i) = length (eds i) -> py (etop e) = y -> b = true).
Proof.
  intros S E. unfold is_maxima in E. inv_bind E b0 s1 E1. apply bd_Ok in E1. destruct E1 as (-> & ->). rewrite S in E.
  destruct (Nat.eqb_spec (b_next (bget (s_bounds s) i)) (length (eds i))) as [L|L].
  - inv_bind E e s1 E1. apply lift_Ok in E1. destruct E1 as (E1 & ->). apply ret_Ok in E. destruct E as (-> & ->).
    unfold cur_edge_of, nth_res in E1. rewrite S in E1. destruct (nth_error (eds i) _) as [e'|] eqn:En; [|discriminate]. injection E1 as ->.
    split.
    + intros Hy. split; [exact L|]. exists e. split; [exact En|]. apply Z.eqb_eq, Hy.
    + intros e' He _ Hy. unfold cure in He. assert (e' = e) by congruence. subst e'. apply Z.eqb_eq, Hy.
  - apply ret_Ok in E. destruct E as (-> & ->). split; [discriminate|]. intros; contradiction.
Qed.
Lemma find_bound_here l i : In (Some i) l -> exists p, find_bound (Some i) l = p /\ (p < length l)%nat /\ nth_error l p = Some (Some i).
Proof.
  intros I. apply In_nth_error in I. destruct I as (q & Hq). destruct (find_if_spec (opt_is (Some i)) l) as (A & B & C).
  unfold find_bound. set (p := find_if (opt_is (Some i)) l) in *. exists p. split; [reflexivity|].
  assert (Lq : (q < length l)%nat) by (apply nth_error_Some; congruence).
  assert (Lp : (p <= q)%nat).
  { destruct (Nat.le_gt_cases p q) as [L|L]; [exact L|]. specialize (B q (Some i) L Hq). cbn in B. rewrite Pos.eqb_refl in B. discriminate. }
  split; [lia|]. destruct (nth_error l p) as [o|] eqn:Ep; [|apply nth_error_None in Ep; lia]. specialize (C o Ep).
  destruct o as [x|]; cbn in C; [|discriminate]. apply Pos.eqb_eq in C. congruence.
Qed.
(** removing two partners *)
Lemma G_removed K k k' s s' i j : stc s -> G K s -> nth_error (s_abl s) k = Some (Some i) -> paired bs i j -> In j (live s) ->
  nd s s' -> removed_two k k' i j (s_abl s) (s_abl s') ->
  (active_right s -> active_right s' /\ exists l1 l2 l3, live s = l1 ++ i :: l2 ++ j :: l3 /\ live s' = l1 ++ l2 ++ l3) -> G K s'.
Proof.
  intros St (N & Sub & H) Hk P Ij Nd Rt Right.
  assert (In' : forall x, In x (live s') -> In x (live s)) by (intros x; rewrite !live_in; eapply removed_two_in, Rt).
  assert (Ii : In i (live s)) by (apply live_in; eapply nth_error_In, Hk).
  assert (Oth : forall x, x <> i -> x <> j -> In x (live s) -> In x (live s')) by (intros x; rewrite !live_in; apply Rt).
  split; [apply Nd, N|]. split; [intros x I; apply Sub, In', I|]. destruct H as [(Hf & A & F)|(i0 & m0 & Pl & Ei & Ni & Hm & Sl)].
  - destruct (Right A) as (A' & l1 & l2 & l3 & E1 & E2). left. split; [exact Hf|]. split; [exact A'|]. intros x z Ex Nx Px.
    assert (Gone : ~ In i (live s') /\ ~ In j (live s')).
    { rewrite E1 in N. rewrite E2. split; intros X.
      - apply NoDup_remove_2 in N. apply N. apply in_app_or in X. apply in_or_app. destruct X as [X|X]; [auto|right]. apply in_app_or in X. apply in_or_app. destruct X; [auto|right; right; assumption].
      - change (l1 ++ i :: l2 ++ j :: l3) with (l1 ++ (i :: l2) ++ j :: l3) in N. rewrite app_assoc in N. apply NoDup_remove_2 in N. apply N.
        rewrite <- app_assoc. apply in_app_or in X. apply in_or_app. destruct X as [X|X]; [auto|right; right]. exact X. }
    assert (D : ~ In x (live s) \/ x = i \/ x = j).
    { destruct (Pos.eq_dec x i) as [|D1]; [auto|]. destruct (Pos.eq_dec x j) as [|D2]; [auto|]. left. intros I. apply Nx, Oth; assumption. }
    destruct D as [D|[->| ->]].
    + destruct (F x z Ex D Px) as (X1 & X2). split; [exact X1|]. intros I. apply X2, In', I.
    + assert (z = j) by (destruct Px, P; congruence). subst z. split; [apply Sub, Ij|apply Gone].
    + apply paired_sym in P. assert (z = i) by (destruct Px, P; congruence). subst z. split; [apply Sub, Ii|apply Gone].
  - right. exists i0, m0. split; [exact Pl|]. split; [exact Ei|]. split; [intros I; apply Ni, In', I|]. split; [|exact Sl].
    destruct Hm as [Hm|Hm]; [left|right; exact Hm]. apply Oth; [| |exact Hm].
    + intros ->. apply paired_sym in Pl. assert (i0 = j) by (destruct Pl, P; congruence). subst i0. contradiction.
    + intros ->. apply paired_sym in Pl. apply paired_sym in P. assert (i0 = i) by (destruct Pl, P; congruence). subst i0. contradiction.
Qed.
Lemma T_top y K k i s k' s' : T y K k s -> nth_error (s_abl s) k = Some (Some i) -> top_step fuel op sfk cfk y k i s = Ok (k', s') -> T y K k' s'.
Proof.
  intros (HI & HS & HU & HV & HG) Hk E.
  pose proof (top_inv eds Rec (eds_chain w rs R0) (eds_hor w rs R0) _ _ _ _ _ _ _ _ _ _ HI Hk E) as HI'.
  pose proof (stc_pres _ _ _ _ (st_top_step _ _ _ _ _ _ _) E HS) as HS'.
  split; [exact HI'|]. split; [exact HS'|]. clear HI' HS'.
  assert (St : stat eds s) by apply HI. assert (Rc : forall x, In x (live s) -> Rec x).
  { intros x I. apply live_in in I. destruct HI as (_ & _ & A & _). apply (QC_Rec eds Rec y x (bget (s_bounds s) x)). apply A, I. }
  assert (Ii : In i (live s)) by (apply live_in; eapply nth_error_In, Hk).
  assert (Ri : Rec i) by (apply Rc, Ii). destruct (part i Ri) as (j & Rj & P).
  assert (Mx : b_max (bget (s_bounds s) i) = Some j) by (apply paired_max; assumption).
  assert (Nij : i <> j) by (eapply paired_ne; eassumption).
  unfold top_step in E. inv_bind E mx s1 E1. pose proof (maxima_same _ _ _ _ _ E1). subst s1.
  destruct (maxima_true _ _ _ _ _ St E1) as (M1 & M2). clear E1.
  inv_bind E m s1 E1.
  assert (K1 : s1 = s /\ match m with
     | Some m => mx = true /\ (m = length (s_abl s) \/ nth_error (s_abl s) m = Some (Some j) /\ atmax y j (bget (s_bounds s) j))
     | None => ~ (atmax y i (bget (s_bounds s) i) /\ In j (live s) /\ atmax y j (bget (s_bounds s) j)) end).
  { destruct mx; [|apply ret_Ok in E1; destruct E1 as (-> & ->); split; [reflexivity|]; intros ((A1 & e & A2 & A3 & A4) & _); discriminate (M2 e A2 A1 A4)].
    inv_bind E1 b s2 E2. apply bd_Ok in E2. destruct E2 as (-> & ->). inv_bind E1 abl s2 E2. apply gets_Ok in E2. destruct E2 as (-> & ->).
    rewrite Mx in E1. cbv zeta in E1. destruct (Nat.eqb_spec (find_bound (Some j) (s_abl s)) (length (s_abl s))) as [L|L].
    - apply ret_Ok in E1. destruct E1 as (-> & ->). auto.
    - inv_bind E1 j' s2 E2. apply bound_run in E2. destruct E2 as (E2 & ->). pose proof (find_bound_spec _ _ j eq_refl _ E2). subst j'.
      inv_bind E1 e s2 E3. apply (edge_run eds) in E3; [|exact St]. destruct E3 as (E3 & ->). destruct (is_horizontal e) eqn:Hh.
      + apply ret_Ok in E1. destruct E1 as (-> & ->). split; [reflexivity|]. intros (_ & _ & (_ & e' & A2 & A3 & _)). unfold cure in A2. congruence.
      + inv_bind E1 jm s2 E4. pose proof (maxima_same _ _ _ _ _ E4). subst s2. destruct (maxima_true _ _ _ _ _ St E4) as (N1 & N2).
        apply ret_Ok in E1. destruct E1 as (-> & ->). split; [reflexivity|]. destruct jm.
        * split; [reflexivity|]. right. split; [exact E2|]. destruct (N1 eq_refl) as (A1 & e' & A2 & A3). split; [exact A1|]. exists e'. unfold cure in *.
          assert (e' = e) by congruence. subst e'. auto.
        * intros (_ & _ & (A1 & e' & A2 & A3 & A4)). discriminate (N2 e' A2 A1 A4). }
  destruct K1 as (-> & K1). clear E1. destruct m as [m|].
  - (* a local maximum *)
    destruct K1 as (-> & K1). destruct (M1 eq_refl) as (A1 & e & A2 & A3).
    assert (Ai : atmax y i (bget (s_bounds s) i)).
    { split; [exact A1|]. exists e. split; [exact A2|]. split; [|exact A3]. eapply HU; [|exact Hk|exact A2]. lia. }
    assert (Lk : (k < length (s_abl s))%nat) by (apply nth_error_Some; congruence).
    assert (Nkm : k <> m).
    { intros <-. destruct K1 as [K1|(K1 & _)]; [lia|]. congruence. }
    pose proof (do_maxima_list fuel op sfk cfk k m i k' s s' Hk Nkm E) as (j' & Hj & Sb & Rt).
    destruct K1 as [->|(K1 & Aj)].
    { assert (length (s_abl s) < length (s_abl s))%nat by (apply nth_error_Some; congruence). lia. }
    assert (j' = j) by congruence. subst j'. clear K1.
    assert (Lm : (k < m)%nat).
    { destruct (Nat.le_gt_cases m k) as [L|L]; [|exact L]. exfalso. apply (HV m k j i); [lia|exact Hj|exact Hk|apply paired_sym, P|auto]. }
    split; [|split].
    + intros p x Lp Hp. destruct (rt_high _ _ _ _ _ _ Rt p x Lp Hp) as (q & Lq & Hq). eapply nf_qst; [apply Sb|eapply HU; eassumption].
    + intros p q x z Lp Hp Hq Pxz (B1 & B2). destruct (rt_low _ _ _ _ _ _ Rt p x Lp Hp) as (Lp' & Hp').
      assert (Iz : In (Some z) (s_abl s)) by (eapply removed_two_in; [exact Rt|eapply nth_error_In, Hq]).
      apply In_nth_error in Iz. destruct Iz as (q' & Hq'). apply (HV p q' x z Lp' Hp' Hq' Pxz). split; eapply atmax_qst; try eassumption; symmetry; apply Sb.
    + eapply (G_removed K k k' s s' i j); [exact HS|exact HG|exact Hk|exact P|apply live_in; eapply nth_error_In, Hj|eapply nd_do_maxima, E|exact Rt|].
      intros A. destruct (do_maxima_right fuel op sfk cfk s k m i j k' s' A Hk Hj Lm (paired_partners _ _ _ HS P) E) as (X1 & X2 & _). auto.
  - (* the bound goes on *)
    assert (Q : (pres steady (im <- is_intermediate i y ;;
        promote <- (if (im : bool) then (ne <- next_edge i ;; ret (is_horizontal ne))
                    else ret false) ;;
        (if (promote : bool) then
           (b <- bd i ;;
            (if is_some (b_ring b)
             then (e <- current_edge i ;; insert_hot_pixels_in_path i (etop e) false)
             else ret tt) ;;
            to_next_edge i ;;
            b <- bd i ;;
            if is_some (b_ring b)
            then (e <- current_edge i ;; add_point_to_ring i (ebot e))
            else ret tt)
         else
           (e <- current_edge i ;;
            x <- lift (get_current_x e y) ;;
            upd_bound i (fun b => b <| b_cx := NF x |>))) ;;
        ret (S k)))).
    { assert (X1 : pres steady (is_intermediate i y)) by (apply sd_calm_ring, cr_is_intermediate).
      assert (X2 : forall p e, pres steady (insert_hot_pixels_in_path i p e)) by (intros; apply sd_calm_ring, cr_insert_hp).
      assert (X3 : forall p, pres steady (add_point_to_ring i p)) by (intros; apply sd_calm_ring, cr_add_point_to_ring).
      sd_auto. }
    pose proof (Q _ _ _ E) as Sd. clear Q.
    assert (Ea : s_abl s' = s_abl s) by apply Sd.
    assert (Ch : k' = S k /\ (forall x, x <> i -> qcore (bget (s_bounds s') x) = qcore (bget (s_bounds s) x)) /\
      (atmax y i (bget (s_bounds s') i) -> atmax y i (bget (s_bounds s) i))).
    { inv_bind E im s1 E1. assert (s1 = s) by (apply (inter_run eds) in E1; [apply E1|exact St]). subst s1.
      inv_bind E pm s1 E2. assert (E2' : s1 = s /\ (pm = true -> im = true /\ exists ne, next_edge i s = Ok (ne, s) /\ is_horizontal ne = true)).
      { destruct im; [|apply ret_Ok in E2; destruct E2 as (-> & ->); split; [reflexivity|discriminate]].
        inv_bind E2 ne s2 E3. apply ret_Ok in E2. destruct E2 as (-> & ->). pose proof E3 as E4. unfold next_edge in E4. inv_bind E4 b s3 E5.
        apply bd_Ok in E5. destruct E5 as (-> & ->). apply lift_Ok in E4. destruct E4 as (_ & ->). split; [reflexivity|]. intros Hh. split; [reflexivity|]. eauto. }
      destruct E2' as (-> & Pm). clear E2. inv_bind E u s2 E2. apply ret_Ok in E. destruct E as (-> & ->). split; [reflexivity|].
      destruct pm.
      - destruct (Pm eq_refl) as (-> & ne & Ene & Hne). clear Pm. apply (inter_run eds) in E1; [|exact St]. destruct E1 as (_ & E1 & _).
        destruct (E1 eq_refl) as (Ln & e0 & He0 & Ye0). clear E1.
        assert (Qi : QC eds Rec y i (bget (s_bounds s) i)) by (apply HI; eapply nth_error_In, Hk). destruct (Qi) as ((_ & Li & Ni) & _).
        inv_bind E2 b s1 E1. apply bd_Ok in E1. destruct E1 as (-> & ->). inv_bind E2 u1 s1 E1.
        assert (Qt : quiet s s1).
        { destruct (is_some _); [|apply ret_Ok in E1; destruct E1 as (_ & ->); apply R_refl]. inv_bind E1 e1 s3 E3. apply un_current_edge in E3.
          unfold unchanged in E3. subst s3. eapply qt_insert_hp, E1. }
        pose proof (stat_quiet eds _ _ Qt St) as St1. apply quiet_inv in Qt. destruct Qt as (Qt & _).
        inv_bind E2 u2 s3 E3. apply (next_run eds) in E3; [|exact St1]. cbv zeta in E3. destruct E3 as (b' & Mv & Eb & C).
        pose proof (Qt i) as Q2. unfold qcore in Q2. injection Q2 as _ Q2a Q2b _ _ _ _ _. rewrite Q2a in C.
        destruct C as [(f & Hf & Cu & _)|(C & _)]; [|rewrite Ni in Ln; lia].
        assert (f = ne).
        { unfold next_edge in Ene. inv_bind Ene b0 s4 E4. apply bd_Ok in E4. destruct E4 as (-> & ->). apply lift_Ok in Ene. destruct Ene as (Ene & _).
          unfold next_edge_of, nth_res in Ene. rewrite St, Ni, Hf in Ene. injection Ene as ->. reflexivity. }
        subst f. inv_bind E2 b s4 E4. apply bd_Ok in E4. destruct E4 as (-> & ->).
        assert (Qt2 : quiet s3 s2).
        { destruct (is_some (b_ring (bget (s_bounds s3) i))); [|apply ret_Ok in E2; destruct E2 as (_ & ->); apply R_refl]. inv_bind E2 e1 s4 E4. apply un_current_edge in E4.
          unfold unchanged in E4. subst s4. eapply qt_add_point_to_ring, E2. }
        apply quiet_inv in Qt2. destruct Qt2 as (Qt2 & _). destruct (Mv) as (_ & _ & Mb). split.
        + intros x Nx. rewrite Qt2, Mb. destruct (Pos.eqb_spec i x) as [->|_]; [contradiction|]. apply Qt.
        + intros A. exfalso. eapply atmax_qst in A; [|symmetry; apply Qt2]. rewrite (moved_self _ _ _ _ Mv) in A.
          destruct A as (_ & e1 & B1 & B2 & _). unfold cure in B1. rewrite Cu in B1. congruence.
      - inv_bind E2 e s1 E3. apply un_current_edge in E3. unfold unchanged in E3. subst s1. inv_bind E2 x s1 E3. apply lift_Ok in E3. destruct E3 as (_ & ->).
        apply moved_upd in E2. pose proof (moved_self _ _ _ _ E2) as Ms. destruct E2 as (_ & _ & Mb). split.
        + intros z Nz. rewrite Mb. destruct (Pos.eqb_spec i z) as [->|_]; [contradiction|reflexivity].
        + rewrite Ms. intros A. exact A. }
    destruct Ch as (-> & Ch1 & Ch2). assert (Nd : NoDup (somes_of (s_abl s))) by apply HG.
    split; [|split].
    + intros p x Lp Hp. rewrite Ea in Hp. assert (x <> i) by (intros ->; pose proof (nodup_pos _ _ _ _ Nd Hp Hk); lia).
      eapply nf_qst; [apply Ch1; assumption|]. apply (HU p); [lia|exact Hp].
    + intros p q x z Lp Hp Hq Pxz (B1 & B2). rewrite Ea in Hp, Hq.
      assert (Nxz : x <> z) by (eapply paired_ne; [|exact Pxz]; apply Rc, live_in; eapply nth_error_In, Hp).
      assert (B2' : atmax y z (bget (s_bounds s) z)).
      { destruct (Pos.eq_dec z i) as [->|N]; [apply Ch2, B2|]. eapply atmax_qst; [symmetry; apply Ch1, N|exact B2]. }
      assert (B1' : atmax y x (bget (s_bounds s) x)).
      { destruct (Pos.eq_dec x i) as [->|N]; [apply Ch2, B1|]. eapply atmax_qst; [symmetry; apply Ch1, N|exact B1]. }
      destruct (Nat.eq_dec p k) as [->|Np].
      * assert (x = i) by congruence. subst x. assert (z = j) by (destruct Pxz, P; congruence). subst z. apply K1. split; [exact B1'|].
        split; [apply live_in; eapply nth_error_In, Hq|exact B2'].
      * apply (HV p q x z); [lia|exact Hp|exact Hq|exact Pxz|auto].
    + eapply G_steady; eassumption.
Qed.
Lemma top_loop y K s u s1 : Inv (All (QB eds Rec y)) s -> stc s -> G K s ->
  loopM fuel (fun idx =>
     (abl <- gets s_abl ;;
      match nth_error abl idx with
      | None => ret (inr tt)
      | Some None => ret (inl (S idx))
      | Some (Some i) => (idx' <- top_step fuel op sfk cfk y idx i ;; ret (inl idx'))
      end)) O s = Ok (u, s1) -> stc s1 /\ G K s1.
Proof.
  intros HI HS HG E.
  revert E. apply (tri_loop fuel _ (fun k s => T y K k s) (fun (_ : unit) s => stc s /\ G K s)).
  2: { destruct HI as (V & St & A). split; [|split; [exact HS|]].
       - split; [exact V|]. split; [exact St|]. split; [intros i I; apply QB_QC, A, I|]. intros p i L. lia.
       - split; [|split; [|exact HG]].
         + intros p i _ Hp. destruct (A i (nth_error_In _ _ Hp)) as ((_ & N) & _). exact N.
         + intros p q i j L. lia. }
  clear s u s1 HI HS HG. intros k s r s' H E. inv_bind E abl s1 E1. apply gets_Ok in E1. destruct E1 as (-> & ->).
  destruct (nth_error (s_abl s) k) as [[i|]|] eqn:En.
  - inv_bind E k' s1 E1. apply ret_Ok in E. destruct E as (-> & ->). eapply T_top; eassumption.
  - apply ret_Ok in E. destruct E as (-> & ->). destruct H as ((V & S & A & B) & H2 & H3 & H4 & H5). split; [|split; [exact H2|split; [|split; [|exact H5]]]].
    + split; [exact V|]. split; [exact S|]. split; [exact A|]. intros p j L Hp. destruct (Nat.eq_dec p k) as [->|N]; [congruence|]. apply B with (p := p); [lia|exact Hp].
    + intros p j L Hp. apply (H3 p); [lia|exact Hp].
    + intros p q i j L Hp. destruct (Nat.eq_dec p k) as [->|N]; [congruence|]. apply (H4 p q); [lia|exact Hp].
  - apply ret_Ok in E. destruct E as (-> & ->). destruct H as (_ & H2 & _ & _ & H5). auto.
Qed.
Lemma G_live k s s' : live s' = live s -> (forall i, same_counts s s' i) -> G k s -> G k s'.
Proof.
  intros E C. apply G_members.
  - intros i. rewrite E. tauto.
  - unfold nd. rewrite E. auto.
  - apply active_right_frame; assumption.
Qed.
Lemma G_compact k s u s' : abl_compact s = Ok (u, s') -> G k s -> G k s'.
Proof.
  intros E. apply G_live; [eapply live_compact, E|]. apply modify_Ok in E. subst s'. intros i. unfold same_counts, has_ring. cbn. auto.
Qed.

(** ** Local minima *)
Definition sabl (s s' : st) : Prop := s_abl s' = s_abl s.
#[local] Instance sabl_pre : PreOrd sabl.
Proof. split; unfold sabl; congruence. Qed.
Lemma sa_quiet {A} (m : prog A) : pres quiet m -> pres sabl m.
Proof. apply pres_mono. intros s s' Q. apply Q. Qed.
Lemma sa_steady {A} (m : prog A) : pres steady m -> pres sabl m.
Proof. apply pres_mono. intros s s' Q. apply Q. Qed.
Lemma insert_live l r s u s' : insert_lm_left_and_right_bound op sfk cfk l r s = Ok (u, s') ->
  exists l1 l2, live s = l1 ++ l2 /\ live s' = l1 ++ l :: r :: l2.
Proof.
  intros E. unfold insert_lm_left_and_right_bound in E. inv_bind E k s1 E1. unfold insert_bound_into_abl in E1.
  inv_bind E1 sx s0 E0. apply get_Ok in E0. destruct E0 as (-> & ->). inv_bind E1 k0 s0 E0. apply lift_Ok in E0. destruct E0 as (E0 & ->).
  apply find_insert_le in E0. inv_bind E1 u0 s0 E2. apply modify_Ok in E2. apply ret_Ok in E1. destruct E1 as (_ & ->).
  assert (P : pres sabl (set_winding_count sfk cfk k ;;
   i <- abl_bound k ;;
   j <- abl_bound (S k) ;;
   bi <- bd i ;;
   upd_bound j (fun b => b <| b_wc := b_wc bi |> <| b_owc := b_owc bi |>) ;;
   lb <- bd l ;;
   (if is_contributing op sfk cfk (b_kind lb) (b_wc lb) (b_owc lb)
    then (e <- current_edge i ;; add_local_minimum_point (ebot e) i j)
    else ret tt) ;;
   ei <- current_edge i ;;
   insort_scan (py (etop ei)) ;;
   ej <- current_edge j ;;
   if is_horizontal ej then ret tt else insort_scan (py (etop ej)))).
  { apply pres_bind; [exact _|apply sa_quiet, qt_winding|]. intros ?. apply pres_bind; [exact _|apply sa_quiet, qt_abl_bound|]. intros i.
    apply pres_bind; [exact _|apply sa_quiet, qt_abl_bound|]. intros j. apply pres_bind; [exact _|apply sa_quiet, qt_bd|]. intros bi.
    apply pres_bind; [exact _|apply sa_quiet; qt_prim|]. intros ?. apply pres_bind; [exact _|apply sa_quiet, qt_bd|]. intros lb.
    apply pres_bind; [exact _|apply sa_quiet; qt_auto|]. intros ?. apply pres_bind; [exact _|apply sa_quiet, qt_current_edge|]. intros ei.
    apply pres_bind; [exact _|apply sa_steady, sd_insort|]. intros ?. apply pres_bind; [exact _|apply sa_quiet, qt_current_edge|]. intros ej.
    destruct (is_horizontal ej); [apply pres_ret; exact _|apply sa_steady, sd_insort]. }
  apply P in E. unfold sabl in E. unfold live. rewrite E. subst s0. cbn. rewrite (insert_two _ _ _ _ E0).
  exists (somes_of (firstn k0 (s_abl s))), (somes_of (skipn k0 (s_abl s))).
  split; [rewrite <- somes_app, firstn_skipn; reflexivity|rewrite somes_app; reflexivity].
Qed.
Lemma init_run2 i side s u s' : stat eds s -> eds i <> [] -> init_bound i side s = Ok (u, s') -> exists b, moved i b s s' /\ b_ring b = None.
Proof.
  intros S N E. unfold init_bound in E. inv_bind E b s1 E1. apply bd_Ok in E1. destruct E1 as (-> & ->). rewrite S in E.
  destruct (eds i) as [|e l] eqn:El; [congruence|]. inv_bind E x s1 E1. apply lift_Ok in E1. destruct E1 as (E1 & ->).
  apply moved_upd in E. eexists. split; [exact E|reflexivity].
Qed.
Lemma G_insert k m s u s' : nth_error ms k = Some m -> stc s -> G k s ->
  (initialize m ;; insert_lm_left_and_right_bound op sfk cfk (lm_left m) (lm_right m)) s = Ok (u, s') -> G (S k) s'.
Proof.
  intros Hm HS (N & Sub & H) E. destruct (entered_fresh k m Hm) as (Fl & Fr & Nlr).
  assert (Im : In m minimums) by (eapply Permutation_in; [apply Permutation_sym, ms_perm|eapply nth_error_In, Hm]).
  pose proof (wr_shape _ _ R0) as Sh. rewrite Forall_forall in Sh. specialize (Sh m Im). destruct Sh as (_ & El & Er & _ & _ & _ & Kd & Wd & _).
  inv_bind E u1 s1 E1. unfold initialize in E1. inv_bind E1 u0 s0 E0.
  assert (St : stat eds s) by (intros i; specialize (HS i); unfold static_of in HS; injection HS as X _ _ _; exact X).
  pose proof (st_init_bound _ _ _ _ _ E0) as X0. pose proof (st_init_bound _ _ _ _ _ E1) as X1.
  assert (HS0 : stc s0) by (intros i; rewrite (X0 i); apply HS). assert (HS1 : stc s1) by (intros i; rewrite (X1 i); apply HS0).
  assert (St0 : stat eds s0) by (intros i; specialize (HS0 i); unfold static_of in HS0; injection HS0 as X _ _ _; exact X).
  apply init_run2 in E0; [|exact St|exact El]. destruct E0 as (b1 & M1 & B1). apply init_run2 in E1; [|exact St0|exact Er]. destruct E1 as (b2 & M2 & B2).
  assert (Ea : s_abl s1 = s_abl s) by (destruct M1 as (_ & A1 & _), M2 as (_ & A2 & _); congruence).
  assert (Lv : live s1 = live s) by (unfold live; rewrite Ea; reflexivity).
  destruct (insert_live _ _ _ _ _ E) as (l1 & l2 & V1 & V2). rewrite Lv in V1.
  assert (Mem : forall x, In x (live s') <-> x = lm_left m \/ x = lm_right m \/ In x (live s)).
  { intros x. rewrite V1, V2. rewrite !in_app_iff. cbn. intuition auto. }
  assert (Nl : ~ In (lm_left m) (live s)) by (intros I; apply Fl, Sub, I). assert (Nr : ~ In (lm_right m) (live s)) by (intros I; apply Fr, Sub, I).
  split.
  { rewrite V1 in N, Nl, Nr. rewrite V2. apply (Permutation_NoDup (l := lm_left m :: lm_right m :: l1 ++ l2)).
    - eapply Permutation_trans; [apply perm_skip, Permutation_middle|apply Permutation_middle].
    - constructor; [cbn; intros [X|X]; [congruence|contradiction]|]. constructor; assumption. }
  split.
  { intros x I. rewrite (entered_S k m x Hm). apply Mem in I. intuition auto. }
  destruct H as [(Hf & A & F)|(i & j & P & Ei & Ni & Hj & Sl)].
  - left. split; [exact Hf|]. split.
    + assert (A1 : active_right s1).
      { destruct A as (_ & A). split; [rewrite Lv; exact N|]. rewrite Lv. rewrite list_right_okL in *. eapply okL_frame; [|intros x Ix|exact A]; [intros z; reflexivity|].
        assert (Eb : bget (s_bounds s1) x = bget (s_bounds s) x).
        { destruct M1 as (_ & _ & M1), M2 as (_ & _ & M2). rewrite M2. destruct (Pos.eqb_spec (lm_right m) x) as [X|_]; [rewrite <- X in Ix; contradiction|].
          rewrite M1. destruct (Pos.eqb_spec (lm_left m) x) as [X|_]; [rewrite <- X in Ix; contradiction|reflexivity]. }
        unfold same_counts, has_ring. rewrite Eb. auto. }
      pose proof (HS1 (lm_left m)) as Q1. pose proof (HS1 (lm_right m)) as Q2. unfold static_of in Q1, Q2. injection Q1 as _ Q1d Q1k _. injection Q2 as _ Q2d Q2k _.
      eapply (insert_minimum_right op sfk cfk (lm_left m) (lm_right m) s1 s' u A1 Nlr); [rewrite Lv; exact Nl|rewrite Lv; exact Nr| | | | | |exact E].
      * rewrite Q1d. unfold unit_delta. tauto.
      * congruence.
      * rewrite Q1d, Q2d. lia.
      * unfold has_ring. destruct M2 as (_ & _ & M2). rewrite M2. destruct (Pos.eqb_spec (lm_right m) (lm_left m)) as [X|_]; [congruence|].
        rewrite (moved_self _ _ _ _ M1), B1. reflexivity.
      * unfold has_ring. rewrite (moved_self _ _ _ _ M2), B2. reflexivity.
    + intros i j Ei Ni P. rewrite (entered_S k m i Hm) in Ei. rewrite Mem in Ni. assert (Ek : entered k i) by tauto.
      destruct (F i j Ek) as (X & Y); [tauto|exact P|]. rewrite (entered_S k m j Hm), Mem. split; [auto|]. intros [->|[->|Z]]; contradiction.
  - right. exists i, j. split; [exact P|]. rewrite !(entered_S k m _ Hm), !Mem. split; [auto|]. split; [intros [->|[->|Z]]; contradiction|]. split; [|exact Sl].
    destruct Hj as [Hj|Hj]; [auto|]. destruct (Pos.eq_dec j (lm_left m)) as [|D1]; [auto|]. destruct (Pos.eq_dec j (lm_right m)) as [|D2]; [auto|]. right. tauto.
Qed.
Lemma G_minima h y : forall k s k' s', stc s -> G k s -> insert_local_minima fuel op sfk cfk h y ms k s = Ok (k', s') -> stc s' /\ G k' s'.
Proof.
  intros k s k' s' HS HG E. split; [eapply stc_pres; [|exact E|exact HS]; apply st_insert_local_minima|].
  revert E. unfold insert_local_minima. apply (tri_loop fuel _ (fun k s => stc s /\ G k s) (fun k s => G k s)); [|auto].
  clear - R0. intros k s r s' (HS & HG) E. destruct (nth_error ms k) as [m|] eqn:Hm; [|apply ret_Ok in E; destruct E as (-> & ->); exact HG].
  destruct (_ && _); [|apply ret_Ok in E; destruct E as (-> & ->); exact HG].
  inv_bind E u0 s0 E0. inv_bind E u1 s1 E1. apply ret_Ok in E. destruct E as (-> & ->). split.
  - eapply stc_pres; [apply st_insert_lm|exact E1|]. eapply stc_pres; [apply st_initialize|exact E0|exact HS].
  - eapply (G_insert k m s u1); [exact Hm|exact HS|exact HG|]. unfold bind. rewrite E0. exact E1.
Qed.

(** ** Horizontal edges *)
Lemma flat_end i b e : base eds Rec i b -> cure eds i b e -> is_horizontal e = true -> (length (eds i) <= b_next b)%nat -> ~ ends_sloped (eds i).
Proof.
  intros (Ri & L & N) He Hh Le Es. unfold cure in He. pose proof He as He'. apply nth_error_split in He. destruct He as (l1 & l2 & E & L1).
  assert (l2 = []) by (destruct l2; [reflexivity|]; rewrite E, app_length in Le; cbn in Le; lia). subst l2.
  apply (Es l1 e E). apply (eds_hor w rs R0 i e Ri); [eapply nth_error_In, He'|exact Hh].
Qed.
Lemma G_horizontal K y p i e s p' s' : Inv (both p (QD eds Rec y) (nf eds)) s -> stc s -> G K s -> nth_error (s_abl s) p = Some (Some i) ->
  cure eds i (bget (s_bounds s) i) e -> is_horizontal e = true -> process_horizontal fuel op sfk cfk y p s = Ok (p', s') -> G K s'.
Proof.
  intros HI HS (N & Sub & H) Hp He Hh E.
  assert (Ii : In i (live s)) by (apply live_in; eapply nth_error_In, Hp).
  assert (Bi : base eds Rec i (bget (s_bounds s) i)) by (destruct HI as (_ & _ & A & _); apply (A i (nth_error_In _ _ Hp))).
  assert (Ri : Rec i) by apply Bi. destruct (part i Ri) as (m & Rm & P). pose proof (paired_ne _ _ Ri P) as Nim.
  pose proof (paired_max _ _ _ HS P) as Mx.
  assert (St : stat eds s) by apply HI.
  assert (Kp : kept i s s').
  { eapply process_horizontal_kept; [exact Hp|rewrite Mx; congruence|exact E]. }
  destruct Kp as (Kin & Kgo & Kst). rewrite St in Kgo. rewrite Mx in Kst.
  pose proof (nd_horizontal fuel op sfk cfk y p _ _ _ E N) as N'.
  split; [exact N'|]. split; [intros x I; apply Sub, Kin, I|].
  assert (Last : ~ (b_next (bget (s_bounds s) i) < length (eds i))%nat -> ~ ends_sloped (eds i)).
  { intros L. eapply flat_end; [exact Bi|exact He|exact Hh|lia]. }
  destruct H as [(Hf & A & F)|(i0 & m0 & Pl & Ei & Ni & Hm & Sl)].
  - assert (Hc : horizontal_outcome op sfk cfk s s' i).
    { eapply process_horizontal_cases; [exact A|exact Hp| |exact E]. intros x Hx. rewrite Mx in Hx. injection Hx as <-. apply paired_partners; assumption. }
    destruct Hc as [(A' & Pm)|[(A' & n & (_ & Mn) & Pm)|(L & l1 & l2 & Pm & V)]].
    + left. split; [exact Hf|]. split; [exact A'|]. assert (M : forall x, In x (live s') <-> In x (live s)).
      { intros x. split; apply Permutation_in; [apply Permutation_sym|]; exact Pm. }
      intros x z Ex Nx Px. rewrite M in *. destruct (F x z Ex) as (X & Y); [exact Nx|exact Px|]. auto.
    + rewrite Mx in Mn. injection Mn as <-. left. split; [exact Hf|]. split; [exact A'|].
      assert (M : forall x, In x (live s) <-> x = i \/ x = m \/ In x (live s')).
      { intros x. split; intros I; [apply (Permutation_in _ Pm) in I; cbn in I; intuition auto|].
        apply (Permutation_in _ (Permutation_sym Pm)). cbn. intuition auto. }
      assert (Gone : ~ In i (live s') /\ ~ In m (live s')).
      { apply (Permutation_NoDup Pm) in N. inversion N as [|? ? N1 N2]; subst. inversion N2 as [|? ? N3 N4]; subst. split; [|exact N3].
        intros X. apply N1. right. exact X. }
      assert (Em : entered K m) by (apply Sub, M; auto). assert (Ei : entered K i) by (apply Sub, Ii).
      intros x z Ex Nx Px. destruct (Pos.eq_dec x i) as [->|D1].
      { assert (z = m) by (destruct Px, P; congruence). subst z. split; [exact Em|apply Gone]. }
      destruct (Pos.eq_dec x m) as [->|D2].
      { apply paired_sym in P. assert (z = i) by (destruct Px, P; congruence). subst z. split; [exact Ei|apply Gone]. }
      destruct (F x z Ex) as (X & Y); [rewrite M; tauto|exact Px|]. split; [exact X|]. intros I. apply Y, M. auto.
    + rewrite St in L. right. exists i, m. split; [exact P|]. split; [apply Sub, Ii|]. 
      assert (Nl : NoDup (l1 ++ i :: l2)) by (eapply Permutation_NoDup; [exact Pm|exact N]).
      split; [rewrite V; apply NoDup_remove_2, Nl|]. split.
      * destruct (in_dec Pos.eq_dec m (live s)) as [Im|Im].
        -- left. rewrite V. apply (Permutation_in _ Pm) in Im. apply in_app_or in Im. apply in_or_app. destruct Im as [|[X|]]; auto. congruence.
        -- right. intros Em. apply paired_sym in P. destruct (F m i Em Im P) as (_ & X). contradiction.
      * assert (Ns : ~ ends_sloped (eds i)) by (apply Last; lia). split; [|exact Ns]. destruct (rec_delta i Ri) as (U & D). destruct (rec_delta m Rm) as (_ & Dm). apply Dm.
        destruct P as (_ & _ & _ & Dw & _). destruct U as [U|U]; [lia|]. destruct (Ns (D U)).
  - right. exists i0, m0. split; [exact Pl|]. split; [exact Ei|]. split; [intros X; apply Ni, Kin, X|]. split; [|exact Sl].
    destruct Hm as [Hm|Hm]; [|auto]. left. destruct (Pos.eq_dec m0 i) as [->|D].
    + destruct (Nat.lt_ge_cases (b_next (bget (s_bounds s) i)) (length (eds i))) as [L|L]; [apply Kgo; assumption|]. destruct Last; [lia|exact (proj1 Sl)].
    + apply Kst; [exact Hm|exact D|]. intros [= ->]. apply paired_sym in Pl. apply paired_sym in P. assert (i0 = i) by (destruct Pl, P; congruence). subst i0. contradiction.
Qed.
Lemma G_horizontals K y s u s' : Inv (All (QD eds Rec y)) s -> stc s -> G K s -> process_horizontals fuel op sfk cfk y s = Ok (u, s') -> G K s'.
Proof.
  intros HI HS HG E. unfold process_horizontals in E. inv_bind E u1 s1 E1. eapply G_compact; [exact E|]. clear E s' u.
  revert E1. apply (tri_loop fuel _ (fun k s => Inv (both k (QD eds Rec y) (nf eds)) s /\ stc s /\ G K s) (fun (_ : unit) s => G K s)).
  2: { split; [|auto]. destruct HI as (V & S & A). split; [exact V|]. split; [exact S|]. split; [exact A|]. intros p i L. lia. }
  clear - R0. intros k s r s' (H & HS & HG) E. inv_bind E abl s1 E1. apply gets_Ok in E1. destruct E1 as (-> & ->).
  destruct (nth_error (s_abl s) k) as [[i|]|] eqn:En.
  - inv_bind E e s1 E1. apply (edge_run eds) in E1; [|apply H]. destruct E1 as (E1 & ->). destruct (is_horizontal e) eqn:Hh.
    + inv_bind E k' s1 E2. apply ret_Ok in E. destruct E as (-> & ->). split; [|split].
      * eapply (horizontal_inv eds Rec (eds_chain w rs R0) (eds_hor w rs R0)); [exact H|exact En|exact E1|exact Hh|exact E2].
      * eapply stc_pres; [apply st_ph|exact E2|exact HS].
      * eapply G_horizontal; [exact H|exact HS|exact HG|exact En|exact E1|exact Hh|exact E2].
    + apply ret_Ok in E. destruct E as (-> & ->). split; [|auto]. destruct H as (V & S & A & B). split; [exact V|]. split; [exact S|]. split; [exact A|].
      intros p j L Hp. destruct (Nat.eq_dec p k) as [->|N]; [|apply B with (p := p); [lia|exact Hp]]. rewrite En in Hp. injection Hp as <-.
      intros g Hg. unfold cure in Hg. congruence.
  - apply ret_Ok in E. destruct E as (-> & ->). split; [|auto]. destruct H as (V & S & A & B). split; [exact V|]. split; [exact S|]. split; [exact A|].
    intros p j L Hp. destruct (Nat.eq_dec p k) as [->|N]; [congruence|]. apply B with (p := p); [lia|exact Hp].
  - apply ret_Ok in E. destruct E as (-> & ->). exact HG.
Qed.

(** ** One turn of the loop *)
Lemma ms_ok : Forall (min_ok eds Rec) ms.
Proof. eapply Permutation_Forall; [apply ms_perm|apply (minima_ok w rs R0)]. Qed.
Lemma G_edges y k s k' s' : Inv (All (QB eds Rec y)) s -> stc s -> G k s ->
  process_edges_at_top_of_scanbeam fuel op sfk cfk y ms k s = Ok (k', s') -> G k' s'.
Proof.
  intros HI HS HG E. unfold process_edges_at_top_of_scanbeam in E. inv_bind E u s1 E1.
  assert (H1 : Inv (All (QD eds Rec y)) s1).
  { revert E1. eapply (tri_loop fuel _ (fun k => Inv (both k (QC eds Rec y) (pr eds y))) (fun _ => Inv (All (QD eds Rec y)))).
    2: { destruct HI as (V & S & A). split; [exact V|]. split; [exact S|]. split; [intros i I; apply QB_QC, A, I|]. intros p i L. lia. }
    clear - R0. intros x s r s' H E. inv_bind E abl s1 E1. apply gets_Ok in E1. destruct E1 as (-> & ->).
    destruct (nth_error (s_abl s) x) as [[i|]|] eqn:En.
    - inv_bind E x' s1 E1. apply ret_Ok in E. destruct E as (-> & ->).
      eapply (top_inv eds Rec (eds_chain w rs R0) (eds_hor w rs R0)); [exact H|exact En|exact E1].
    - apply ret_Ok in E. destruct E as (-> & ->). destruct H as (V & S & A & B). split; [exact V|]. split; [exact S|]. split; [exact A|].
      intros p j L Hp. destruct (Nat.eq_dec p x) as [->|N]; [congruence|]. apply B with (p := p); [lia|exact Hp].
    - apply ret_Ok in E. destruct E as (-> & ->). destruct H as (V & S & A & B). split; [exact V|]. split; [exact S|].
      intros i I. split; [apply A, I|]. apply In_nth_error in I. destruct I as (p & Hp). apply B with (p := p); [|exact Hp].
      apply nth_error_None in En. assert (p < length (s_abl s))%nat by (apply nth_error_Some; congruence). lia. }
  apply (top_loop y k) in E1; [|assumption..]. destruct E1 as (S1 & G1). clear HI HS HG s.
  inv_bind E u2 s2 E2. pose proof (tri_compact eds Rec _ _ _ _ H1 E2) as H2. pose proof (G_compact _ _ _ _ E2 G1) as G2.
  pose proof (stc_pres _ _ _ _ st_abl_compact E2 S1) as S2. clear E2 S1 G1 H1 s1.
  inv_bind E k1 s3 E3. pose proof (insert_true_inv eds Rec (eds_hor w rs R0) _ _ _ _ _ _ ms_ok _ _ _ _ H2 E3) as (H3 & _).
  destruct (G_minima true y k s2 k1 s3 S2 G2 E3) as (S3 & G3). inv_bind E u4 s4 E4. pose proof (G_horizontals _ _ _ _ _ H3 S3 G3 E4) as G4.
  inv_bind E ids s5 E5. apply (ids_run) in E5. destruct E5 as (_ & ->). inv_bind E u6 s6 E6. apply ret_Ok in E. destruct E as (-> & ->).
  eapply G_steady; [|exact G4]. revert E6. match goal with |- ?m s4 = _ -> _ => assert (P : pres steady m) end.
  { assert (X1 : forall i, pres steady (is_intermediate i y)) by (intros; apply sd_calm_ring, cr_is_intermediate).
    assert (X3 : forall i p, pres steady (add_point_to_ring i p)) by (intros; apply sd_calm_ring, cr_add_point_to_ring).
    sd_auto. }
  apply P.
Qed.
Definition between (k : nat) (s : st) : Prop := Inv (All (QA eds Rec)) s /\ stc s /\ G k s.
Lemma G_turn y k s y' k' s' : between k s -> scanbeam_turn fuel op sfk cfk ms (y, k) s = Ok (inl (y', k'), s') -> between k' s'.
Proof.
  intros (HI & HS & HG) E. unfold scanbeam_turn in E. inv_bind E go s1 E1.
  pose proof (tri_pending eds Rec _ _ _ _ _ _ HI E1) as HI1.
  assert (P1 : pres unchanged (sweep_pending ms k)) by (unfold sweep_pending; pres_auto).
  apply P1 in E1. unfold unchanged in E1. subst s1. clear P1 HI1.
  destruct go; [|apply ret_Ok in E; destruct E; discriminate].
  inv_bind E y1 s1 E1. pose proof (tri_pop eds Rec y _ (All_jab _) _ _ _ HI E1) as HI1.
  pose proof (stc_pres _ _ _ _ (st_pop_scanbeam _) E1 HS) as HS1.
  assert (HG1 : G k s1).
  { eapply G_steady; [|exact HG]. revert E1. assert (P : pres steady (pop_scanbeam y)) by (unfold pop_scanbeam; sd_auto). apply P. }
  clear HI HS HG E1 s. inv_bind E u s2 E2.
  pose proof (tri_intersections eds Rec fuel op sfk cfk y1 _ _ _ HI1 E2) as HI2.
  pose proof (stc_pres _ _ _ _ (st_process_intersections _ _ _ _ _) E2 HS1) as HS2.
  pose proof (G_intersections _ _ _ _ _ HI1 HG1 E2) as HG2. clear HI1 HS1 HG1 E2 s1.
  inv_bind E u3 s3 E3. pose proof (tri_hpi eds Rec fuel y1 _ (All_jab _) _ _ _ HI2 E3) as HI3.
  pose proof (stc_pres _ _ _ _ (st_update_hpi _ _) E3 HS2) as HS3.
  assert (HG3 : G k s3).
  { eapply G_steady; [|exact HG2]. revert E3. assert (P : pres steady (update_current_hot_pixel_index fuel y1)) by (unfold update_current_hot_pixel_index; sd_auto). apply P. }
  clear HI2 HS2 HG2 E3 s2. inv_bind E k1 s4 E4.
  pose proof (edges_inv eds Rec (eds_chain w rs R0) (eds_hor w rs R0) _ _ _ _ _ _ _ _ _ _ ms_ok HI3 E4) as (HI4 & Sp).
  pose proof (stc_pres _ _ _ _ (st_peats _ _ _ _ _ _ _) E4 HS3) as HS4. pose proof (G_edges _ _ _ _ _ HI3 HS3 HG3 E4) as HG4.
  inv_bind E k2 s5 E5. apply ret_Ok in E. destruct E as (E & ->). injection E as -> ->.
  pose proof (insert_false_inv eds Rec (eds_hor w rs R0) _ _ _ _ _ _ k1 ms_ok Sp (fun p q a b => lm_sorted _ p q a b) k1 _ _ _ (le_n _) ltac:(lia) HI4 E5) as HI5.
  destruct (G_minima _ _ _ _ _ _ HS4 HG4 E5) as (HS5 & HG5). split; [|auto].
  eapply All_imp; [|exact HI5]. intros i b (((Hb & _) & _) & Hn). split; assumption.
Qed.
Lemma G_swept s0 y k s : flag = true -> Inv (fun _ => True) s0 -> stc s0 -> swept fuel op sfk cfk minimums s0 y k s -> between k s.
Proof.
  intros Hf HI HS H. induction H as [|y k s y' k' s' _ IH E].
  - split; [|split].
    + destruct HI as (V & St & _). split; [eapply vat_frame; [|exact V]; repeat split|]. split; [exact St|]. intros i [].
    + exact HS.
    + split; [constructor|]. split; [intros i []|]. left. split; [exact Hf|]. split; [split; [constructor|]|].
      * intros l1 i l2 E. destruct l1; discriminate.
      * intros i j (m & [] & _).
  - eapply G_turn; eassumption.
Qed.
Lemma start_inv f s0 u : build_hot_pixels f minimums (init_st bs) = Ok (u, s0) -> Inv (fun _ => True) s0 /\ stc s0.
Proof.
  intros E. assert (I0 : Inv (fun _ => True) (init_st bs)).
  { split; [|split; [intros i; reflexivity|exact I]]. split; [|constructor]. constructor; cbn.
    - intros i. unfold hget. rewrite PositiveMap.gempty. split; intros j Hj; discriminate.
    - intros i. unfold hget. rewrite PositiveMap.gempty. intros j Hj. discriminate.
    - constructor.
    - intros i. unfold hget. rewrite PositiveMap.gempty. constructor.
    - reflexivity. }
  split.
  - eapply (tri_build_hot eds Rec) in E; [|exact (eds_chain w rs R0)|exact (eds_hor w rs R0)|exact (minima_ok w rs R0)|exact I0]. exact E.
  - intros i. apply (st_build_hot_pixels f minimums _ _ _ E).
Qed.
End Sweep.
