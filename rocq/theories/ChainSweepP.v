(** * The chains of the sweep from scanbeam to scanbeam *)
From Coq Require Import ZArith List Bool Lia FMapPositive Permutation.
From Coq Require Import Floats.SpecFloat.
From RecordUpdate Require Import RecordSet.
From Verif Require Import Py Monad Utils Geometry LinearRingM BoundM LocalMinimumM
     StateM PointNodeM RingM SweepM TopologyM WagyuM SpecBounds HoareP SweepFrameP SpecSweep SpecActive SpecOrigin SpecRun SpecRings ListP QuickP FuelP
     HotPixelP WindingP CalmP WindingInvP PointersP VatP IntersectP InsertP MaximaP OriginP FloatP PositionP AddRingP HistoryP PropOrigin SweepRunP SweepInvP
     SplitP RingedP NodeFrameP ChainP ChainBoundP ChainOpsP ChainWalkP.
Import ListNotations RecordSetNotations.
Open Scope Z_scope.
Local Open Scope m_scope.

Lemma act_live s i : act s i <-> In i (live s).
Proof. unfold act. symmetry. apply live_in. Qed.
Lemma ends_iff NB D (ent A A' X : bid -> Prop) P B : (forall i, A i <-> A' i) -> ends NB D ent A X P B -> ends NB D ent A' X P B.
Proof.
  intros H [H1 H2 H3 H4 H5 H6].
  assert (Lo : lostb ent A B -> lostb ent A' B) by (intros (k & Y1 & Y2 & Y3); exists k; rewrite <- H; auto).
  split.
  - intros i r Ai. apply H in Ai. exact (H1 i r Ai).
  - intros i r Ai. apply H in Ai. exact (H2 i r Ai).
  - intros i j r Ai Aj. apply H in Ai, Aj. exact (H3 i j r Ai Aj).
  - exact H4.
  - intros r Pr. destruct (H5 r Pr) as [Y|[(k & Y1 & Y2)|Y]]; auto. right; left. exists k. rewrite <- H. auto.
  - intros i r Ai Ri. apply H in Ai. destruct (H6 i r Ai Ri) as [(k & Y1 & Y2 & Y3)|Y]; auto. left. exists k. rewrite <- H. auto.
Qed.
Definition wk (ent : bid -> Prop) (s : st) : Prop := NoDup (live s) /\ (forall i, act s i -> ent i) /\ c0 ent no s.
Lemma wk_idle ent s s' : idle s s' -> wk ent s -> wk ent s'.
Proof.
  intros Id (N & Sb & C). pose proof (idle_c0 _ _ _ _ Id C) as C'. destruct Id as (_ & A & _). unfold wk, live, act in *. rewrite A. auto.
Qed.
Lemma tri_idle {A} (m : prog A) ent : pres idle m -> tri (wk ent) m (fun _ => wk ent).
Proof. intros P s a s' W E. exact (wk_idle _ _ _ (P _ _ _ E) W). Qed.
Lemma c0_list ent X s s' : same_ringed s s' -> s_bounds s' = s_bounds s -> (forall i, act s i <-> act s' i) -> c0 ent X s -> c0 ent X s'.
Proof.
  intros SR B A (K & P & C & En). split; [intros ? ? _ _; exact I|]. exists P. split; [exact (chains_same P s s' SR C)|]. rewrite B.
  eapply ends_iff; [exact A|exact En].
Qed.
Ltac sr_auto := repeat first [progress pres_step | apply pres_modify; intros; repeat split].
Lemma sr_swap a b : pres same_ringed (abl_swap a b). Proof. unfold abl_swap, abl_get, abl_set. sr_auto. Qed.
Lemma sr_set k o : pres same_ringed (abl_set k o). Proof. unfold abl_set. sr_auto. Qed.
Lemma sr_compact : pres same_ringed abl_compact. Proof. unfold abl_compact. sr_auto. Qed.
Lemma wk_swap ent a b s u s' : wk ent s -> abl_swap a b s = Ok (u, s') -> wk ent s'.
Proof.
  intros (N & Sb & C) E. pose proof (nd_swap _ _ _ _ _ E N) as N'. pose proof (sm_swap _ _ _ _ _ E) as M. pose proof (sr_swap _ _ _ _ _ E) as SR.
  apply swap_run in E as (x & y & _ & _ & (_ & B & _)). split; [exact N'|].
  assert (A : forall i, act s i <-> act s' i) by (intros i; rewrite !act_live; symmetry; apply M).
  split; [intros i Ai; apply Sb, A, Ai|]. eapply c0_list; eassumption.
Qed.
Lemma wk_compact ent s u s' : wk ent s -> abl_compact s = Ok (u, s') -> wk ent s'.
Proof.
  intros (N & Sb & C) E. pose proof (live_compact _ _ _ E) as L. pose proof (sr_compact _ _ _ E) as SR. apply modify_Ok in E.
  assert (A : forall i, act s i <-> act s' i) by (intros i; rewrite !act_live, L; tauto).
  split; [rewrite L; exact N|]. split; [intros i Ai; apply Sb, A, Ai|]. eapply c0_list; [exact SR|subst s'; reflexivity|exact A|exact C].
Qed.
Lemma wk_none ent k s u s' : wk ent s -> abl_set k None s = Ok (u, s') -> wk ent s'.
Proof.
  intros (N & Sb & C) E. pose proof (nd_set_none _ _ _ _ E N) as N'. pose proof (sr_set _ _ _ _ _ E) as SR. apply set_run in E as ((_ & B & A) & _).
  assert (H : forall i, act s' i -> act s i).
  { intros i. unfold act. rewrite A. intros I. apply In_upd in I as [I|I]; [discriminate|exact I]. }
  split; [exact N'|]. split; [intros i Ai; apply Sb, H, Ai|]. destruct C as (K & P & C & En).
  split; [intros ? ? _ _; exact I|]. exists P. split; [exact (chains_same P s s' SR C)|]. rewrite B.
  eapply ends_leave; [exact H| |exact Sb|exact En]. intros i _. unfold act. 
  destruct (in_dec Pos.eq_dec i (live s')) as [Z|Z]; rewrite <- act_live in Z; auto.
Qed.
Lemma pos_ne s a b i j : NoDup (live s) -> nth_error (s_abl s) a = Some (Some i) -> nth_error (s_abl s) b = Some (Some j) -> a <> b -> i <> j.
Proof. intros N A B H ->. apply H. exact (nodup_pos _ _ _ _ N A B). Qed.
Lemma pos_act s a i : nth_error (s_abl s) a = Some (Some i) -> act s i.
Proof. apply nth_error_In. Qed.

Section Sweep.
Context (fuel : nat) (op : operation_kind) (sfk cfk : fill_kind) (ent : bid -> Prop).
Lemma wk_intersect p i j s u s' : wk ent s -> act s i -> act s j -> i <> j -> intersect_bounds fuel op sfk cfk p i j s = Ok (u, s') ->
  wk ent s' /\ s_abl s' = s_abl s.
Proof.
  intros (N & Sb & C) Ai Aj Nij E. destruct (intersect_c0 fuel op sfk cfk ent p i j s u s' C Ai Aj Nij E) as (C' & A). split; [|exact A].
  unfold wk, live, act in *. rewrite A. auto.
Qed.
Lemma wk_add i p s u s' : wk ent s -> act s i -> add_point_to_ring i p s = Ok (u, s') -> wk ent s' /\ s_abl s' = s_abl s.
Proof.
  intros (N & Sb & C) Ai E.
  destruct (add_ring_cx (fun _ _ => True) (fun _ _ => True) (fun _ => True) ent ltac:(auto) ltac:(auto) ltac:(auto) ltac:(auto) no i p s u s' C Ai I E) as (C' & A & _).
  split; [|exact A]. unfold wk, live, act, c0 in *. rewrite A. auto.
Qed.
Lemma wk_lmax p i j s u s' : wk ent s -> act s i -> act s j -> i <> j -> b_ring (bget (s_bounds s) i) <> None -> b_ring (bget (s_bounds s) j) <> None ->
  add_local_maximum_point fuel p i j s = Ok (u, s') -> wk ent s' /\ s_abl s' = s_abl s.
Proof.
  intros (N & Sb & C) Ai Aj Nij Ri Rj E.
  destruct (add_lmax_cx (fun _ _ => True) (fun _ _ => True) (fun _ => True) ent ltac:(auto) ltac:(auto) ltac:(auto) ltac:(auto) fuel p i j s u s' C Ai Aj Nij I I Ri Rj E) as (C' & A & _).
  split; [|exact A]. unfold wk, live, act, c0 in *. rewrite A. auto.
Qed.
Lemma act_same s s' i : s_abl s' = s_abl s -> act s i -> act s' i.
Proof. unfold act. congruence. Qed.
Lemma wk_maybe_add i p s u s' : wk ent s -> act s i -> (b <- bd i ;; if is_some (b_ring b) then add_point_to_ring i p else ret tt) s = Ok (u, s') ->
  wk ent s' /\ s_abl s' = s_abl s.
Proof.
  intros W A E. inv_bind E b t Ea. apply bd_Ok in Ea as (-> & ->). destruct (is_some _); [eapply wk_add; eassumption|]. apply ret_Ok in E as (_ & ->). auto.
Qed.
Lemma wk_hot_ltr i stop : forall n k s k' s', wk ent s -> act s i -> add_hot_pixels_ltr n stop i k s = Ok (k', s') -> wk ent s' /\ s_abl s' = s_abl s.
Proof.
  induction n as [|n IH]; intros k s k' s' W A E; cbn [add_hot_pixels_ltr] in E; [apply ret_Ok in E as (_ & ->); auto|].
  inv_bind E hp t Ea. apply gets_Ok in Ea as (-> & ->). destruct (nth_error _ _) as [h|]; [|apply ret_Ok in E as (_ & ->); auto].
  inv_bind E stp t Ea. apply lift_Ok in Ea as (_ & ->). destruct stp; [apply ret_Ok in E as (_ & ->); auto|].
  inv_bind E b t Ea. apply bd_Ok in Ea as (-> & ->). inv_bind E u t Ea.
  assert (Z : wk ent t /\ s_abl t = s_abl s).
  { destruct (is_some _); [eapply wk_add; eassumption|]. apply ret_Ok in Ea as (_ & ->). auto. }
  destruct Z as (W1 & A1). destruct (IH _ _ _ _ W1 (act_same _ _ _ A1 A) E) as (W2 & A2). split; [exact W2|congruence].
Qed.
Lemma wk_hot_rtl i stop : forall k s k' s', wk ent s -> act s i -> add_hot_pixels_rtl stop i k s = Ok (k', s') -> wk ent s' /\ s_abl s' = s_abl s.
Proof.
  induction k as [|k IH]; intros s k' s' W A E; cbn [add_hot_pixels_rtl] in E; [apply ret_Ok in E as (_ & ->); auto|].
  inv_bind E hp t Ea. apply gets_Ok in Ea as (-> & ->). inv_bind E h t Ea. apply lift_Ok in Ea as (_ & ->).
  inv_bind E stp t Ea. apply lift_Ok in Ea as (_ & ->). destruct stp; [apply ret_Ok in E as (_ & ->); auto|].
  inv_bind E b t Ea. apply bd_Ok in Ea as (-> & ->). inv_bind E u t Ea.
  assert (Z : wk ent t /\ s_abl t = s_abl s).
  { destruct (is_some _); [eapply wk_add; eassumption|]. apply ret_Ok in Ea as (_ & ->). auto. }
  destruct Z as (W1 & A1). destruct (IH _ _ _ W1 (act_same _ _ _ A1 A) E) as (W2 & A2). split; [exact W2|congruence].
Qed.

(** ** Intersections *)
Lemma adjacent_two abl n k : NoDup (somes_of abl) -> adjacent_at abl n = Ok (k, true) ->
  In (Some (in_first n)) abl /\ In (Some (in_second n)) abl /\ in_first n <> in_second n.
Proof.
  intros N E. unfold adjacent_at in E. destruct (nth_res abl _) as [o| |] eqn:Eo; cbn in E; try discriminate. injection E as Ek Eh.
  unfold nth_res in Eo. destruct (nth_error abl (S _)) as [o'|] eqn:En; [|discriminate]. injection Eo as ->.
  set (q := find_if (has_bound n) abl) in *. destruct (find_if_spec (has_bound n) abl) as (_ & _ & Z). fold q in Z.
  destruct (nth_error abl q) as [x|] eqn:Eq.
  2: { apply nth_error_None in Eq. assert (S q < length abl)%nat by (apply nth_error_Some; congruence). lia. }
  specialize (Z x eq_refl). unfold has_bound in Z, Eh. apply orb_true_iff in Z, Eh.
  assert (Hx : forall z, opt_is (Some (in_first n)) z = true \/ opt_is (Some (in_second n)) z = true -> z = Some (in_first n) \/ z = Some (in_second n)).
  { intros [z|] [H|H]; cbn in H; try discriminate; apply Pos.eqb_eq in H; subst; auto. }
  apply Hx in Z, Eh. assert (Ne : x <> o).
  { intros ->. destruct o as [z|]; [|destruct Z; discriminate]. pose proof (nodup_pos _ _ _ _ N Eq En). lia. }
  apply nth_error_In in Eq, En. destruct Z as [-> | ->], Eh as [-> | ->]; try contradiction; (split; [|split]); auto; congruence.
Qed.
Lemma wk_intersect_list : forall c l s u s', wk ent s -> process_intersect_list fuel op sfk cfk l c s = Ok (u, s') -> wk ent s'.
Proof.
  induction c as [|c IH]; intros [|n rest] s u s' W E; cbn [process_intersect_list] in E; try (apply ret_Ok in E as (_ & ->); exact W).
  inv_bind E abl t Ea. apply gets_Ok in Ea as (-> & ->). inv_bind E ka t Ea. apply lift_Ok in Ea as (Hk & ->). destruct ka as [k ok].
  inv_bind E c3 t Ea. destruct c3 as [[m rest'] k'].
  assert (Z : t = s /\ adjacent_at (s_abl s) m = Ok (k', true)).
  { destruct ok; [apply ret_Ok in Ea as (Ea & ->); injection Ea as -> -> ->; auto|].
    inv_bind Ea ff t1 Eb. apply lift_Ok in Eb as (Hf & ->). destruct ff as [[pos k2]|]; [|discriminate].
    inv_bind Ea m2 t1 Eb. apply lift_Ok in Eb as (Hm & ->). apply ret_Ok in Ea as (Ea & ->). injection Ea as -> -> ->. split; [reflexivity|].
    apply find_adjacent_spec in Hf as (m' & _ & H1 & H2). rewrite Nat.sub_0_r in H1. unfold nth_res in Hm. rewrite H1 in Hm. congruence. }
  destruct Z as (-> & Ad). clear Ea. destruct (adjacent_two _ _ _ (proj1 W) Ad) as (I1 & I2 & Ne).
  inv_bind E p t Ea. apply lift_Ok in Ea as (_ & ->). inv_bind E u1 s1 Ea. destruct (wk_intersect _ _ _ _ _ _ W I1 I2 Ne Ea) as (W1 & _).
  inv_bind E u2 s2 Eb. exact (IH _ _ _ _ (wk_swap _ _ _ _ _ _ W1 Eb) E).
Qed.
Lemma wk_intersections y s u s' : wk ent s -> process_intersections fuel op sfk cfk y s = Ok (u, s') -> wk ent s'.
Proof.
  intros W E. unfold process_intersections in E. inv_bind E abl t Ea. apply gets_Ok in Ea as (-> & ->).
  destruct (s_abl s) eqn:Es; [apply ret_Ok in E as (_ & ->); exact W|]. clear Es.
  inv_bind E u1 s1 Ea. pose proof (wk_idle _ _ _ (id_update_x _ _ _ _ Ea) W) as W1. inv_bind E l2 s2 Eb.
  apply build_intersect_list_spec in Eb as (-> & _). destruct l2 as [|n l2]; [apply ret_Ok in E as (_ & ->); exact W1|].
  inv_bind E l3 s3 Ec. apply un_py_sort in Ec. unfold unchanged in Ec. subst s3. exact (wk_intersect_list _ _ _ _ _ W1 E).
Qed.

(** ** Local maxima *)
Lemma wk_walk m i : forall js kc sk s k' sk' s', wk ent s -> NoDup (kc :: js) ->
  nth_error (s_abl s) kc = Some (Some i) -> walk_go fuel op sfk cfk m js kc sk s = Ok ((k', sk'), s') -> wk ent s'.
Proof.
  induction js as [|j js IH]; intros kc sk s k' sk' s' W Nd Hi E; cbn [walk_go] in E; [apply ret_Ok in E as (_ & ->); exact W|].
  destruct (Nat.eqb_spec j m) as [->|Njm]; [apply ret_Ok in E as (_ & ->); exact W|].
  assert (Nd' : NoDup (kc :: js) /\ NoDup (j :: js) /\ kc <> j).
  { inversion Nd as [|? ? X1 X2]; subst. inversion X2 as [|? ? X3 X4]; subst. split; [constructor; [|exact X4]; intros X; apply X1; right; exact X|]. split; [exact X2|].
    intros ->. apply X1. left. reflexivity. }
  destruct Nd' as (Nd1 & Nd2 & Nkj).
  inv_bind E o t Ea. apply get_run in Ea as (Ho & ->). destruct o as [n|]; [|exact (IH _ _ _ _ _ _ W Nd1 Hi E)].
  inv_bind E i' t Ea. apply bound_run in Ea as (Hi' & ->). rewrite Hi in Hi'. injection Hi' as <-.
  inv_bind E e t Ea. apply un_current_edge in Ea. unfold unchanged in Ea. subst t.
  inv_bind E u1 s1 Ea. destruct (wk_intersect _ _ _ _ _ _ W (pos_act _ _ _ Hi) (pos_act _ _ _ Ho) (pos_ne _ _ _ _ _ (proj1 W) Hi Ho Nkj) Ea) as (W1 & A1).
  inv_bind E u2 s2 Eb. refine (IH _ _ _ _ _ _ (wk_swap _ _ _ _ _ _ W1 Eb) Nd2 _ E).
  apply swap_run in Eb as (x & z & Hx & Hz & (_ & _ & A2)). rewrite A1 in *. assert (x = Some i) by congruence. subst x. rewrite A2.
  rewrite nth_error_upd_eq; [reflexivity|]. rewrite QuickP.upd_length. apply nth_error_Some. congruence.
Qed.
Lemma wk_do_maxima k m i s k' s' : wk ent s -> nth_error (s_abl s) k = Some (Some i) -> k <> m ->
  do_maxima fuel op sfk cfk k m s = Ok (k', s') -> wk ent s'.
Proof.
  intros W Hi Nm E. unfold do_maxima in E. inv_bind E r s1 E1. unfold maxima_walk in E1.
  inv_bind E1 n s0 E0. apply gets_Ok in E0 as (-> & ->).
  change ((walk_go fuel op sfk cfk m (range (S k) (length (s_abl s))) k false) s = Ok (r, s1)) in E1. destruct r as [k1 sk].
  assert (Nd : NoDup (k :: range (S k) (length (s_abl s)))).
  { constructor; [unfold range; rewrite in_seq; lia|apply seq_NoDup]. }
  pose proof (wk_walk m i _ _ _ _ _ _ _ W Nd Hi E1) as W1.
  apply (walk_list fuel op sfk cfk k m i) in E1; [| |exact Nd|lia|exact Nm|exact Hi].
  2: { unfold range. intros j I. apply in_seq in I. lia. }
  destruct E1 as (_ & Hk1 & Nk1 & _).
  inv_bind E i' t Ea. apply bound_run in Ea as (Hi' & ->). rewrite Hk1 in Hi'. injection Hi' as <-.
  inv_bind E b t Ea. apply bd_Ok in Ea as (-> & ->). inv_bind E j t Ea. apply bound_run in Ea as (Hj & ->). inv_bind E c t Ea. apply bd_Ok in Ea as (-> & ->).
  inv_bind E u2 s2 Ea.
  assert (W2 : wk ent s2).
  { destruct (is_some (b_ring (bget (s_bounds s1) i)) && is_some (b_ring (bget (s_bounds s1) j))) eqn:Er.
    - apply andb_true_iff in Er as (R1 & R2). apply some_true in R1, R2. inv_bind Ea e t Eb. apply un_current_edge in Eb. unfold unchanged in Eb. subst t.
      destruct (wk_lmax _ _ _ _ _ _ W1 (pos_act _ _ _ Hk1) (pos_act _ _ _ Hj) (pos_ne _ _ _ _ _ (proj1 W1) Hk1 Hj Nk1) R1 R2 Ea) as (Z & _). exact Z.
    - destruct (_ || _); [discriminate|]. apply ret_Ok in Ea as (_ & ->). exact W1. }
  inv_bind E u3 s3 Eb. inv_bind E u4 s4 Ec. apply ret_Ok in E as (_ & ->). exact (wk_none _ _ _ _ _ (wk_none _ _ _ _ _ W2 Eb) Ec).
Qed.
Lemma wk_promote i s u s' : wk ent s -> act s i ->
  (b <- bd i ;;
   (if is_some (b_ring b) then (e <- current_edge i ;; insert_hot_pixels_in_path i (etop e) false) else ret tt) ;;
   to_next_edge i ;;
   b <- bd i ;;
   if is_some (b_ring b) then (e <- current_edge i ;; add_point_to_ring i (ebot e)) else ret tt) s = Ok (u, s') -> wk ent s'.
Proof.
  intros W A E. inv_bind E b t Ea. apply bd_Ok in Ea as (-> & ->). destruct (is_some (b_ring (bget (s_bounds s) i))) eqn:R.
  - inv_bind E u1 s1 Ea. inv_bind Ea e t Eb. apply un_current_edge in Eb. unfold unchanged in Eb. subst t. destruct W as (N & Sb & C).
    destruct (insert_cx (fun _ _ => True) (fun _ _ => True) (fun _ => True) ent ltac:(auto) ltac:(auto) ltac:(auto) ltac:(auto) no i _ _ s _ s1 C A Ea) as (C1 & O).
    inv_bind E u2 s2 Eb. pose proof (id_to_next _ _ _ _ Eb) as Id. pose proof (idle_c0 ent _ _ _ Id C1) as C2. destruct Id as (_ & A2 & B2).
    pose proof O as (A1 & _). assert (Ai2 : act s2 i) by (unfold act in *; rewrite A2, A1; exact A).
    inv_bind E b t Ec. apply bd_Ok in Ec as (-> & ->). assert (R2 : is_some (b_ring (bget (s_bounds s2) i)) = true) by (destruct (B2 i) as (Rr & _); rewrite Rr, (onlyb_self _ _ _ _ O); exact R). rewrite R2 in E.
    inv_bind E e2 t Ec. apply un_current_edge in Ec. unfold unchanged in Ec. subst t.
    destruct (add_ring_cy (fun _ _ => True) (fun _ _ => True) (fun _ => True) ent ltac:(auto) ltac:(auto) ltac:(auto) ltac:(auto) (plus no i) no i (ebot e2) s2 u s' C2 Ai2 I (fun j _ Nj _ H => match H with or_introl H1 => Nj H1 | or_intror H1 => H1 end) E) as (C3 & A3 & _).
    unfold wk, live, act in *. rewrite A3, A2, A1. auto.
  - inv_bind E u1 s1 Ea. apply ret_Ok in Ea as (_ & ->). inv_bind E u2 s2 Eb. pose proof (id_to_next _ _ _ _ Eb) as Id.
    pose proof (wk_idle _ _ _ Id W) as W2. destruct Id as (_ & _ & B2). inv_bind E b t Ec. apply bd_Ok in Ec as (-> & ->). destruct (B2 i) as (Rr & _). rewrite Rr, R in E.
    apply ret_Ok in E as (_ & ->). exact W2.
Qed.
Lemma wk_top y k i s k' s' : wk ent s -> nth_error (s_abl s) k = Some (Some i) -> b_max (bget (s_bounds s) i) <> Some i ->
  top_step fuel op sfk cfk y k i s = Ok (k', s') -> wk ent s'.
Proof.
  intros W Hk Ns E. unfold top_step in E. inv_bind E mx s1 E1. pose proof (maxima_same _ _ _ _ _ E1). subst s1. clear E1. inv_bind E m s1 E1.
  assert (Z : s1 = s /\ forall q, m = Some q -> k <> q).
  { destruct mx; [|apply ret_Ok in E1 as (-> & ->); split; [reflexivity|discriminate]].
    inv_bind E1 b t Ea. apply bd_Ok in Ea as (-> & ->). inv_bind E1 abl t Ea. apply gets_Ok in Ea as (-> & ->). cbv zeta in E1.
    destruct (Nat.eqb_spec (find_bound (b_max (bget (s_bounds s) i)) (s_abl s)) (length (s_abl s))) as [L|L].
    - apply ret_Ok in E1 as (-> & ->). split; [reflexivity|]. intros q [= <-]. rewrite L. assert (k < length (s_abl s))%nat by (apply nth_error_Some; congruence). lia.
    - inv_bind E1 j t Ea. apply bound_run in Ea as (Hj & ->).
      assert (Kj : forall q, Some (find_bound (b_max (bget (s_bounds s) i)) (s_abl s)) = Some q -> k <> q).
      { intros q [= <-] Ek. rewrite <- Ek in Hj. assert (j = i) by congruence. subst j. destruct (find_if_spec (opt_is (b_max (bget (s_bounds s) i))) (s_abl s)) as (_ & _ & Sp).
        unfold find_bound in Ek. rewrite <- Ek in Sp. specialize (Sp _ Hk). destruct (b_max (bget (s_bounds s) i)) as [x|]; cbn in Sp; [|discriminate].
        apply Pos.eqb_eq in Sp. congruence. }
      inv_bind E1 e t Ea. apply un_current_edge in Ea. unfold unchanged in Ea. subst t. destruct (is_horizontal e); [apply ret_Ok in E1 as (-> & ->); split; [reflexivity|discriminate]|].
      inv_bind E1 jm t Ea. pose proof (maxima_same _ _ _ _ _ Ea). subst t. apply ret_Ok in E1 as (-> & ->). split; [reflexivity|]. destruct jm; [exact Kj|discriminate]. }
  destruct Z as (-> & Z). clear E1. destruct m as [m|]; [exact (wk_do_maxima k m i s k' s' W Hk (Z m eq_refl) E)|].
  inv_bind E im t Ea. pose proof (wk_idle _ _ _ (id_intermediate _ _ _ _ _ Ea) W) as W'. clear W. rename W' into W.
  assert (Ai : act t i) by (eapply act_same; [|exact (pos_act _ _ _ Hk)]; apply (id_intermediate _ _ _ _ _ Ea)). clear Ea Hk Ns Z s.
  inv_bind E pm t1 Ea. assert (W1 : wk ent t1 /\ act t1 i).
  { assert (Id : idle t t1).
    { destruct im; [|apply ret_Ok in Ea as (_ & ->); apply R_refl]. inv_bind Ea ne t2 Eb. apply ret_Ok in Ea as (_ & ->). exact (id_next_edge _ _ _ _ Eb). }
    split; [exact (wk_idle _ _ _ Id W)|]. eapply act_same; [apply Id|exact Ai]. }
  destruct W1 as (W1 & A1). inv_bind E u t2 Eb. apply ret_Ok in E as (_ & ->). destruct pm; [exact (wk_promote i t1 u t2 W1 A1 Eb)|].
  inv_bind Eb e t3 Ec. apply un_current_edge in Ec. unfold unchanged in Ec. subst t3. inv_bind Eb x t3 Ec. apply lift_Ok in Ec as (_ & ->).
  eapply wk_idle; [|exact W1]. revert Eb. apply id_upd_bound. intros; repeat split.
Qed.

(** ** Horizontal edges *)
Lemma wk_ltr_step i y im m j k h sh s k' h' sh' out s' : wk ent s -> nth_error (s_abl s) k = Some (Some i) -> k <> j ->
  ltr_step fuel op sfk cfk i y im m j (k, h, sh) s = Ok ((k', h', sh', out), s') -> wk ent s'.
Proof.
  intros W Hk Ne E. unfold ltr_step in E. inv_bind E o s1 E1. apply get_run in E1. destruct E1 as (Eo & ->).
  destruct o as [n|]; [|apply ret_Ok in E as (_ & ->); exact W].
  pose proof (pos_act _ _ _ Hk) as Ai. pose proof (pos_act _ _ _ Eo) as An. pose proof (pos_ne _ _ _ _ _ (proj1 W) Hk Eo Ne) as Nin.
  inv_bind E hp s1 E1. apply gets_Ok in E1. destruct E1 as (-> & ->). inv_bind E nb s1 E1. apply bd_Ok in E1. destruct E1 as (-> & ->).
  inv_bind E e s1 E1. apply un_current_edge in E1. unfold unchanged in E1. subst s1.
  inv_bind E h1 s1 E1. apply wk_hot_ltr in E1; [|exact W|exact Ai]. destruct E1 as (W1 & A1).
  inv_bind E fx s2 E2. apply lift_Ok in E2. destruct E2 as (_ & ->). inv_bind E gtb s2 E2. apply lift_Ok in E2. destruct E2 as (_ & ->).
  destruct gtb; [apply ret_Ok in E as (_ & ->); exact W1|].
  inv_bind E r s2 E2. apply lift_Ok in E2. destruct E2 as (Er & ->). inv_bind E b s2 E2. apply bd_Ok in E2. destruct E2 as (-> & ->).
  inv_bind E stop s2 E2. apply stop_same in E2. subst s2.
  destruct stop; [apply ret_Ok in E as (_ & ->); exact W1|].
  inv_bind E u s2 E2.
  assert (A2 : wk ent s2 /\ s_abl s2 = s_abl s).
  { destruct (is_some _); [|apply ret_Ok in E2; destruct E2 as (_ & ->); auto]. apply wk_add in E2; [|exact W1|exact (act_same _ _ _ A1 Ai)]. destruct E2. split; [assumption|congruence]. }
  destruct A2 as (W2 & A2). destruct (im && (j =? m)%nat) eqn:Eq.
  - inv_bind E b1 s3 E3. apply bd_Ok in E3. destruct E3 as (-> & ->). inv_bind E b2 s3 E3. apply bd_Ok in E3. destruct E3 as (-> & ->).
    inv_bind E u1 s3 E3.
    assert (W3 : wk ent s3).
    { destruct (is_some (b_ring (bget (s_bounds s2) i)) && _) eqn:Er2; [|apply ret_Ok in E3; destruct E3 as (_ & ->); exact W2].
      apply andb_true_iff in Er2 as (R1 & R2). apply some_true in R1, R2.
      apply (wk_lmax _ _ _ _ _ _ W2 (act_same _ _ _ A2 Ai) (act_same _ _ _ A2 An) Nin R1 R2) in E3. apply E3. }
    inv_bind E u2 s4 E4. inv_bind E u3 s5 E5. apply ret_Ok in E. destruct E as (_ & ->).
    exact (wk_none _ _ _ _ _ (wk_none _ _ _ _ _ W3 E4) E5).
  - inv_bind E u1 s3 E3. apply (wk_intersect _ _ _ _ _ _ W2 (act_same _ _ _ A2 Ai) (act_same _ _ _ A2 An) Nin) in E3. destruct E3 as (W3 & _).
    inv_bind E u2 s4 E4. apply ret_Ok in E. destruct E as (_ & ->). exact (wk_swap _ _ _ _ _ _ W3 E4).
Qed.
Lemma wk_rtl_step i y im m j k h s k' h' out s' : wk ent s -> nth_error (s_abl s) k = Some (Some i) -> k <> j ->
  rtl_step fuel op sfk cfk i y im m j (k, h) s = Ok ((k', h', out), s') -> wk ent s'.
Proof.
  intros W Hk Ne E. unfold rtl_step in E. inv_bind E o s1 E1. apply get_run in E1. destruct E1 as (Eo & ->).
  destruct o as [n|]; [|apply ret_Ok in E as (_ & ->); exact W].
  pose proof (pos_act _ _ _ Hk) as Ai. pose proof (pos_act _ _ _ Eo) as An. pose proof (pos_ne _ _ _ _ _ (proj1 W) Hk Eo Ne) as Nin.
  inv_bind E nb s1 E1. apply bd_Ok in E1. destruct E1 as (-> & ->).
  inv_bind E e s1 E1. apply un_current_edge in E1. unfold unchanged in E1. subst s1.
  inv_bind E h1 s1 E1. apply wk_hot_rtl in E1; [|exact W|exact Ai]. destruct E1 as (W1 & A1).
  inv_bind E fx s2 E2. apply lift_Ok in E2. destruct E2 as (_ & ->). inv_bind E gtb s2 E2. apply lift_Ok in E2. destruct E2 as (_ & ->).
  destruct gtb; [apply ret_Ok in E as (_ & ->); exact W1|].
  inv_bind E r s2 E2. apply lift_Ok in E2. destruct E2 as (Er & ->). inv_bind E b s2 E2. apply bd_Ok in E2. destruct E2 as (-> & ->).
  inv_bind E stop s2 E2. apply stop_same in E2. subst s2.
  destruct stop; [apply ret_Ok in E as (_ & ->); exact W1|].
  inv_bind E u s2 E2.
  assert (A2 : wk ent s2 /\ s_abl s2 = s_abl s).
  { destruct (is_some _); [|apply ret_Ok in E2; destruct E2 as (_ & ->); auto]. apply wk_add in E2; [|exact W1|exact (act_same _ _ _ A1 Ai)]. destruct E2. split; [assumption|congruence]. }
  destruct A2 as (W2 & A2). destruct (im && (j =? m)%nat) eqn:Eq.
  - inv_bind E b1 s3 E3. apply bd_Ok in E3. destruct E3 as (-> & ->). inv_bind E b2 s3 E3. apply bd_Ok in E3. destruct E3 as (-> & ->).
    inv_bind E u1 s3 E3.
    assert (W3 : wk ent s3).
    { destruct (is_some (b_ring (bget (s_bounds s2) i)) && _) eqn:Er2; [|apply ret_Ok in E3; destruct E3 as (_ & ->); exact W2].
      apply andb_true_iff in Er2 as (R1 & R2). apply some_true in R1, R2.
      apply (wk_lmax _ _ _ _ _ _ W2 (act_same _ _ _ A2 Ai) (act_same _ _ _ A2 An) Nin R1 R2) in E3. apply E3. }
    inv_bind E u2 s4 E4. inv_bind E u3 s5 E5. apply ret_Ok in E. destruct E as (_ & ->).
    exact (wk_none _ _ _ _ _ (wk_none _ _ _ _ _ W3 E4) E5).
  - inv_bind E u1 s3 E3. apply (wk_intersect _ _ _ _ _ _ W2 (act_same _ _ _ A2 An) (act_same _ _ _ A2 Ai) (not_eq_sym Nin)) in E3. destruct E3 as (W3 & _).
    inv_bind E u2 s4 E4. apply ret_Ok in E. destruct E as (_ & ->). exact (wk_swap _ _ _ _ _ _ W3 E4).
Qed.
Lemma nodup_two {A} (k j : A) js : NoDup (k :: j :: js) -> k <> j /\ NoDup (k :: js) /\ NoDup (j :: js).
Proof.
  intros Nd. inversion Nd as [|? ? H1 H2]; subst. split; [intros ->; apply H1; left; reflexivity|]. split; [|exact H2]. inversion H2; subst.
  constructor; [|assumption]. intros X. apply H1. right. exact X.
Qed.
Lemma wk_ltr_loop i y im m : forall js k h sh s k' h' sh' out s', wk ent s -> nth_error (s_abl s) k = Some (Some i) -> NoDup (k :: js) -> (im = true -> k <> m) ->
  ltr_loop fuel op sfk cfk i y im m js (k, h, sh) s = Ok ((k', h', sh', out), s') -> wk ent s'.
Proof.
  induction js as [|j js IH]; intros k h sh s k' h' sh' out s' W Hk Nd Nm E; cbn [ltr_loop] in E; [apply ret_Ok in E as (_ & ->); exact W|].
  inv_bind E r s1 E1. destruct r as [[[k1 h1] sh1] out1]. destruct (nodup_two _ _ _ Nd) as (N1 & N2 & N3).
  pose proof (wk_ltr_step _ _ _ _ _ _ _ _ _ _ _ _ _ _ W Hk N1 E1) as W1.
  apply ltr_step_kept in E1; [|exact Hk|exact N1|exact Nm]. destruct E1 as (O1 & K1). cbn [fst snd] in E. destruct out1 as [[|]|].
  - apply ret_Ok in E as (_ & ->). exact W1.
  - apply ret_Ok in E as (_ & ->). exact W1.
  - pose proof O1 as (O2 & O3 & O4). eapply IH; [exact W1|exact O3| | |exact E].
    + destruct K1 as [->| ->]; assumption.
    + intros M. apply (O4 M).
Qed.
Lemma wk_rtl_loop i y im m : forall js k h s k' h' out s', wk ent s -> nth_error (s_abl s) k = Some (Some i) -> NoDup (k :: js) -> (im = true -> k <> m) ->
  rtl_loop fuel op sfk cfk i y im m js (k, h) s = Ok ((k', h', out), s') -> wk ent s'.
Proof.
  induction js as [|j js IH]; intros k h s k' h' out s' W Hk Nd Nm E; cbn [rtl_loop] in E; [apply ret_Ok in E as (_ & ->); exact W|].
  inv_bind E r s1 E1. destruct r as [[k1 h1] out1]. destruct (nodup_two _ _ _ Nd) as (N1 & N2 & N3).
  pose proof (wk_rtl_step _ _ _ _ _ _ _ _ _ _ _ _ W Hk N1 E1) as W1.
  apply rtl_step_kept in E1; [|exact Hk|exact N1|exact Nm]. destruct E1 as (O1 & K1). cbn [fst snd] in E. destruct out1 as [[|]|].
  - apply ret_Ok in E as (_ & ->). exact W1.
  - apply ret_Ok in E as (_ & ->). exact W1.
  - pose proof O1 as (O2 & O3 & O4). eapply IH; [exact W1|exact O3| | |exact E].
    + destruct K1 as [->| ->]; assumption.
    + intros M. apply (O4 M).
Qed.
Lemma wk_finish i k s u s' : wk ent s -> act s i -> finish_horizontal i k s = Ok (u, s') -> wk ent s'.
Proof.
  intros W A E. unfold finish_horizontal in E. inv_bind E b s1 E1. apply bd_Ok in E1 as (-> & ->). inv_bind E u1 s1 E1.
  assert (W1 : wk ent s1).
  { destruct (is_some _); [|apply ret_Ok in E1 as (_ & ->); exact W]. inv_bind E1 e s2 E2. apply un_current_edge in E2.
    unfold unchanged in E2. subst s2. apply wk_add in E1; [apply E1|exact W|exact A]. }
  inv_bind E b s2 E2. apply bd_Ok in E2 as (-> & ->). destruct (_ <? _)%nat; [exact (wk_idle _ _ _ (id_to_next _ _ _ _ E) W1)|exact (wk_none _ _ _ _ _ W1 E)].
Qed.
Lemma wk_horizontal y k i s k' s' : wk ent s -> nth_error (s_abl s) k = Some (Some i) -> b_max (bget (s_bounds s) i) <> Some i ->
  process_horizontal fuel op sfk cfk y k s = Ok (k', s') -> wk ent s'.
Proof.
  intros W Hk Nself E. unfold process_horizontal in E. inv_bind E i' s1 E1. apply bound_run in E1. destruct E1 as (E1 & ->).
  assert (i' = i) by congruence. subst i'. clear E1. inv_bind E e s1 E1. apply un_current_edge in E1. unfold unchanged in E1. subst s1.
  assert (Nmi : forall m, m = find_bound (b_max (bget (s_bounds s) i)) (s_abl s) -> k <> m).
  { intros m -> ->. destruct (b_max (bget (s_bounds s) i)) as [z|] eqn:Ez.
    - apply (find_bound_spec _ _ z eq_refl) in Hk. congruence.
    - destruct (find_if_spec (opt_is None) (s_abl s)) as (_ & _ & F). apply F in Hk. discriminate. }
  destruct (px (ebot e) <? px (etop e)).
  - unfold process_horizontal_left_to_right in E. inv_bind E i' s1 E1. apply bound_run in E1. destruct E1 as (E1 & ->).
    assert (i' = i) by congruence. subst i'. clear E1. inv_bind E im s1 E1. pose proof (maxima_same _ _ _ _ _ E1). subst s1.
    inv_bind E s0 s1 E0. apply get_Ok in E0. destruct E0 as (-> & ->). inv_bind E b s1 E0. apply bd_Ok in E0. destruct E0 as (-> & ->).
    inv_bind E e' s1 E0. apply un_current_edge in E0. unfold unchanged in E0. subst s1. inv_bind E r s1 E2. destruct r as [[[k1 h1] sh] out].
    cbv zeta in E2.
    assert (Nd : NoDup (k :: range (S k) (length (s_abl s)))) by (unfold range; constructor; [intros I; apply in_seq in I; lia|apply seq_NoDup]).
    assert (Nm : im = true -> k <> if im then find_bound (b_max (bget (s_bounds s) i)) (s_abl s) else length (s_abl s)) by (intros ->; apply Nmi; reflexivity).
    pose proof (wk_ltr_loop _ _ _ _ _ _ _ _ _ _ _ _ _ _ W Hk Nd Nm E2) as W1.
    apply ltr_loop_kept in E2; [|exact Hk|exact Nd|exact Nm].
    cbv beta iota zeta in E. unfold outcome in E2.
    assert (Rest : forall res, act s1 i -> (b <- bd i ;;
        hp <- gets s_hp ;;
        (if is_some (b_ring b) then
           (e <- current_edge i ;;
            add_hot_pixels_ltr (S (length hp)) (fun q =>
              Ok (negb (py q =? y) || (px q >=? px (etop e)))) i h1 ;; ret tt)
         else ret tt) ;;
        finish_horizontal i k1 ;;
        ret res) s1 = Ok (k', s') -> wk ent s').
    { clear E E2. intros res A E. inv_bind E b s2 E3. apply bd_Ok in E3. destruct E3 as (-> & ->). inv_bind E hp s2 E3. apply gets_Ok in E3. destruct E3 as (-> & ->).
      inv_bind E u s2 E3. inv_bind E u2 s3 E4. apply ret_Ok in E. destruct E as (_ & ->).
      assert (Z : wk ent s2 /\ s_abl s2 = s_abl s1).
      { destruct (is_some _); [|apply ret_Ok in E3; destruct E3 as (_ & ->); auto].
        inv_bind E3 e2 s4 E5. apply un_current_edge in E5. unfold unchanged in E5. subst s4. inv_bind E3 h2 s4 E5. apply ret_Ok in E3. destruct E3 as (_ & ->).
        eapply wk_hot_ltr; [exact W1|exact A|exact E5]. }
      destruct Z as (W2 & A2). exact (wk_finish _ _ _ _ _ W2 (act_same _ _ _ A2 A) E4). }
    destruct out as [[|]|]; [apply ret_Ok in E as (_ & ->); exact W1| |];
      (destruct E2 as (_ & H1 & _); exact (Rest _ (pos_act _ _ _ H1) E)).
  - unfold process_horizontal_right_to_left in E. inv_bind E i' s1 E1. apply bound_run in E1. destruct E1 as (E1 & ->).
    assert (i' = i) by congruence. subst i'. clear E1. inv_bind E im s1 E1. pose proof (maxima_same _ _ _ _ _ E1). subst s1.
    inv_bind E s0 s1 E0. apply get_Ok in E0. destruct E0 as (-> & ->). inv_bind E b s1 E0. apply bd_Ok in E0. destruct E0 as (-> & ->).
    inv_bind E e' s1 E0. apply un_current_edge in E0. unfold unchanged in E0. subst s1. inv_bind E r s1 E2. destruct r as [[k1 h1] out].
    cbv zeta in E2.
    assert (Nd : NoDup (k :: rev (range 0 k))) by (unfold range; constructor; [intros I; apply in_rev in I; apply in_seq in I; lia|apply NoDup_rev, seq_NoDup]).
    assert (Nm : im = true -> k <> if im then find_bound (b_max (bget (s_bounds s) i)) (s_abl s) else length (s_abl s)) by (intros ->; apply Nmi; reflexivity).
    pose proof (wk_rtl_loop _ _ _ _ _ _ _ _ _ _ _ _ W Hk Nd Nm E2) as W1.
    apply rtl_loop_kept in E2; [|exact Hk|exact Nd|exact Nm].
    cbv beta iota zeta in E. unfold outcome in E2.
    assert (Rest : forall res, act s1 i -> (b <- bd i ;;
        (if is_some (b_ring b) then
           (e <- current_edge i ;;
            add_hot_pixels_rtl (fun q =>
              Ok (negb (py q =? y) || (px q <=? px (etop e)))) i h1 ;; ret tt)
         else ret tt) ;;
        finish_horizontal i k1 ;;
        ret res) s1 = Ok (k', s') -> wk ent s').
    { clear E E2. intros res A E. inv_bind E b s2 E3. apply bd_Ok in E3. destruct E3 as (-> & ->).
      inv_bind E u s2 E3. inv_bind E u2 s3 E4. apply ret_Ok in E. destruct E as (_ & ->).
      assert (Z : wk ent s2 /\ s_abl s2 = s_abl s1).
      { destruct (is_some _); [|apply ret_Ok in E3; destruct E3 as (_ & ->); auto].
        inv_bind E3 e2 s4 E5. apply un_current_edge in E5. unfold unchanged in E5. subst s4. inv_bind E3 h2 s4 E5. apply ret_Ok in E3. destruct E3 as (_ & ->).
        eapply wk_hot_rtl; [exact W1|exact A|exact E5]. }
      destruct Z as (W2 & A2). exact (wk_finish _ _ _ _ _ W2 (act_same _ _ _ A2 A) E4). }
    destruct out as [[|]|]; [apply ret_Ok in E as (_ & ->); exact W1| |];
      (destruct E2 as (_ & H1 & _); exact (Rest _ (pos_act _ _ _ H1) E)).
Qed.
Lemma wk_pass y ids : forall l s u s', (forall i, In i l -> In i ids) -> (forall i, In i ids -> act s i) -> wk ent s -> forM l (fun i =>
     (im <- is_intermediate i y ;;
      if (im : bool) then
        (b <- bd i ;;
         (if is_some (b_ring b)
          then (e <- current_edge i ;; add_point_to_ring i (etop e)) else ret tt) ;;
         to_next_edge i)
      else ret tt)) s = Ok (u, s') -> wk ent s'.
Proof.
  induction l as [|i l IH]; intros s u s' Sub Ha W E; cbn [forM] in E; [apply ret_Ok in E as (_ & ->); exact W|].
  inv_bind E u1 s1 E1. assert (Z : wk ent s1 /\ s_abl s1 = s_abl s).
  { clear E IH. inv_bind E1 im s2 E2. pose proof (id_intermediate _ _ _ _ _ E2) as Id. pose proof (wk_idle _ _ _ Id W) as W2. assert (A2 : s_abl s2 = s_abl s) by apply Id.
    destruct im; [|apply ret_Ok in E1 as (_ & ->); auto]. inv_bind E1 b s3 E3. apply bd_Ok in E3 as (-> & ->). inv_bind E1 u2 s3 E3.
    assert (Z : wk ent s3 /\ s_abl s3 = s_abl s2).
    { destruct (is_some _); [|apply ret_Ok in E3 as (_ & ->); auto]. inv_bind E3 e s4 E4. apply un_current_edge in E4. unfold unchanged in E4. subst s4.
      eapply wk_add; [exact W2| |exact E3]. apply (act_same s); [exact A2|]. apply Ha, Sub. left. reflexivity. }
    destruct Z as (W3 & A3). pose proof (id_to_next _ _ _ _ E1) as Id3. split; [exact (wk_idle _ _ _ Id3 W3)|]. destruct Id3 as (_ & A4 & _). congruence. }
  destruct Z as (W1 & A1). eapply (IH s1); [intros x Ix; apply Sub; right; exact Ix| |exact W1|exact E].
  intros x Ix. apply (act_same s); [exact A1|]. apply Ha, Ix.
Qed.
End Sweep.

(** ** Turns *)
#[local] Instance sabl_pre2 : PreOrd sabl.
Proof. split; unfold sabl; congruence. Qed.
Lemma nth_two {A} (abl : list A) k l r : (k <= length abl)%nat ->
  nth_error (list_insert (list_insert abl k r) k l) k = Some l /\ nth_error (list_insert (list_insert abl k r) k l) (S k) = Some r.
Proof.
  intros H. rewrite (insert_two _ _ _ _ H). assert (L : length (firstn k abl) = k) by (rewrite firstn_length; lia).
  rewrite !nth_error_app2 by lia. rewrite L, Nat.sub_diag. replace (S k - k)%nat with 1%nat by lia. split; reflexivity.
Qed.
Section Turns.
Context (w : wagyu) (rs : list (linear_ring * polygon_kind)) (R0 : well_recorded w rs).
Context (fuel : nat) (op : operation_kind) (sfk cfk : fill_kind).
Notation bs := (lml_bounds (w_minimums w)).
Notation minimums := (lml_values (w_minimums w)).
Notation ms := (pure_sort_rev lm_lt minimums).
Notation Rec := (recorded w).
Let eds (i : bid) : list edge := b_edges (bget bs i).
Notation entered := (entered minimums).
Notation stc := (stc w).
Lemma not_self k s i : wk (entered k) s -> stc s -> act s i -> b_max (bget (s_bounds s) i) <> Some i.
Proof.
  intros (_ & Sb & _) HS A E. pose proof (entered_rec w _ _ (Sb i A)) as Ri. pose proof (max_paired w rs R0 i s i HS Ri E) as P.
  exact (paired_ne w rs R0 i i Ri P eq_refl).
Qed.
Lemma wk_top_loop y K s u s' : wk (entered K) s -> stc s ->
  loopM fuel (fun idx =>
     (abl <- gets s_abl ;;
      match nth_error abl idx with
      | None => ret (inr tt)
      | Some None => ret (inl (S idx))
      | Some (Some i) => (idx' <- top_step fuel op sfk cfk y idx i ;; ret (inl idx'))
      end)) O s = Ok (u, s') -> wk (entered K) s' /\ stc s'.
Proof.
  intros W HS. apply (tri_loop fuel _ (fun (_ : nat) s => wk (entered K) s /\ stc s) (fun (_ : unit) s => wk (entered K) s /\ stc s)); [|auto].
  clear s s' u W HS. intros k s r s' (W & HS) E. inv_bind E abl t Ea. apply gets_Ok in Ea as (-> & ->).
  destruct (nth_error (s_abl s) k) as [[i|]|] eqn:En; [|apply ret_Ok in E as (-> & ->); auto..].
  inv_bind E k' t Ea. apply ret_Ok in E as (-> & ->). split.
  - eapply wk_top; [exact W|exact En|eapply not_self; [exact W|exact HS|exact (pos_act _ _ _ En)]|exact Ea].
  - eapply stc_pres; [apply st_top_step|exact Ea|exact HS].
Qed.
Lemma wk_horizontals y K s u s' : wk (entered K) s -> stc s -> process_horizontals fuel op sfk cfk y s = Ok (u, s') -> wk (entered K) s'.
Proof.
  intros W HS E. unfold process_horizontals in E. inv_bind E u1 s1 E1. eapply wk_compact; [|exact E]. clear E s' u.
  revert E1. apply (tri_loop fuel _ (fun (_ : nat) s => wk (entered K) s /\ stc s) (fun (_ : unit) s => wk (entered K) s)); [|auto].
  clear s W HS s1 u1. intros k s r s' (W & HS) E. inv_bind E abl t Ea. apply gets_Ok in Ea as (-> & ->).
  destruct (nth_error (s_abl s) k) as [[i|]|] eqn:En; [|apply ret_Ok in E as (-> & ->); auto..].
  inv_bind E e t Ea. apply un_current_edge in Ea. unfold unchanged in Ea. subst t. destruct (is_horizontal e); [|apply ret_Ok in E as (-> & ->); auto].
  inv_bind E k' t Ea. apply ret_Ok in E as (-> & ->). split.
  - eapply wk_horizontal; [exact W|exact En|eapply not_self; [exact W|exact HS|exact (pos_act _ _ _ En)]|exact Ea].
  - eapply stc_pres; [apply st_ph|exact Ea|exact HS].
Qed.
Lemma wk_insert k m s u s' : nth_error ms k = Some m -> stc s -> wk (entered k) s ->
  (initialize m ;; insert_lm_left_and_right_bound op sfk cfk (lm_left m) (lm_right m)) s = Ok (u, s') -> wk (entered (S k)) s'.
Proof.
  intros Hm HS (N & Sb & C) E. destruct (entered_fresh w rs R0 k m Hm) as (Fl & Fr & Nlr).
  assert (Im : In m minimums) by (eapply Permutation_in; [apply Permutation_sym, ms_perm|eapply nth_error_In, Hm]).
  pose proof (wr_shape _ _ R0) as Sh. rewrite Forall_forall in Sh. specialize (Sh m Im). destruct Sh as (_ & El & Er & _).
  apply bind_ok in E as (u1 & s1 & E1 & E). unfold initialize in E1. apply bind_ok in E1 as (u0 & s0 & E0 & E1).
  assert (Sr : forall i sd, pres same_ringed (init_bound i sd)).
  { intros i sd. unfold init_bound. apply pres_bind; [exact _|apply pres_gets; exact _|]. intros b. destruct (b_edges b); [apply pres_ret; exact _|].
    apply pres_bind; [exact _|apply pres_lift; exact _|]. intros x z v z' Ez. apply (upd_onlyb _ _ _ _ _ Ez). }
  assert (SR : same_ringed s s1) by (eapply R_trans; [exact (Sr _ _ _ _ _ E0)|exact (Sr _ _ _ _ _ E1)]).
  assert (St : stat eds s) by (intros i; specialize (HS i); unfold static_of in HS; injection HS as X _ _ _; exact X).
  pose proof (st_init_bound _ _ _ _ _ E0) as X0.
  assert (HS0 : stc s0) by (intros i; rewrite (X0 i); apply HS).
  assert (St0 : stat eds s0) by (intros i; specialize (HS0 i); unfold static_of in HS0; injection HS0 as X _ _ _; exact X).
  apply (init_run2 w) in E0; [|exact St|exact El]. destruct E0 as (b1 & M1 & B1). apply (init_run2 w) in E1; [|exact St0|exact Er]. destruct E1 as (b2 & M2 & B2).
  assert (Ea : s_abl s1 = s_abl s) by (destruct M1 as (_ & A1 & _), M2 as (_ & A2 & _); congruence).
  assert (Ol : b_ring (bget (s_bounds s1) (lm_left m)) = None).
  { destruct M2 as (_ & _ & M2). rewrite M2. destruct (Pos.eqb_spec (lm_right m) (lm_left m)) as [X|_]; [congruence|]. rewrite (moved_self _ _ _ _ M1). exact B1. }
  assert (Or : b_ring (bget (s_bounds s1) (lm_right m)) = None) by (rewrite (moved_self _ _ _ _ M2); exact B2).
  assert (Oo : forall i, entered k i -> bget (s_bounds s1) i = bget (s_bounds s) i).
  { intros i Ei. destruct M1 as (_ & _ & M1), M2 as (_ & _ & M2). rewrite M2, M1.
    destruct (Pos.eqb_spec (lm_right m) i) as [<-|_]; [contradiction|]. destruct (Pos.eqb_spec (lm_left m) i) as [<-|_]; [contradiction|reflexivity]. }
  clear M1 M2 B1 B2 X0 HS0 St0 St Sr.
  pose proof (insert_live _ _ _ _ _ _ _ _ E) as (l1 & l2 & V1 & V2).
  assert (Lv : live s1 = live s) by (unfold live; rewrite Ea; reflexivity). rewrite Lv in V1.
  assert (Nd' : NoDup (live s')).
  { rewrite V2. rewrite V1 in N. assert (Fl' : ~ In (lm_left m) (l1 ++ l2)) by (rewrite <- V1; intros Z; apply act_live in Z; exact (Fl (Sb _ Z))).
    assert (Fr' : ~ In (lm_right m) (l1 ++ l2)) by (rewrite <- V1; intros Z; apply act_live in Z; exact (Fr (Sb _ Z))).
    apply (Permutation_NoDup (l := lm_left m :: lm_right m :: l1 ++ l2)).
    - change (l1 ++ lm_left m :: lm_right m :: l2) with (l1 ++ [lm_left m; lm_right m] ++ l2). rewrite app_assoc.
      change (lm_left m :: lm_right m :: l1 ++ l2) with ([lm_left m; lm_right m] ++ l1 ++ l2). rewrite app_assoc. apply Permutation_app_tail, Permutation_app_comm.
    - constructor; [intros [Z|Z]; [congruence|contradiction]|]. constructor; assumption. }
  assert (Mem : forall x, act s' x <-> x = lm_left m \/ x = lm_right m \/ act s x).
  { intros x. rewrite !act_live, V1, V2. rewrite !in_app_iff. cbn. intuition auto. }
  split; [exact Nd'|]. split.
  { intros i Ai. apply (entered_S w k m i Hm). apply Mem in Ai as [->|[->|Ai]]; auto. }
  (* the run of the insertion *)
  unfold insert_lm_left_and_right_bound in E. apply bind_ok in E as (p & s2 & E2 & E).
  assert (Ins : same_ringed s1 s2 /\ s_bounds s2 = s_bounds s1 /\ nth_error (s_abl s2) p = Some (Some (lm_left m)) /\ nth_error (s_abl s2) (S p) = Some (Some (lm_right m))).
  { unfold insert_bound_into_abl in E2. apply bind_ok in E2 as (sx & t & E3 & E2). apply get_Ok in E3 as (-> & ->).
    apply bind_ok in E2 as (k0 & t & E3 & E2). apply lift_Ok in E3 as (E3 & ->). apply find_insert_le in E3.
    apply bind_ok in E2 as (v & t & E4 & E2). apply modify_Ok in E4. apply ret_Ok in E2 as (-> & ->). subst t. cbn [s_abl set]. split; [repeat split|]. split; [reflexivity|].
    exact (nth_two _ _ _ _ E3). }
  destruct Ins as (SR2 & Bd2 & P1 & P2). clear E2.
  assert (Ent : c0 (entered (S k)) no s1 \/ True) by (right; exact I). clear Ent.
  assert (A2 : forall x, act s2 x <-> act s' x).
  { assert (Q : pres (sabl) (set_winding_count sfk cfk p ;;
      i <- abl_bound p ;;
      j <- abl_bound (S p) ;;
      bi <- bd i ;;
      upd_bound j (fun b => b <| b_wc := b_wc bi |> <| b_owc := b_owc bi |>) ;;
      lb <- bd (lm_left m) ;;
      (if is_contributing op sfk cfk (b_kind lb) (b_wc lb) (b_owc lb)
       then (e <- current_edge i ;; add_local_minimum_point (ebot e) i j)
       else ret tt) ;;
      ei <- current_edge i ;;
      insort_scan (py (etop ei)) ;;
      ej <- current_edge j ;;
      if is_horizontal ej then ret tt else insort_scan (py (etop ej)))).
    { apply pres_bind; [exact _|apply sa_quiet, qt_winding|]. intros ?. apply pres_bind; [exact _|apply sa_quiet, qt_abl_bound|]. intros i.
      apply pres_bind; [exact _|apply sa_quiet, qt_abl_bound|]. intros j. apply pres_bind; [exact _|apply sa_quiet, qt_bd|]. intros bi.
      apply pres_bind; [exact _|apply sa_quiet; qt_prim|]. intros ?. apply pres_bind; [exact _|apply sa_quiet, qt_bd|]. intros lb.
      apply pres_bind; [exact _|apply sa_quiet; qt_auto|]. intros ?. apply pres_bind; [exact _|apply sa_quiet, qt_current_edge|]. intros ei.
      apply pres_bind; [exact _|apply sa_steady, sd_insort|]. intros ?. apply pres_bind; [exact _|apply sa_quiet, qt_current_edge|]. intros ej.
      destruct (is_horizontal ej); [apply pres_ret; exact _|apply sa_steady, sd_insort]. }
    intros x. unfold act. rewrite (Q _ _ _ E). tauto. }
  assert (C2 : c0 (entered (S k)) no s2).
  { destruct C as (K & P & C & En). split; [intros ? ? _ _; exact I|]. exists P. split; [exact (chains_same P s1 s2 SR2 (chains_same P s s1 SR C))|]. rewrite Bd2.
    eapply (ends_enter _ _ (entered k) (entered (S k)) (act s) (act s2)); [| | |exact Sb|exact Oo|exact En].
    - intros i Ai. apply A2, Mem. auto.
    - intros i Ai. apply A2, Mem in Ai as [->|[->|Ai]]; auto.
    - intros i Ei. apply (entered_S w k m i Hm). auto. }
  clear C Mem V1 V2 Lv A2 Nd'.
  apply bind_ok in E as (v1 & s3 & E3 & E). pose proof (id_winding _ _ _ _ _ _ E3) as I3.
  apply bind_ok in E as (i & t & E4 & E). apply bound_run in E4 as (Hi & ->). apply bind_ok in E as (j & t & E4 & E). apply bound_run in E4 as (Hj & ->).
  assert (i = lm_left m) by (destruct I3 as (_ & I3 & _); rewrite I3 in Hi; congruence). assert (j = lm_right m) by (destruct I3 as (_ & I3 & _); rewrite I3 in Hj; congruence). subst i j.
  apply bind_ok in E as (bi & t & E4 & E). apply bd_Ok in E4 as (-> & ->). apply bind_ok in E as (v2 & s4 & E4 & E).
  assert (I4 : idle s2 s4) by (eapply R_trans; [exact I3|]; eapply (id_upd_bound (lm_right m)); [|exact E4]; intros; repeat split).
  apply bind_ok in E as (lb & t & E5 & E). apply bd_Ok in E5 as (-> & ->). apply bind_ok in E as (v3 & s5 & E5 & E).
  pose proof (idle_c0 _ _ _ _ I4 C2) as C4. destruct I4 as (_ & A4 & B4).
  assert (C5 : c0 (entered (S k)) no s5).
  { destruct (is_contributing _ _ _ _ _ _); [|apply ret_Ok in E5 as (_ & ->); exact C4].
    apply bind_ok in E5 as (e & t & E6 & E5). apply un_current_edge in E6. unfold unchanged in E6. subst t.
    assert (Al : act s4 (lm_left m)) by (unfold act; rewrite A4; exact (pos_act _ _ _ P1)). assert (Ar : act s4 (lm_right m)) by (unfold act; rewrite A4; exact (pos_act _ _ _ P2)).
    assert (Rl : b_ring (bget (s_bounds s4) (lm_left m)) = None) by (destruct (B4 (lm_left m)) as (Z & _); rewrite Z, Bd2; exact Ol).
    assert (Rr : b_ring (bget (s_bounds s4) (lm_right m)) = None) by (destruct (B4 (lm_right m)) as (Z & _); rewrite Z, Bd2; exact Or).
    exact (proj1 (add_lmin_cx (fun _ _ => True) (fun _ _ => True) (fun _ => True) (entered (S k)) ltac:(auto) no _ _ _ s4 v3 s5 C4 Al Ar Nlr I I Rl Rr E5)). }
  eapply idle_c0; [|exact C5]. revert E. clear. match goal with |- ?mm s5 = _ -> _ => assert (Z : pres idle mm) by id_auto end. apply Z.
Qed.
Lemma wk_minima h y : forall k s k' s', stc s -> wk (entered k) s -> insert_local_minima fuel op sfk cfk h y ms k s = Ok (k', s') -> stc s' /\ wk (entered k') s'.
Proof.
  intros k s k' s' HS HG E. split; [eapply stc_pres; [|exact E|exact HS]; apply st_insert_local_minima|].
  revert E. unfold insert_local_minima. apply (tri_loop fuel _ (fun k s => stc s /\ wk (entered k) s) (fun k s => wk (entered k) s)); [|auto].
  clear - R0 eds. intros k s r s' (HS & HG) E. destruct (nth_error ms k) as [m|] eqn:Hm; [|apply ret_Ok in E; destruct E as (-> & ->); exact HG].
  destruct (_ && _); [|apply ret_Ok in E; destruct E as (-> & ->); exact HG].
  apply bind_ok in E as (u0 & s0 & E0 & E). apply bind_ok in E as (u1 & s1 & E1 & E). apply ret_Ok in E. destruct E as (-> & ->). split.
  - eapply stc_pres; [apply st_insert_lm|exact E1|]. eapply stc_pres; [apply st_initialize|exact E0|exact HS].
  - eapply (wk_insert k m s u1); [exact Hm|exact HS|exact HG|]. unfold bind. rewrite E0. exact E1.
Qed.
Lemma wk_edges y k s k' s' : stc s -> wk (entered k) s ->
  process_edges_at_top_of_scanbeam fuel op sfk cfk y ms k s = Ok (k', s') -> wk (entered k') s'.
Proof.
  intros HS W E. unfold process_edges_at_top_of_scanbeam in E. apply bind_ok in E as (u1 & s1 & E1 & E).
  destruct (wk_top_loop _ _ _ _ _ W HS E1) as (W1 & S1). apply bind_ok in E as (u2 & s2 & E2 & E).
  pose proof (wk_compact _ _ _ _ W1 E2) as W2. pose proof (stc_pres w _ _ _ _ st_abl_compact E2 S1) as S2.
  apply bind_ok in E as (k1 & s3 & E3 & E). destruct (wk_minima _ _ _ _ _ _ S2 W2 E3) as (S3 & W3).
  apply bind_ok in E as (u4 & s4 & E4 & E). pose proof (wk_horizontals _ _ _ _ _ W3 S3 E4) as W4.
  apply bind_ok in E as (ids & s5 & E5 & E). apply ids_run in E5 as (Hids & ->).
  apply bind_ok in E as (u6 & s6 & E6 & E). apply ret_Ok in E as (-> & ->). eapply (wk_pass (entered k1) y ids ids); [auto| |exact W4|exact E6].
  intros i Ii. unfold act. rewrite Hids. apply in_map. exact Ii.
Qed.
Lemma wk_turn y k s y' k' s' : stc s -> wk (entered k) s -> scanbeam_turn fuel op sfk cfk ms (y, k) s = Ok (inl (y', k'), s') -> stc s' /\ wk (entered k') s'.
Proof.
  intros HS W E. unfold scanbeam_turn in E. apply bind_ok in E as (go & s1 & E1 & E).
  assert (P1 : pres unchanged (sweep_pending ms k)) by (unfold sweep_pending; pres_auto).
  apply P1 in E1. unfold unchanged in E1. subst s1. clear P1.
  destruct go; [|apply ret_Ok in E; destruct E; discriminate].
  apply bind_ok in E as (y1 & s1 & E1 & E). pose proof (stc_pres w _ _ _ _ (st_pop_scanbeam _) E1 HS) as HS1. pose proof (wk_idle _ _ _ (id_pop _ _ _ _ E1) W) as W1.
  apply bind_ok in E as (u2 & s2 & E2 & E). pose proof (stc_pres w _ _ _ _ (st_process_intersections _ _ _ _ _) E2 HS1) as HS2.
  pose proof (wk_intersections fuel op sfk cfk _ _ _ _ _ W1 E2) as W2.
  apply bind_ok in E as (u3 & s3 & E3 & E). pose proof (stc_pres w _ _ _ _ (st_update_hpi _ _) E3 HS2) as HS3. pose proof (wk_idle _ _ _ (id_hpi _ _ _ _ _ E3) W2) as W3.
  apply bind_ok in E as (k1 & s4 & E4 & E). pose proof (stc_pres w _ _ _ _ (st_peats _ _ _ _ _ _ _) E4 HS3) as HS4. pose proof (wk_edges _ _ _ _ _ HS3 W3 E4) as W4.
  apply bind_ok in E as (k2 & s5 & E5 & E). apply ret_Ok in E as (E & ->). injection E as -> ->. exact (wk_minima _ _ _ _ _ _ HS4 W4 E5).
Qed.
Lemma wk_swept s0 y k s : stc s0 -> (exists P, chains P s0) -> swept fuel op sfk cfk minimums s0 y k s -> stc s /\ wk (entered k) s.
Proof.
  intros HS (P & C) H. induction H as [|y k s y' k' s' _ IH E].
  - split; [exact HS|]. split; [constructor|]. split; [intros i []|]. split; [intros ? ? _ _; exact I|]. exists P.
    split; [apply (chains_same P s0); [repeat split|exact C]|]. split.
    + intros i r [].
    + intros i r [].
    + intros i j r [].
    + intros r. induction (P r) as [|a [|b l] IHl]; cbn; auto.
    + intros r _. left. exact I.
    + intros i r [].
  - destruct IH as (HS1 & W1). exact (wk_turn _ _ _ _ _ _ HS1 W1 E).
Qed.
End Turns.
