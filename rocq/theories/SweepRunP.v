(** * A whole sweep keeps the active list right *)
From Coq Require Import ZArith List Bool Lia FMapPositive Permutation.
From Coq Require Import Floats.SpecFloat.
From RecordUpdate Require Import RecordSet.
From Verif Require Import Py Monad Utils Geometry LinearRingM BoundM LocalMinimumM
     StateM PointNodeM RingM SweepM TopologyM WagyuM SpecBounds HoareP SweepFrameP SpecSweep SpecActive SpecOrigin SpecRun ListP QuickP FuelP
     HotPixelP WindingP CalmP WindingInvP PointersP VatP IntersectP InsertP MaximaP OriginP FloatP PositionP AddRingP HistoryP PropOrigin.
Import ListNotations RecordSetNotations.
Open Scope Z_scope.
Local Open Scope m_scope.

(** ** Membership in the active list *)
Lemma live_in s i : In i (live s) <-> In (Some i) (s_abl s).
Proof.
  unfold live, somes_of. rewrite in_flat_map. split.
  - intros ([x|] & I1 & I2); [|destruct I2]. destruct I2 as [->|[]]. exact I1.
  - intros I. exists (Some i). split; [exact I|left; reflexivity].
Qed.
Definition same_members (s s' : st) : Prop := forall i, In i (live s') <-> In i (live s).
#[export] Instance same_members_pre : PreOrd same_members.
Proof. split; unfold same_members; [tauto|]. intros a b c H1 H2 i. rewrite H2. apply H1. Qed.
#[export] Hint Resolve same_members_pre : pres.
Lemma sm_abl s s' : s_abl s' = s_abl s -> same_members s s'.
Proof. intros E i. unfold live. rewrite E. tauto. Qed.
Lemma sm_quiet {A} (m : prog A) : pres quiet m -> pres same_members m.
Proof. apply pres_mono. intros s s' Q. apply sm_abl, Q. Qed.
Lemma sm_unchanged {A} (m : prog A) : pres unchanged m -> pres same_members m.
Proof. apply pres_mono. intros s s' ->. apply R_refl. Qed.
Lemma upd_swap_in {A} (l : list A) a b x y z : nth_error l a = Some x -> nth_error l b = Some y ->
  In z (upd (upd l a y) b x) <-> In z l.
Proof.
  intros Ha Hb. split; intros I.
  - apply In_upd in I. destruct I as [->|I]; [eapply nth_error_In, Ha|]. apply In_upd in I. destruct I as [->|I]; [eapply nth_error_In, Hb|exact I].
  - apply In_nth_error in I. destruct I as (p & Hp).
    assert (La : (a < length l)%nat) by (apply nth_error_Some; congruence).
    assert (Lb : (b < length l)%nat) by (apply nth_error_Some; congruence).
    destruct (Nat.eq_dec p a) as [->|Na].
    + apply (nth_error_In _ b). rewrite nth_error_upd_eq; [congruence|]. rewrite QuickP.upd_length. exact Lb.
    + destruct (Nat.eq_dec p b) as [->|Nb].
      * apply (nth_error_In _ a). rewrite nth_error_upd_ne by congruence. rewrite nth_error_upd_eq by exact La. congruence.
      * apply (nth_error_In _ p). rewrite !nth_error_upd_ne by congruence. exact Hp.
Qed.
Lemma sm_swap a b : pres same_members (abl_swap a b).
Proof.
  intros s u s' E. apply swap_run in E. destruct E as (x & y & Ex & Ey & (_ & _ & Ea)). intros i.
  rewrite !live_in, Ea. apply upd_swap_in; assumption.
Qed.
Lemma sm_intersections fuel op a b y : pres same_members (process_intersections fuel op a b y).
Proof.
  unfold process_intersections. apply pres_bind; [exact _|apply pres_gets; exact _|]. intros abl. destruct abl; [apply pres_ret; exact _|].
  apply pres_bind; [exact _|eapply pres_mono; [|apply sd_update_current_x]; intros s s' (E & _); apply sm_abl, E|]. intros u.
  apply pres_bind; [exact _| |].
  { intros s l s' E. apply build_intersect_list_spec in E. destruct E as (-> & _). apply R_refl. }
  intros l. destruct l as [|n l]; [apply pres_ret; exact _|]. generalize (n :: l). clear n l abl u. intros l.
  apply pres_bind; [exact _|apply sm_unchanged, un_py_sort|]. intros l'. generalize (length l'). intros c. revert l'.
  induction c as [|c IH]; intros [|n rest]; cbn [process_intersect_list]; try (apply pres_ret; exact _).
  apply pres_bind; [exact _|apply pres_gets; exact _|]. intros abl. apply pres_bind; [exact _|apply pres_lift; exact _|]. intros [k ok].
  apply pres_bind; [exact _| |].
  { destruct ok; [apply pres_ret; exact _|]. apply pres_bind; [exact _|apply pres_lift; exact _|]. intros [[pos k']|]; [|apply pres_raise].
    apply pres_bind; [exact _|apply pres_lift; exact _|]. intros m. apply pres_ret; exact _. }
  intros [[m rest'] k']. apply pres_bind; [exact _|apply pres_lift; exact _|]. intros p.
  apply pres_bind; [exact _|apply sm_quiet, qt_intersect_bounds|]. intros ?. apply pres_bind; [exact _|apply sm_swap|]. intros ?. apply IH.
Qed.

(** ** What [do_maxima] does to the list, whatever it contains *)
Section Walk.
Context (fuel : nat) (op : operation_kind) (sfk cfk : fill_kind).
(** [l'] is [l] with the elements from [k] on permuted, and [x] taken from [kc]... *)
Record shuffled (k : nat) (l l' : list (option bid)) : Prop := {
  sh_len : length l' = length l;
  sh_low : forall p, (p < k)%nat -> nth_error l' p = nth_error l p;
  sh_high : forall p o, (k <= p)%nat -> nth_error l' p = Some o -> exists q, (k <= q)%nat /\ nth_error l q = Some o;
  sh_in : forall o, In o l' <-> In o l
}.
Lemma sh_refl k l : shuffled k l l.
Proof. constructor; try reflexivity. intros p o L H. eauto. Qed.
Lemma sh_trans k a b c : shuffled k a b -> shuffled k b c -> shuffled k a c.
Proof.
  intros [A1 A2 A3 A4] [B1 B2 B3 B4]. constructor; [congruence| | |intros o; rewrite B4; apply A4].
  - intros p L. rewrite B2 by exact L. apply A2, L.
  - intros p o L H. destruct (B3 p o L H) as (q & Lq & Hq). exact (A3 q o Lq Hq).
Qed.
Lemma sh_swap k a b l x y : (k <= a)%nat -> (k <= b)%nat -> nth_error l a = Some x -> nth_error l b = Some y ->
  shuffled k l (upd (upd l a y) b x).
Proof.
  intros La Lb Ha Hb. constructor.
  - rewrite !QuickP.upd_length. reflexivity.
  - intros p L. rewrite !nth_error_upd_ne by lia. reflexivity.
  - intros p o L H. apply nth_upd in H. destruct H as [(-> & ->)|(_ & H)]; [eauto|].
    apply nth_upd in H. destruct H as [(-> & ->)|(_ & H)]; eauto.
  - intros o. apply upd_swap_in; assumption.
Qed.
Definition same_bounds (s s' : st) : Prop := forall x, qcore (bget (s_bounds s') x) = qcore (bget (s_bounds s) x).
Lemma walk_list k m i : forall js kc sk s k' sk' s', (forall j, In j js -> (k < j)%nat) -> NoDup (kc :: js) -> (k <= kc)%nat -> kc <> m ->
  nth_error (s_abl s) kc = Some (Some i) -> walk_go fuel op sfk cfk m js kc sk s = Ok ((k', sk'), s') ->
  shuffled k (s_abl s) (s_abl s') /\ nth_error (s_abl s') k' = Some (Some i) /\ k' <> m /\ (k <= k')%nat /\
  nth_error (s_abl s') m = nth_error (s_abl s) m /\ same_bounds s s' /\ (sk' = false -> k' = kc /\ sk = false).
Proof.
  induction js as [|j js IH]; intros kc sk s k' sk' s' Hj Nd Lk Nm Hi E; cbn [walk_go] in E.
  - apply ret_Ok in E. destruct E as (E & ->). injection E as -> ->. split; [apply sh_refl|]. repeat split; auto.
  - destruct (Nat.eqb_spec j m) as [->|Njm].
    { apply ret_Ok in E. destruct E as (E & ->). injection E as -> ->. split; [apply sh_refl|]. repeat split; auto. }
    inv_bind E o s1 E1. apply get_run in E1. destruct E1 as (E1 & ->).
    assert (Nk : kc <> j) by (inversion Nd; subst; intros ->; apply H1; left; reflexivity).
    assert (Nd1 : NoDup (kc :: js) /\ NoDup (j :: js)).
    { inversion Nd; subst. inversion H2; subst. split; [constructor; [intros X; apply H1; right; exact X|assumption]|exact H2]. }
    destruct o as [n|].
    + inv_bind E i' s1 E2. apply bound_run in E2. destruct E2 as (E2 & ->). assert (i' = i) by congruence. subst i'.
      inv_bind E e s1 E3. apply un_current_edge in E3. unfold unchanged in E3. subst s1.
      inv_bind E u1 s1 E3. apply qt_intersect_bounds in E3. pose proof E3 as Q. destruct E3 as (Ea & _ & _ & _ & Qc).
      inv_bind E u2 s2 E4. apply swap_run in E4. destruct E4 as (x & z & Ex & Ez & (F2 & B2 & A2)). rewrite Ea in *.
      assert (x = Some i) by congruence. subst x. assert (z = Some n) by congruence. subst z.
      assert (Sw : shuffled k (s_abl s) (s_abl s2)).
      { rewrite A2. apply sh_swap; [lia| |assumption..]. pose proof (Hj j (or_introl eq_refl)). lia. }
      assert (Lj : (j < length (s_abl s))%nat) by (apply nth_error_Some; congruence).
      apply IH in E.
      * destruct E as (H1 & H2 & H3 & H4 & H5 & H6 & H7). split; [eapply sh_trans; eassumption|]. split; [exact H2|]. split; [exact H3|].
        split; [exact H4|]. split; [|split; [|intros X; destruct (H7 X); discriminate]].
        -- rewrite H5, A2, !nth_error_upd_ne by congruence. reflexivity.
        -- intros y. rewrite (H6 y), B2. apply Qc.
      * intros j' I. apply Hj. right. exact I.
      * apply Nd1.
      * pose proof (Hj j (or_introl eq_refl)). lia.
      * exact Njm.
      * rewrite A2, nth_error_upd_eq; [reflexivity|]. rewrite QuickP.upd_length. exact Lj.
    + apply IH in E; [exact E| |apply Nd1|exact Lk|exact Nm|exact Hi]. intros j' I. apply Hj. right. exact I.
Qed.
(** the list after [do_maxima] *)
Record removed_two (k k' : nat) (i j : bid) (l l' : list (option bid)) : Prop := {
  rt_low : forall p x, (p < k')%nat -> nth_error l' p = Some (Some x) -> (p < k)%nat /\ nth_error l p = Some (Some x);
  rt_high : forall p x, (k' <= p)%nat -> nth_error l' p = Some (Some x) -> exists q, (k <= q)%nat /\ nth_error l q = Some (Some x);
  rt_other : forall x, x <> i -> x <> j -> In (Some x) l -> In (Some x) l'
}.
Lemma do_maxima_list k m i k' s s' : nth_error (s_abl s) k = Some (Some i) -> k <> m ->
  do_maxima fuel op sfk cfk k m s = Ok (k', s') ->
  exists j, nth_error (s_abl s) m = Some (Some j) /\ same_bounds s s' /\ removed_two k k' i j (s_abl s) (s_abl s').
Proof.
  intros Hi Nm E. unfold do_maxima in E. inv_bind E r s1 E1. unfold maxima_walk in E1.
  inv_bind E1 n s0 E0. apply gets_Ok in E0. destruct E0 as (-> & ->).
  change ((walk_go fuel op sfk cfk m (range (S k) (length (s_abl s))) k false) s = Ok (r, s1)) in E1. destruct r as [k1 sk].
  apply (walk_list k m i) in E1; [| | |lia|exact Nm|exact Hi].
  2: { unfold range. intros j I. apply in_seq in I. lia. }
  2: { unfold range. constructor; [intros I; apply in_seq in I; lia|apply seq_NoDup]. }
  destruct E1 as (Sh & Hk1 & Nk1 & Lk1 & Hm & Qb & Hsk). cbv beta iota zeta in E.
  inv_bind E i' s2 E2. apply bound_run in E2. destruct E2 as (E2 & ->). assert (i' = i) by congruence. subst i'.
  inv_bind E b s2 E3. apply bd_Ok in E3. destruct E3 as (-> & ->).
  inv_bind E j s2 E3. apply bound_run in E3. destruct E3 as (Ej & ->).
  inv_bind E c s2 E3. apply bd_Ok in E3. destruct E3 as (-> & ->).
  inv_bind E u1 s2 E3.
  assert (Q2 : quiet s1 s2).
  { destruct (_ && _); [|destruct (_ || _); [discriminate|apply ret_Ok in E3; destruct E3 as (_ & ->); apply R_refl]].
    inv_bind E3 e s3 E4. apply un_current_edge in E4. unfold unchanged in E4. subst s3. eapply qt_add_lmax, E3. }
  clear E3. destruct Q2 as (A2 & _ & _ & _ & Q2).
  inv_bind E u2 s3 E3. apply set_run in E3. destruct E3 as ((_ & B3 & A3) & _).
  inv_bind E u4 s4 E4. apply set_run in E4. destruct E4 as ((_ & B4 & A4) & _). apply ret_Ok in E. destruct E as (-> & ->).
  rewrite A2 in A3. rewrite A3 in A4. exists j. split; [congruence|]. split; [intros x; rewrite B4, B3, Q2; apply Qb|].
  rewrite A4. destruct Sh as [S1 S2 S3 S4].
  assert (Old : forall p x, nth_error (upd (upd (s_abl s1) k1 None) m None) p = Some (Some x) -> p <> k1 /\ p <> m /\ nth_error (s_abl s1) p = Some (Some x)).
  { intros p x H. apply nth_upd in H. destruct H as [(_ & H)|(N1 & H)]; [discriminate|].
    apply nth_upd in H. destruct H as [(_ & H)|(N2 & H)]; [discriminate|]. auto. }
  constructor.
  - intros p x L H. apply Old in H. destruct H as (N1 & N2 & H).
    assert (Lp : (p < k)%nat).
    { destruct sk; [exact L|]. destruct (Hsk eq_refl) as (-> & _). lia. }
    split; [exact Lp|]. rewrite <- S2 by exact Lp. exact H.
  - intros p x L H. apply Old in H. destruct H as (N1 & N2 & H). apply (S3 p); [|exact H]. destruct sk; lia.
  - intros x N1 N2 I. apply S4 in I. apply In_nth_error in I. destruct I as (p & Hp). apply (nth_error_In _ p).
    rewrite !nth_error_upd_ne; [exact Hp| |].
    + intros ->. congruence.
    + intros ->. congruence.
Qed.
Lemma removed_two_in k k' i j l l' x : removed_two k k' i j l l' -> In (Some x) l' -> In (Some x) l.
Proof.
  intros [A B _] I. apply In_nth_error in I. destruct I as (p & Hp). destruct (Nat.lt_ge_cases p k') as [L|L].
  - destruct (A p x L Hp) as (_ & H). eapply nth_error_In, H.
  - destruct (B p x L Hp) as (q & _ & H). eapply nth_error_In, H.
Qed.

(** ** What a horizontal edge does to the list *)
Lemma none_in k s u s' x : abl_set k None s = Ok (u, s') -> In x (live s') -> In x (live s).
Proof.
  intros E I. apply set_run in E. destruct E as ((_ & _ & A) & _). rewrite live_in in *. rewrite A in I.
  apply In_upd in I. destruct I as [I|I]; [discriminate|exact I].
Qed.
Lemma none_other k s u s' x : abl_set k None s = Ok (u, s') -> nth_error (s_abl s) k <> Some (Some x) -> In x (live s) -> In x (live s').
Proof.
  intros E N I. apply set_run in E. destruct E as ((_ & _ & A) & _). rewrite live_in in *. rewrite A.
  apply In_nth_error in I. destruct I as (p & Hp). apply (nth_error_In _ p). rewrite nth_error_upd_ne; [exact Hp|]. intros ->. congruence.
Qed.
(** nothing enters; only [i] and the bound at [m] leave *)
Definition gone_two (m : nat) (i : bid) (s s' : st) : Prop :=
  (forall x, In x (live s') -> In x (live s)) /\
  (forall x, In x (live s) -> x <> i -> nth_error (s_abl s) m <> Some (Some x) -> In x (live s')).
(** only the order of the list changes; [i] is now at [k'] *)
Definition stays (im : bool) (m : nat) (i : bid) (k' : nat) (s s' : st) : Prop :=
  same_members s s' /\ nth_error (s_abl s') k' = Some (Some i) /\
  (im = true -> nth_error (s_abl s') m = nth_error (s_abl s) m /\ k' <> m).
Lemma stays_refl im m i k s s' : s_abl s' = s_abl s -> nth_error (s_abl s) k = Some (Some i) -> (im = true -> k <> m) -> stays im m i k s s'.
Proof. intros E H N. split; [apply sm_abl, E|]. rewrite E. split; [exact H|]. intros M. auto. Qed.
Lemma stays_trans im m i k1 k2 s1 s2 s3 : stays im m i k1 s1 s2 -> stays im m i k2 s2 s3 -> stays im m i k2 s1 s3.
Proof.
  intros (A1 & A2 & A3) (B1 & B2 & B3). split; [eapply (R_trans (R := same_members)); eassumption|]. split; [exact B2|].
  intros M. destruct (A3 M) as (A4 & A5), (B3 M) as (B4 & B5). split; [congruence|exact B5].
Qed.
Lemma gone_after im m i k s1 s2 s3 : stays im m i k s1 s2 -> im = true -> gone_two m i s2 s3 -> gone_two m i s1 s3.
Proof.
  intros (A1 & A2 & A3) M (B1 & B2). destruct (A3 M) as (A4 & _). split.
  - intros x I. apply A1, B1, I.
  - intros x I N Nm. apply B2; [apply A1, I|exact N|rewrite A4; exact Nm].
Qed.
Lemma swap_stays im m i k j a b n s u s' : (a = k /\ b = j) \/ (a = j /\ b = k) -> k <> j -> nth_error (s_abl s) k = Some (Some i) ->
  nth_error (s_abl s) j = Some (Some n) -> (im = true -> k <> m) -> (im = true -> j <> m) -> abl_swap a b s = Ok (u, s') -> stays im m i j s s'.
Proof.
  intros Hab Ne Hk Hj Nk Nj E. split; [eapply sm_swap, E|].
  assert (W : exists L, s_abl s' = L /\ nth_error L j = Some (Some i) /\ forall p, p <> k -> p <> j -> nth_error L p = nth_error (s_abl s) p).
  { destruct Hab as [(-> & ->)|(-> & ->)].
    - apply swap_nth in E; [|exact Ne]. destruct E as (L & (_ & _ & Rl) & A & B & C). exists L. rewrite B. auto.
    - apply swap_nth in E; [|congruence]. destruct E as (L & (_ & _ & Rl) & A & B & C). exists L. rewrite A. split; [exact Rl|]. auto. }
  destruct W as (L & -> & W1 & W2). split; [exact W1|]. intros M. split; [|auto]. apply W2; intros ->; [exact (Nk M eq_refl)|exact (Nj M eq_refl)].
Qed.
Lemma two_gone m k a b i s u s1 v s2 : (a = m /\ b = k) \/ (a = k /\ b = m) -> nth_error (s_abl s) k = Some (Some i) ->
  abl_set a None s = Ok (u, s1) -> abl_set b None s1 = Ok (v, s2) -> gone_two m i s s2.
Proof.
  intros Hab Hk E1 E2. split; [intros x I; eapply none_in; [exact E1|]; eapply none_in; [exact E2|exact I]|].
  intros x I N Nm. pose proof (set_run _ _ _ _ _ E1) as ((_ & _ & A1) & _).
  destruct Hab as [(-> & ->)|(-> & ->)].
  - eapply none_other; [exact E2| |eapply none_other; [exact E1|exact Nm|exact I]]. rewrite A1. intros H. apply nth_upd in H.
    destruct H as [(_ & H)|(_ & H)]; [discriminate|]. congruence.
  - eapply none_other; [exact E2| |eapply none_other; [exact E1|congruence|exact I]]. rewrite A1. intros H. apply nth_upd in H.
    destruct H as [(_ & H)|(_ & H)]; [discriminate|]. congruence.
Qed.
Definition outcome (im : bool) (m : nat) (i : bid) (k' : nat) (out : option bool) (s s' : st) : Prop :=
  match out with Some true => im = true /\ gone_two m i s s' | _ => stays im m i k' s s' end.
Ltac quiet_step E := apply quiet_inv in E; destruct E as (_ & E).
Lemma ltr_step_kept i y im m j k h sh s k' h' sh' out s' : nth_error (s_abl s) k = Some (Some i) -> k <> j -> (im = true -> k <> m) ->
  ltr_step fuel op sfk cfk i y im m j (k, h, sh) s = Ok ((k', h', sh', out), s') ->
  outcome im m i k' out s s' /\ (k' = k \/ k' = j).
Proof.
  intros Hk Ne Nm E. unfold ltr_step in E. inv_bind E o s1 E1. apply get_run in E1. destruct E1 as (Eo & ->).
  destruct o as [n|]; [|apply ret_Ok in E; destruct E as (E & ->); injection E as -> -> -> ->; split; [apply stays_refl; auto|auto]].
  inv_bind E hp s1 E1. apply gets_Ok in E1. destruct E1 as (-> & ->). inv_bind E nb s1 E1. apply bd_Ok in E1. destruct E1 as (-> & ->).
  inv_bind E e s1 E1. apply un_current_edge in E1. unfold unchanged in E1. subst s1.
  inv_bind E h1 s1 E1. apply qt_add_hp_ltr in E1. quiet_step E1.
  inv_bind E fx s2 E2. apply lift_Ok in E2. destruct E2 as (_ & ->). inv_bind E gtb s2 E2. apply lift_Ok in E2. destruct E2 as (_ & ->).
  destruct gtb; [apply ret_Ok in E; destruct E as (E & ->); injection E as -> -> -> ->; split; [apply stays_refl; auto|auto]|].
  inv_bind E r s2 E2. apply lift_Ok in E2. destruct E2 as (Er & ->). inv_bind E b s2 E2. apply bd_Ok in E2. destruct E2 as (-> & ->).
  inv_bind E stop s2 E2. apply stop_same in E2. subst s2.
  destruct stop; [apply ret_Ok in E; destruct E as (E & ->); injection E as -> -> -> ->; split; [apply stays_refl; auto|auto]|].
  inv_bind E u s2 E2.
  assert (A2 : s_abl s2 = s_abl s).
  { destruct (is_some _); [apply qt_add_point_to_ring in E2; quiet_step E2; congruence|apply ret_Ok in E2; destruct E2 as (_ & ->); exact E1]. }
  destruct (im && (j =? m)%nat) eqn:Eq.
  - apply andb_prop in Eq. destruct Eq as (-> & Ej). apply Nat.eqb_eq in Ej. subst j.
    inv_bind E b1 s3 E3. apply bd_Ok in E3. destruct E3 as (-> & ->). inv_bind E b2 s3 E3. apply bd_Ok in E3. destruct E3 as (-> & ->).
    inv_bind E u1 s3 E3.
    assert (A3 : s_abl s3 = s_abl s).
    { destruct (_ && _); [apply qt_add_lmax in E3; quiet_step E3; congruence|apply ret_Ok in E3; destruct E3 as (_ & ->); exact A2]. }
    inv_bind E u2 s4 E4. inv_bind E u3 s5 E5. apply ret_Ok in E. destruct E as (E & ->). injection E as -> -> -> ->.
    split; [|auto]. split; [reflexivity|].
    assert (G : gone_two m i s3 s5) by (eapply two_gone; [left; split; reflexivity|rewrite A3; exact Hk|exact E4|exact E5]).
    destruct G as (G1 & G2). unfold gone_two, live in *. rewrite A3 in *. auto.
  - inv_bind E u1 s3 E3. apply qt_intersect_bounds in E3. quiet_step E3. rewrite A2 in E3.
    inv_bind E u2 s4 E4. apply ret_Ok in E. destruct E as (E & ->). injection E as -> -> -> ->. split; [|auto].
    eapply stays_trans with (k1 := k) (s2 := s3); [apply stays_refl; auto|].
    eapply (swap_stays im m i k j k j n); [left; auto|exact Ne|rewrite E3; exact Hk|rewrite E3; exact Eo|exact Nm| |exact E4].
    intros -> ->. rewrite Nat.eqb_refl in Eq. discriminate.
Qed.
Lemma rtl_step_kept i y im m j k h s k' h' out s' : nth_error (s_abl s) k = Some (Some i) -> k <> j -> (im = true -> k <> m) ->
  rtl_step fuel op sfk cfk i y im m j (k, h) s = Ok ((k', h', out), s') ->
  outcome im m i k' out s s' /\ (k' = k \/ k' = j).
Proof.
  intros Hk Ne Nm E. unfold rtl_step in E. inv_bind E o s1 E1. apply get_run in E1. destruct E1 as (Eo & ->).
  destruct o as [n|]; [|apply ret_Ok in E; destruct E as (E & ->); injection E as -> -> ->; split; [apply stays_refl; auto|auto]].
  inv_bind E nb s1 E1. apply bd_Ok in E1. destruct E1 as (-> & ->).
  inv_bind E e s1 E1. apply un_current_edge in E1. unfold unchanged in E1. subst s1.
  inv_bind E h1 s1 E1. apply qt_add_hp_rtl in E1. quiet_step E1.
  inv_bind E fx s2 E2. apply lift_Ok in E2. destruct E2 as (_ & ->). inv_bind E gtb s2 E2. apply lift_Ok in E2. destruct E2 as (_ & ->).
  destruct gtb; [apply ret_Ok in E; destruct E as (E & ->); injection E as -> -> ->; split; [apply stays_refl; auto|auto]|].
  inv_bind E r s2 E2. apply lift_Ok in E2. destruct E2 as (Er & ->). inv_bind E b s2 E2. apply bd_Ok in E2. destruct E2 as (-> & ->).
  inv_bind E stop s2 E2. apply stop_same in E2. subst s2.
  destruct stop; [apply ret_Ok in E; destruct E as (E & ->); injection E as -> -> ->; split; [apply stays_refl; auto|auto]|].
  inv_bind E u s2 E2.
  assert (A2 : s_abl s2 = s_abl s).
  { destruct (is_some _); [apply qt_add_point_to_ring in E2; quiet_step E2; congruence|apply ret_Ok in E2; destruct E2 as (_ & ->); exact E1]. }
  destruct (im && (j =? m)%nat) eqn:Eq.
  - apply andb_prop in Eq. destruct Eq as (-> & Ej). apply Nat.eqb_eq in Ej. subst j.
    inv_bind E b1 s3 E3. apply bd_Ok in E3. destruct E3 as (-> & ->). inv_bind E b2 s3 E3. apply bd_Ok in E3. destruct E3 as (-> & ->).
    inv_bind E u1 s3 E3.
    assert (A3 : s_abl s3 = s_abl s).
    { destruct (_ && _); [apply qt_add_lmax in E3; quiet_step E3; congruence|apply ret_Ok in E3; destruct E3 as (_ & ->); exact A2]. }
    inv_bind E u2 s4 E4. inv_bind E u3 s5 E5. apply ret_Ok in E. destruct E as (E & ->). injection E as -> -> ->.
    split; [|auto]. split; [reflexivity|].
    assert (G : gone_two m i s3 s5) by (eapply two_gone; [left; split; reflexivity|rewrite A3; exact Hk|exact E4|exact E5]).
    destruct G as (G1 & G2). unfold gone_two, live in *. rewrite A3 in *. auto.
  - inv_bind E u1 s3 E3. apply qt_intersect_bounds in E3. quiet_step E3. rewrite A2 in E3.
    inv_bind E u2 s4 E4. apply ret_Ok in E. destruct E as (E & ->). injection E as -> -> ->. split; [|auto].
    eapply stays_trans with (k1 := k) (s2 := s3); [apply stays_refl; auto|].
    eapply (swap_stays im m i k j j k n); [right; auto|exact Ne|rewrite E3; exact Hk|rewrite E3; exact Eo|exact Nm| |exact E4].
    intros -> ->. rewrite Nat.eqb_refl in Eq. discriminate.
Qed.
Lemma ltr_loop_kept i y im m : forall js k h sh s k' h' sh' out s', nth_error (s_abl s) k = Some (Some i) -> NoDup (k :: js) -> (im = true -> k <> m) ->
  ltr_loop fuel op sfk cfk i y im m js (k, h, sh) s = Ok ((k', h', sh', out), s') -> outcome im m i k' out s s'.
Proof.
  induction js as [|j js IH]; intros k h sh s k' h' sh' out s' Hk Nd Nm E; cbn [ltr_loop] in E.
  - apply ret_Ok in E. destruct E as (E & ->). injection E as -> -> -> ->. apply stays_refl; auto.
  - inv_bind E r s1 E1. destruct r as [[[k1 h1] sh1] out1].
    assert (N : k <> j /\ NoDup (k :: js) /\ NoDup (j :: js)).
    { inversion Nd; subst. split; [intros ->; apply H1; left; reflexivity|]. split; [|exact H2]. inversion H2; subst.
      constructor; [|assumption]. intros X. apply H1. right. exact X. }
    apply ltr_step_kept in E1; [|exact Hk|apply N|exact Nm]. destruct E1 as (O1 & K1). cbn [fst snd] in E. destruct out1 as [[|]|].
    + apply ret_Ok in E. destruct E as (E & ->). injection E as -> -> -> ->. exact O1.
    + apply ret_Ok in E. destruct E as (E & ->). injection E as -> -> -> ->. exact O1.
    + pose proof O1 as (O2 & O3 & O4). apply IH in E; [|exact O3|destruct K1 as [->| ->]; apply N|apply O4].
      destruct out as [[|]|]; [|eapply stays_trans; eassumption..]. destruct E as (M & G). split; [exact M|]. eapply gone_after; eassumption.
Qed.
Lemma rtl_loop_kept i y im m : forall js k h s k' h' out s', nth_error (s_abl s) k = Some (Some i) -> NoDup (k :: js) -> (im = true -> k <> m) ->
  rtl_loop fuel op sfk cfk i y im m js (k, h) s = Ok ((k', h', out), s') -> outcome im m i k' out s s'.
Proof.
  induction js as [|j js IH]; intros k h s k' h' out s' Hk Nd Nm E; cbn [rtl_loop] in E.
  - apply ret_Ok in E. destruct E as (E & ->). injection E as -> -> ->. apply stays_refl; auto.
  - inv_bind E r s1 E1. destruct r as [[k1 h1] out1].
    assert (N : k <> j /\ NoDup (k :: js) /\ NoDup (j :: js)).
    { inversion Nd; subst. split; [intros ->; apply H1; left; reflexivity|]. split; [|exact H2]. inversion H2; subst.
      constructor; [|assumption]. intros X. apply H1. right. exact X. }
    apply rtl_step_kept in E1; [|exact Hk|apply N|exact Nm]. destruct E1 as (O1 & K1). cbn [fst snd] in E. destruct out1 as [[|]|].
    + apply ret_Ok in E. destruct E as (E & ->). injection E as -> -> ->. exact O1.
    + apply ret_Ok in E. destruct E as (E & ->). injection E as -> -> ->. exact O1.
    + pose proof O1 as (O2 & O3 & O4). apply IH in E; [|exact O3|destruct K1 as [->| ->]; apply N|apply O4].
      destruct out as [[|]|]; [|eapply stays_trans; eassumption..]. destruct E as (M & G). split; [exact M|]. eapply gone_after; eassumption.
Qed.
(** nothing enters; only [i] and its partner leave, and only when [i] has no edges left *)
Definition kept (i : bid) (s s' : st) : Prop :=
  (forall x, In x (live s') -> In x (live s)) /\
  ((b_next (bget (s_bounds s) i) < length (b_edges (bget (s_bounds s) i)))%nat -> same_members s s') /\
  (forall x, In x (live s) -> x <> i -> b_max (bget (s_bounds s) i) <> Some x -> In x (live s')).
Lemma maxima_last i y s r s' : is_maxima i y s = Ok (r, s') -> r = true -> b_next (bget (s_bounds s) i) = length (b_edges (bget (s_bounds s) i)).
Proof.
  intros E ->. unfold is_maxima in E. inv_bind E b s1 E1. apply bd_Ok in E1. destruct E1 as (-> & ->). destruct (Nat.eqb_spec (b_next (bget (s_bounds s) i)) (length (b_edges (bget (s_bounds s) i)))); [assumption|].
  apply ret_Ok in E. destruct E. discriminate.
Qed.
Lemma finish_kept i k s u s' : nth_error (s_abl s) k = Some (Some i) -> finish_horizontal i k s = Ok (u, s') ->
  (forall x, In x (live s') -> In x (live s)) /\
  ((b_next (bget (s_bounds s) i) < length (b_edges (bget (s_bounds s) i)))%nat -> same_members s s') /\
  (forall x, In x (live s) -> x <> i -> In x (live s')).
Proof.
  intros Hk E. unfold finish_horizontal in E. inv_bind E b s1 E1. apply bd_Ok in E1. destruct E1 as (-> & ->). inv_bind E u1 s1 E1.
  assert (Q : quiet s s1).
  { destruct (is_some _); [|apply ret_Ok in E1; destruct E1 as (_ & ->); apply R_refl]. inv_bind E1 e s2 E2. apply un_current_edge in E2.
    unfold unchanged in E2. subst s2. eapply qt_add_point_to_ring, E1. }
  apply quiet_inv in Q. destruct Q as (Q & A1). specialize (Q i). unfold qcore in Q. injection Q as Q1 _ Q2 _ _ _ _ _.
  inv_bind E b s2 E2. apply bd_Ok in E2. destruct E2 as (-> & ->). rewrite Q1, Q2 in E.
  destruct (Nat.ltb_spec (b_next (bget (s_bounds s) i)) (length (b_edges (bget (s_bounds s) i)))) as [L|L].
  - assert (S : same_members s s').
    { apply sm_abl. apply sd_to_next_edge in E. destruct E as (-> & _). exact A1. }
    split; [intros x; apply S|]. split; [auto|]. intros x I _. apply S, I.
  - split; [intros x I; apply (none_in _ _ _ _ _ E) in I; unfold live in *; rewrite A1 in I; exact I|]. split; [lia|].
    intros x I N. eapply none_other; [exact E|rewrite A1; congruence|]. unfold live in *. rewrite A1. exact I.
Qed.
#[local] Instance same_bounds_pre : PreOrd same_bounds.
Proof. split; unfold same_bounds; [reflexivity|]. intros a b c H1 H2 z. rewrite H2. apply H1. Qed.
#[local] Hint Resolve same_bounds_pre : pres.
Lemma sb_quiet {A} (m : prog A) : pres quiet m -> pres same_bounds m.
Proof. apply pres_mono. intros s s' Q. apply quiet_inv in Q. exact (proj1 Q). Qed.
Lemma sb_unchanged {A} (m : prog A) : pres unchanged m -> pres same_bounds m.
Proof. apply pres_mono. intros s s' ->. apply R_refl. Qed.
Lemma sb_set k o : pres same_bounds (abl_set k o).
Proof. intros s u s' E. apply set_run in E. destruct E as ((_ & B & _) & _). intros x. rewrite B. reflexivity. Qed.
Lemma sb_swap a b : pres same_bounds (abl_swap a b).
Proof. intros s u s' E. apply swap_run in E. destruct E as (? & ? & _ & _ & (_ & B & _)). intros z. rewrite B. reflexivity. Qed.
Lemma sb_ltr_step i y im m j x : pres same_bounds (ltr_step fuel op sfk cfk i y im m j x).
Proof.
  destruct x as [[k h] sh]. unfold ltr_step. apply pres_bind; [exact _|apply sb_quiet; pres_auto|]. intros [n|]; [|apply pres_ret; exact _].
  apply pres_bind; [exact _|apply pres_gets; exact _|]. intros hp. apply pres_bind; [exact _|apply sb_quiet; pres_auto|]. intros nb.
  apply pres_bind; [exact _|apply sb_unchanged, un_current_edge|]. intros e. apply pres_bind; [exact _|apply sb_quiet, qt_add_hp_ltr|]. intros h'.
  apply pres_bind; [exact _|apply pres_lift; exact _|]. intros fx. apply pres_bind; [exact _|apply pres_lift; exact _|]. intros g.
  destruct g; [apply pres_ret; exact _|]. apply pres_bind; [exact _|apply pres_lift; exact _|]. intros r.
  apply pres_bind; [exact _|apply sb_quiet; pres_auto|]. intros b.
  apply pres_bind; [exact _|apply sb_quiet; pres_auto|]. intros stop. destruct stop; [apply pres_ret; exact _|].
  apply pres_bind; [exact _|apply sb_quiet; destruct (is_some _); [apply qt_add_point_to_ring|pres_auto]|]. intros ?.
  destruct (im && _).
  - apply pres_bind; [exact _|apply sb_quiet; pres_auto|]. intros b1. apply pres_bind; [exact _|apply sb_quiet; pres_auto|]. intros b2.
    apply pres_bind; [exact _|apply sb_quiet; destruct (_ && _); [apply qt_add_lmax|pres_auto]|]. intros ?.
    apply pres_bind; [exact _|apply sb_set|]. intros ?. apply pres_bind; [exact _|apply sb_set|]. intros ?. apply pres_ret; exact _.
  - apply pres_bind; [exact _|apply sb_quiet, qt_intersect_bounds|]. intros ?. apply pres_bind; [exact _|apply sb_swap|]. intros ?. apply pres_ret; exact _.
Qed.
Lemma sb_rtl_step i y im m j x : pres same_bounds (rtl_step fuel op sfk cfk i y im m j x).
Proof.
  destruct x as [k h]. unfold rtl_step. apply pres_bind; [exact _|apply sb_quiet; pres_auto|]. intros [n|]; [|apply pres_ret; exact _].
  apply pres_bind; [exact _|apply sb_quiet; pres_auto|]. intros nb.
  apply pres_bind; [exact _|apply sb_unchanged, un_current_edge|]. intros e. apply pres_bind; [exact _|apply sb_quiet, qt_add_hp_rtl|]. intros h'.
  apply pres_bind; [exact _|apply pres_lift; exact _|]. intros fx. apply pres_bind; [exact _|apply pres_lift; exact _|]. intros g.
  destruct g; [apply pres_ret; exact _|]. apply pres_bind; [exact _|apply pres_lift; exact _|]. intros r.
  apply pres_bind; [exact _|apply sb_quiet; pres_auto|]. intros b.
  apply pres_bind; [exact _|apply sb_quiet; pres_auto|]. intros stop. destruct stop; [apply pres_ret; exact _|].
  apply pres_bind; [exact _|apply sb_quiet; destruct (is_some _); [apply qt_add_point_to_ring|pres_auto]|]. intros ?.
  destruct (im && _).
  - apply pres_bind; [exact _|apply sb_quiet; pres_auto|]. intros b1. apply pres_bind; [exact _|apply sb_quiet; pres_auto|]. intros b2.
    apply pres_bind; [exact _|apply sb_quiet; destruct (_ && _); [apply qt_add_lmax|pres_auto]|]. intros ?.
    apply pres_bind; [exact _|apply sb_set|]. intros ?. apply pres_bind; [exact _|apply sb_set|]. intros ?. apply pres_ret; exact _.
  - apply pres_bind; [exact _|apply sb_quiet, qt_intersect_bounds|]. intros ?. apply pres_bind; [exact _|apply sb_swap|]. intros ?. apply pres_ret; exact _.
Qed.
Lemma sb_ltr_loop i y im m : forall js x, pres same_bounds (ltr_loop fuel op sfk cfk i y im m js x).
Proof.
  induction js as [|j js IH]; intros x; cbn [ltr_loop]; [apply pres_ret; exact _|]. apply pres_bind; [exact _|apply sb_ltr_step|].
  intros [x' [o|]]; cbn [fst snd]; [apply pres_ret; exact _|apply IH].
Qed.
Lemma sb_rtl_loop i y im m : forall js x, pres same_bounds (rtl_loop fuel op sfk cfk i y im m js x).
Proof.
  induction js as [|j js IH]; intros x; cbn [rtl_loop]; [apply pres_ret; exact _|]. apply pres_bind; [exact _|apply sb_rtl_step|].
  intros [x' [o|]]; cbn [fst snd]; [apply pres_ret; exact _|apply IH].
Qed.
Lemma process_horizontal_kept y k i s k' s' : nth_error (s_abl s) k = Some (Some i) -> b_max (bget (s_bounds s) i) <> Some i ->
  process_horizontal fuel op sfk cfk y k s = Ok (k', s') -> kept i s s'.
Proof.
  intros Hk Nself E. unfold process_horizontal in E. inv_bind E i' s1 E1. apply bound_run in E1. destruct E1 as (E1 & ->).
  assert (i' = i) by congruence. subst i'. clear E1. inv_bind E e s1 E1. apply un_current_edge in E1. unfold unchanged in E1. subst s1.
  assert (Fin : forall im m k1 s1 s2 s3 u, stays im m i k1 s s1 -> same_bounds s s1 -> quiet s1 s2 ->
    finish_horizontal i k1 s2 = Ok (u, s3) -> kept i s s3).
  { intros im m k1 s1 s2 s3 u (Sm & H1 & _) Sb Qt F. apply quiet_inv in Qt. destruct Qt as (Qt & Qa).
    apply finish_kept in F; [|rewrite Qa; exact H1]. pose proof (Qt i) as Q. rewrite (Sb i) in Q.
    unfold qcore in Q. injection Q as Q1 _ Q2 _ _ _ _ _. rewrite Q1, Q2 in F.
    assert (Sm2 : same_members s s2) by (eapply (R_trans (R := same_members)); [exact Sm|apply sm_abl, Qa]).
    destruct F as (F1 & F2 & F3). split; [intros x I; apply Sm2, F1, I|]. split.
    - intros L. eapply (R_trans (R := same_members)); [exact Sm2|apply F2, L].
    - intros x I N _. apply F3; [apply Sm2, I|exact N]. }
  assert (Two : forall im m s1, (exists s2, is_maxima i y s = Ok (im, s2)) -> (im = true -> m = find_bound (b_max (bget (s_bounds s) i)) (s_abl s)) ->
    im = true -> gone_two m i s s1 -> kept i s s1).
  { intros im m s1 (s2 & M) Em Im (G1 & G2). split; [exact G1|]. split.
    - intros L. pose proof (maxima_last _ _ _ _ _ M Im). lia.
    - intros x I N Nx. apply G2; [exact I|exact N|]. rewrite (Em Im). intros H. destruct (b_max (bget (s_bounds s) i)) as [z|] eqn:Ez.
      + apply (find_bound_spec _ _ z eq_refl) in H. congruence.
      + destruct (find_if_spec (opt_is None) (s_abl s)) as (_ & _ & F). apply F in H. discriminate. }
  assert (Nmi : forall m, m = find_bound (b_max (bget (s_bounds s) i)) (s_abl s) -> k <> m).
  { intros m -> ->. destruct (b_max (bget (s_bounds s) i)) as [z|] eqn:Ez.
    - apply (find_bound_spec _ _ z eq_refl) in Hk. congruence.
    - destruct (find_if_spec (opt_is None) (s_abl s)) as (_ & _ & F). apply F in Hk. discriminate. }
  destruct (px (ebot e) <? px (etop e)).
  - unfold process_horizontal_left_to_right in E. inv_bind E i' s1 E1. apply bound_run in E1. destruct E1 as (E1 & ->).
    assert (i' = i) by congruence. subst i'. clear E1. inv_bind E im s1 E1. pose proof (maxima_same _ _ _ _ _ E1). subst s1.
    inv_bind E s0 s1 E0. apply get_Ok in E0. destruct E0 as (-> & ->). inv_bind E b s1 E0. apply bd_Ok in E0. destruct E0 as (-> & ->).
    inv_bind E e' s1 E0. apply un_current_edge in E0. unfold unchanged in E0. subst s1. inv_bind E r s1 E2. destruct r as [[[k1 h1] sh] out].
    pose proof (sb_ltr_loop _ _ _ _ _ _ _ _ _ E2) as Sb. cbv zeta in E2.
    apply ltr_loop_kept in E2; [|exact Hk| |].
    2: { unfold range. constructor; [intros I; apply in_seq in I; lia|apply seq_NoDup]. }
    2: { intros ->. apply Nmi. reflexivity. }
    cbv beta iota zeta in E. unfold outcome in E2.
    assert (Rest : out <> Some true -> kept i s s').
    { intros No. assert (St : stays im (if im then find_bound (b_max (bget (s_bounds s) i)) (s_abl s) else length (s_abl s)) i k1 s s1)
        by (destruct out as [[|]|]; [congruence|exact E2..]). clear E2. destruct out as [[|]|]; [congruence| |].
      - inv_bind E b s2 E3. apply bd_Ok in E3. destruct E3 as (-> & ->). inv_bind E hp s2 E3. apply gets_Ok in E3. destruct E3 as (-> & ->).
        inv_bind E u s2 E3. inv_bind E u2 s3 E4. apply ret_Ok in E. destruct E as (_ & ->). eapply Fin; [exact St|exact Sb| |exact E4].
        revert E3. clear. intros E.
        destruct (is_some _); [|apply ret_Ok in E; destruct E as (_ & ->); apply R_refl].
        inv_bind E e2 s3 E3. apply un_current_edge in E3. unfold unchanged in E3. subst s3. inv_bind E h2 s3 E3. apply ret_Ok in E. destruct E as (_ & ->).
        eapply qt_add_hp_ltr, E3.
      - inv_bind E b s2 E3. apply bd_Ok in E3. destruct E3 as (-> & ->). inv_bind E hp s2 E3. apply gets_Ok in E3. destruct E3 as (-> & ->).
        inv_bind E u s2 E3. inv_bind E u2 s3 E4. apply ret_Ok in E. destruct E as (_ & ->). eapply Fin; [exact St|exact Sb| |exact E4].
        revert E3. clear. intros E.
        destruct (is_some _); [|apply ret_Ok in E; destruct E as (_ & ->); apply R_refl].
        inv_bind E e2 s3 E3. apply un_current_edge in E3. unfold unchanged in E3. subst s3. inv_bind E h2 s3 E3. apply ret_Ok in E. destruct E as (_ & ->).
        eapply qt_add_hp_ltr, E3. }
    destruct out as [[|]|]; [|apply Rest; discriminate..]. apply ret_Ok in E. destruct E as (_ & ->). destruct E2 as (Im & G).
    eapply Two; [eexists; exact E1| |exact Im|exact G]. intros ->. reflexivity.
  - unfold process_horizontal_right_to_left in E. inv_bind E i' s1 E1. apply bound_run in E1. destruct E1 as (E1 & ->).
    assert (i' = i) by congruence. subst i'. clear E1. inv_bind E im s1 E1. pose proof (maxima_same _ _ _ _ _ E1). subst s1.
    inv_bind E s0 s1 E0. apply get_Ok in E0. destruct E0 as (-> & ->). inv_bind E b s1 E0. apply bd_Ok in E0. destruct E0 as (-> & ->).
    inv_bind E e' s1 E0. apply un_current_edge in E0. unfold unchanged in E0. subst s1. inv_bind E r s1 E2. destruct r as [[k1 h1] out].
    pose proof (sb_rtl_loop _ _ _ _ _ _ _ _ _ E2) as Sb. cbv zeta in E2.
    apply rtl_loop_kept in E2; [|exact Hk| |].
    2: { unfold range. constructor; [intros I; apply in_rev in I; apply in_seq in I; lia|apply NoDup_rev, seq_NoDup]. }
    2: { intros ->. apply Nmi. reflexivity. }
    cbv beta iota zeta in E. unfold outcome in E2.
    assert (Rest : out <> Some true -> kept i s s').
    { intros No. assert (St : stays im (if im then find_bound (b_max (bget (s_bounds s) i)) (s_abl s) else length (s_abl s)) i k1 s s1)
        by (destruct out as [[|]|]; [congruence|exact E2..]). clear E2. destruct out as [[|]|]; [congruence| |].
      - inv_bind E b s2 E3. apply bd_Ok in E3. destruct E3 as (-> & ->).
        inv_bind E u s2 E3. inv_bind E u2 s3 E4. apply ret_Ok in E. destruct E as (_ & ->). eapply Fin; [exact St|exact Sb| |exact E4].
        revert E3. clear. intros E.
        destruct (is_some _); [|apply ret_Ok in E; destruct E as (_ & ->); apply R_refl].
        inv_bind E e2 s3 E3. apply un_current_edge in E3. unfold unchanged in E3. subst s3. inv_bind E h2 s3 E3. apply ret_Ok in E. destruct E as (_ & ->).
        eapply qt_add_hp_rtl, E3.
      - inv_bind E b s2 E3. apply bd_Ok in E3. destruct E3 as (-> & ->).
        inv_bind E u s2 E3. inv_bind E u2 s3 E4. apply ret_Ok in E. destruct E as (_ & ->). eapply Fin; [exact St|exact Sb| |exact E4].
        revert E3. clear. intros E.
        destruct (is_some _); [|apply ret_Ok in E; destruct E as (_ & ->); apply R_refl].
        inv_bind E e2 s3 E3. apply un_current_edge in E3. unfold unchanged in E3. subst s3. inv_bind E h2 s3 E3. apply ret_Ok in E. destruct E as (_ & ->).
        eapply qt_add_hp_rtl, E3. }
    destruct out as [[|]|]; [|apply Rest; discriminate..]. apply ret_Ok in E. destruct E as (_ & ->). destruct E2 as (Im & G).
    eapply Two; [eexists; exact E1| |exact Im|exact G]. intros ->. reflexivity.
Qed.
End Walk.
