(** * Collinear paths inside one ring: the order of the ends that are found *)
From Coq Require Import ZArith List Bool Lia FMapPositive Permutation.
From Coq Require Import Floats.SpecFloat.
From RecordUpdate Require Import RecordSet.
From Verif Require Import Py Monad Utils Geometry LinearRingM BoundM LocalMinimumM
     StateM PointNodeM RingM SweepM TopologyM WagyuM HoareP SpecRing SpecHeap SpecRings SweepFrameP OrderP VatP FuelP PipP SortP
     CircleP HeapOpsP StatsP SplitP NodeFrameP RingedP RingedTopP RingedCutP RingedPathP RingedFixP.
Import ListNotations RecordSetNotations.
Open Scope Z_scope.

Lemma node_eq_run s i j : node_eq i j s = Ok (point_eqb (npos (node_at s i)) (npos (node_at s j)), s).
Proof. reflexivity. Qed.
Definition slide_body (dir : node -> option nid) (other stop : nid) (back : nid) : prog (nid + nid) :=
  (b <- nd back ;;
   e <- node_eq_opt (dir b) back ;;
   if e && negb (Pos.eqb back other)
   then (back' <- deref (dir b) ;; ret (if Pos.eqb back' stop then inr back' else inl back'))
   else ret (inr back))%M.
Definition same_pos (s : st) (i j : nid) : bool := point_eqb (npos (node_at s i)) (npos (node_at s j)).
Lemma slide_body_run dir other stop i s : slide_body dir other stop i s =
  match dir (node_at s i) with
  | Some k => if same_pos s k i && negb (Pos.eqb i other) then Ok (if Pos.eqb k stop then inr k else inl k, s) else Ok (inr i, s)
  | None => Ok (inr i, s)
  end.
Proof.
  unfold slide_body. rewrite (bind_run _ _ _ _ _ (nd_run s i)). destruct (dir (node_at s i)) as [k|]; cbn [node_eq_opt].
  - rewrite (bind_run _ _ _ _ _ (node_eq_run s k i)). unfold same_pos. destruct (_ && _); [|reflexivity].
    cbn [deref]. rewrite (bind_run _ _ _ k s) by reflexivity. reflexivity.
  - reflexivity.
Qed.
Lemma chained_snoc s f M b : chained s f (M ++ [b]) <-> chained s f M /\ linked s (List.last M f) b.
Proof.
  revert f. induction M as [|a M IH]; intros f; [cbn; tauto|]. cbn [app chained]. rewrite IH, last_cons_hd. tauto.
Qed.
(** sliding backwards from the end of [f :: M] *)
Lemma slide_back s stop f fuel : forall M b' s', chained s f M -> NoDup (f :: M) -> ~ In stop (removelast (f :: M)) ->
  slide fuel n_prev (List.last M f) f stop s = Ok (b', s') ->
  s' = s /\ exists M1 M2, M = M1 ++ M2 /\ b' = List.last M1 f /\
    (M1 <> [] -> exists p, n_prev (node_at s b') = Some p /\ same_pos s p b' = false).
Proof.
  induction fuel as [|fuel IH]; intros M b' s' C N T E; [discriminate|].
  change (loopM (S fuel) (slide_body n_prev f stop) (List.last M f) s = Ok (b', s')) in E.
  rewrite loopM_S, slide_body_run in E. destruct M as [|m M] using rev_ind.
  - cbn [List.last] in E. rewrite Pos.eqb_refl in E. cbn [negb] in E.
    assert (E' : Ok (f, s) = Ok (b', s')) by (destruct (n_prev (node_at s f)); [rewrite andb_false_r in E|]; exact E). injection E' as <- <-.
    split; [reflexivity|]. exists [], []. split; [reflexivity|]. split; [reflexivity|]. congruence.
  - clear IHM. rewrite last_last in E. apply chained_snoc in C as (C & L). rewrite (proj2 L) in E.
    assert (Nm : m <> f). { intros ->. inversion N as [|? ? X]. apply X. apply in_app_iff. right. left. reflexivity. }
    rewrite (eqb_no _ _ Nm) in E. cbn [negb] in E. rewrite andb_true_r in E.
    change (f :: M ++ [m]) with ((f :: M) ++ [m]) in N, T. rewrite removelast_last in T.
    destruct (same_pos s (List.last M f) m) eqn:P.
    + rewrite eqb_no in E by (intros X; apply T; rewrite <- X; apply CircleP.last_in).
      apply nodup_app in N as (N & _). destruct (IH M b' s' C N) as (-> & M1 & M2 & -> & -> & K).
      * intros X. apply T. apply in_removelast. exact X.
      * exact E.
      * split; [reflexivity|]. exists M1, (M2 ++ [m]). rewrite app_assoc. auto.
    + injection E as <- <-. split; [reflexivity|]. exists (M ++ [m]), []. rewrite app_nil_r, last_last. split; [reflexivity|]. split; [reflexivity|].
      intros _. exists (List.last M f). split; [apply L|exact P].
Qed.
(** sliding forwards from the start of [f :: M] *)
Lemma slide_forward s stop fuel : forall M f f' s', chained s f M -> NoDup (f :: M) -> ~ In stop M ->
  slide fuel n_next f (List.last M f) stop s = Ok (f', s') ->
  s' = s /\ exists M1 M2, f :: M = M1 ++ f' :: M2.
Proof.
  induction fuel as [|fuel IH]; intros M f f' s' C N T E; [discriminate|].
  change (loopM (S fuel) (slide_body n_next (List.last M f) stop) f s = Ok (f', s')) in E.
  rewrite loopM_S, slide_body_run in E. destruct M as [|m M].
  - cbn [List.last] in E. rewrite Pos.eqb_refl in E. cbn [negb] in E.
    assert (E' : Ok (f, s) = Ok (f', s')) by (destruct (n_next (node_at s f)); [rewrite andb_false_r in E|]; exact E). injection E' as <- <-.
    split; [reflexivity|]. exists [], []. reflexivity.
  - destruct C as (L & C). rewrite (proj1 L) in E. rewrite last_cons_hd in E.
    assert (Nm : f <> List.last M m). { intros X. inversion N as [|? ? Y]. apply Y. rewrite X. apply CircleP.last_in. }
    rewrite (eqb_no _ _ Nm) in E. cbn [negb] in E. rewrite andb_true_r in E. destruct (same_pos s m f).
    + rewrite eqb_no in E by (intros ->; apply T; left; reflexivity). inversion N. destruct (IH M m f' s' C) as (-> & M1 & M2 & K); auto.
      * intros X. apply T. right. exact X.
      * split; [reflexivity|]. exists (f :: M1), M2. cbn [app]. rewrite <- K. reflexivity.
    + injection E as <- <-. split; [reflexivity|]. exists [], (m :: M). reflexivity.
Qed.
Definition search_body (fuel : nat) (pt_a pt_b : nid) (x : nid * nid * bool) : prog (nid * nid * bool + nid * nid) :=
  let '(back, forward, first) := x in
    (back <- slide fuel n_prev back forward pt_a ;;
     if Pos.eqb back forward then
       (p <- prev_of back ;; n <- next_of forward ;; ret (inr (p, n)))
     else
       (forward <- slide fuel n_next forward back pt_b ;;
        if negb first && (Pos.eqb back pt_a || Pos.eqb forward pt_b)
        then ret (inr (back, forward))
        else
          (p <- prev_of back ;; n <- next_of forward ;;
           if Pos.eqb back forward then ret (inr (p, n))
           else
             (e <- node_eq p n ;;
              ret (if (e : bool) then inl (p, n, false) else inr (p, n))))))%M.
(** what the search on the arc [A] returns *)
Definition found_on (s : st) (A : list nid) (pq : nid * nid) : Prop :=
  exists P f M Q, A = P ++ (f :: M) ++ Q /\ n_prev (node_at s (List.last M f)) = Some (fst pq) /\ n_next (node_at s f) = Some (snd pq).
Definition chain_of (s : st) (A : list nid) : Prop := match A with [] => True | a :: l => chained s a l end.
Lemma chain_of_app s A B : chain_of s (A ++ B) -> chain_of s A /\ chain_of s B.
Proof.
  revert B. induction A as [|a A IH]; intros B; [cbn; tauto|]. cbn [app chain_of]. destruct A as [|b A]; cbn [app chained].
  - destruct B as [|b B]; cbn; tauto.
  - intros (L & C). destruct (IH B C) as (X & Y). cbn [chain_of] in X. tauto.
Qed.

Lemma prev_of_Ok s i j s' : prev_of i s = Ok (j, s') -> n_prev (node_at s i) = Some j /\ s' = s.
Proof.
  intros E. unfold prev_of in E. rewrite (bind_run _ _ _ _ _ (nd_run s i)) in E.
  destruct (n_prev (node_at s i)); [|discriminate]. injection E as <- <-. auto.
Qed.
Lemma next_of_Ok s i j s' : next_of i s = Ok (j, s') -> n_next (node_at s i) = Some j /\ s' = s.
Proof.
  intros E. unfold next_of in E. rewrite (bind_run _ _ _ _ _ (nd_run s i)) in E.
  destruct (n_next (node_at s i)); [|discriminate]. injection E as <- <-. auto.
Qed.
Lemma search_run s A pt_a pt_b sf A0 A1 : NoDup A -> chain_of s A -> A = A0 ++ [pt_a] -> A = pt_b :: A1 ->
  forall fuel P f M Q first pq s', A = P ++ (f :: M) ++ Q -> (first = false -> P <> [] /\ Q <> []) ->
  loopM fuel (search_body sf pt_a pt_b) (List.last M f, f, first) s = Ok (pq, s') -> s' = s /\ found_on s A pq.
Proof.
  intros ND CA HA HB. induction fuel as [|fuel IH]; intros P f M Q first pq s' EA FI E; [discriminate|].
  rewrite loopM_S in E. unfold search_body at 1 in E. unfold bind at 1 in E.
  destruct (slide sf n_prev (List.last M f) f pt_a s) as [[back t]| |] eqn:E1; try discriminate. cbv iota beta in E.
  assert (C0 : chain_of s (f :: M)).
  { rewrite EA in CA. apply chain_of_app in CA as (_ & CA). apply chain_of_app in CA as (CA & _). exact CA. }
  assert (ND' := ND). rewrite EA in ND'. apply nodup_app in ND' as (_ & ND' & DP). apply nodup_app in ND' as (N0 & _ & DQ).
  assert (LA : Q <> [] -> In pt_a Q).
  { intros X. destruct Q as [|q Q] using rev_ind; [congruence|]. rewrite HA in EA. rewrite !app_assoc in EA. apply app_inj_tail in EA as (_ & ->).
    apply in_app_iff. right. left. reflexivity. }
  assert (LB : P <> [] -> In pt_b P).
  { intros X. destruct P as [|p P]; [congruence|]. rewrite HB in EA. injection EA as <- _. left. reflexivity. }
  assert (TA : ~ In pt_a (removelast (f :: M))).
  { intros I. destruct Q as [|q Q].
    - rewrite app_nil_r, (app_removelast_last f (l := f :: M)), last_cons_hd in EA by discriminate. rewrite HA, app_assoc in EA. apply app_inj_tail in EA as (_ & K).
      rewrite (app_removelast_last f (l := f :: M)), last_cons_hd in N0 by discriminate. apply nodup_app in N0 as (_ & _ & Y). apply (Y pt_a I). left. congruence.
    - apply (DQ pt_a); [apply in_removelast; exact I|]. apply LA. discriminate. }
  assert (TB : ~ In pt_b M).
  { intros I. destruct P as [|p P].
    - rewrite HB in EA. injection EA as <- _. inversion N0. contradiction.
    - apply (DP pt_b); [apply LB; discriminate|]. right. apply in_app_iff. left. exact I. }
  destruct (slide_back s pt_a f sf M back t C0 N0 TA E1) as (-> & M1 & M2 & -> & EB & PB).
  destruct (Pos.eqb_spec back f) as [BF|BF].
  { unfold bind at 1 in E. destruct (prev_of back s) as [[p t]| |] eqn:E2; try discriminate. cbv iota beta in E.
    apply prev_of_Ok in E2 as (E2 & ->).
    unfold bind at 1 in E. destruct (next_of f s) as [[n t]| |] eqn:E3; try discriminate. cbv iota beta in E.
    apply next_of_Ok in E3 as (E3 & ->). injection E as <- <-. split; [reflexivity|].
    exists P, f, M1, (M2 ++ Q). cbn [fst snd]. rewrite <- EB. split; [|auto]. rewrite EA. cbn [app]. rewrite <- app_assoc. reflexivity. }
  unfold bind at 1 in E. destruct (slide sf n_next f back pt_b s) as [[f' t]| |] eqn:E2; try discriminate. cbv iota beta in E.
  assert (C1 : chained s f M1).
  { apply (chain_of_app s (f :: M1) M2). exact C0. }
  assert (N1 : NoDup (f :: M1)).
  { change (f :: M1 ++ M2) with ((f :: M1) ++ M2) in N0. apply nodup_app in N0. apply N0. }
  rewrite EB in E2. destruct (slide_forward s pt_b sf M1 f f' t C1 N1) as (-> & K1 & K2 & EK).
  { intros I. apply TB. apply in_app_iff. auto. }
  { exact E2. }
  assert (LK : List.last K2 f' = back).
  { rewrite EB. rewrite <- (last_cons_hd M1 f f), EK, last_last_app. reflexivity. }
  assert (IB : In back ((f :: M1 ++ M2) ++ Q)).
  { rewrite EB. change (In (List.last M1 f) (((f :: M1) ++ M2) ++ Q)). rewrite !in_app_iff. left. left. apply CircleP.last_in. }
  assert (EA' : A = (P ++ K1) ++ (f' :: K2) ++ M2 ++ Q).
  { rewrite EA. change ((f :: M1 ++ M2) ++ Q) with (((f :: M1) ++ M2) ++ Q). rewrite EK, !app_assoc. reflexivity. }
  assert (NC : negb first && (Pos.eqb back pt_a || Pos.eqb f' pt_b) = false).
  { destruct first; [reflexivity|]. destruct (FI eq_refl) as (F1 & F2). cbn [negb andb]. rewrite !eqb_no; [reflexivity| |].
    - intros ->. apply (DP pt_b (LB F1)). change (In pt_b (((f :: M1) ++ M2) ++ Q)). rewrite EK, !in_app_iff. left. left. right. left. reflexivity.
    - intros X. apply (DQ pt_a); [|exact (LA F2)]. rewrite <- X, EB. change (In (List.last M1 f) ((f :: M1) ++ M2)). apply in_app_iff. left. apply CircleP.last_in. }
  rewrite NC in E.
  unfold bind at 1 in E. destruct (prev_of back s) as [[p t]| |] eqn:E3; try discriminate. cbv iota beta in E.
  apply prev_of_Ok in E3 as (E3 & ->).
  unfold bind at 1 in E. destruct (next_of f' s) as [[n t]| |] eqn:E4; try discriminate. cbv iota beta in E.
  apply next_of_Ok in E4 as (E4 & ->).
  assert (FO : found_on s A (p, n)).
  { exists (P ++ K1), f', K2, (M2 ++ Q). cbn [fst snd]. rewrite LK. auto. }
  destruct (Pos.eqb_spec back f') as [BF'|BF']; [injection E as <- <-; auto|].
  rewrite (bind_run _ _ _ _ _ (node_eq_run s p n)) in E. fold (same_pos s p n) in E.
  destruct (same_pos s p n) eqn:SP; [|injection E as <- <-; auto]. cbn [ret] in E.
  assert (C2 : chained s f' K2).
  { rewrite EA' in CA. apply chain_of_app in CA as (_ & CA). apply chain_of_app in CA as (CA & _). exact CA. }
  destruct K2 as [|h X]; [cbn in LK; congruence|]. cbn [chained] in C2. destruct C2 as (L1 & C2). rewrite (proj1 L1) in E4. injection E4 as <-.
  destruct X as [|x X] using rev_ind.
  { cbn in LK. subst h. destruct PB as (p0 & PB1 & PB2); [intros ->; cbn in EB; congruence|].
    rewrite (proj2 L1) in E3. injection E3 as <-. rewrite (proj2 L1) in PB1. injection PB1 as <-. congruence. }
  clear IHX. rewrite last_cons_hd, last_last in LK. subst x. apply chained_snoc in C2 as (C2 & L2). rewrite (proj2 L2) in E3. injection E3 as <-.
  apply (IH ((P ++ K1) ++ [f']) h X (back :: M2 ++ Q) false pq s'); [|intros _; split; [destruct (P ++ K1); discriminate|discriminate]|exact E].
  rewrite EA'. rewrite <- (app_assoc (P ++ K1) [f']). cbn [app]. rewrite <- !app_assoc. reflexivity.
Qed.
Lemma search_arc s A pt_a pt_b fuel A0 A1 pq s' : NoDup A -> chain_of s A -> A = A0 ++ [pt_a] -> A = pt_b :: A1 ->
  collinear_search fuel pt_a pt_b s = Ok (pq, s') -> s' = s /\ found_on s A pq.
Proof.
  intros ND CA HA HB E.
  assert (L : List.last A1 pt_b = pt_a) by (rewrite <- (last_cons_hd A1 pt_b pt_b), <- HB, HA, last_last; reflexivity).
  apply (search_run s A pt_a pt_b fuel A0 A1 ND CA HA HB fuel [] pt_b A1 [] true pq s'); [rewrite app_nil_r; exact HB|discriminate|].
  rewrite L. exact E.
Qed.
Lemma skip_same fuel dir x pt s y s' : skip_repeats fuel dir true x pt s = Ok (y, s') -> y = x /\ s' = s.
Proof.
  destruct fuel as [|fuel]; [discriminate|]. intros E. unfold skip_repeats in E. rewrite loopM_S in E. rewrite (bind_run _ _ _ _ _ (nd_run s x)) in E.
  cbn [negb andb] in E. unfold bind at 1 in E. destruct (dir (node_at s x)) as [k|]; cbn [node_eq_opt] in E.
  - rewrite node_eq_run in E. cbn [ret] in E. injection E as <- <-. auto.
  - cbn [ret] in E. injection E as <- <-. auto.
Qed.
