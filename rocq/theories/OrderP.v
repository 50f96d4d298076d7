(** * Order in duplicate-free lists; sequences of adjacent exchanges *)
From Coq Require Import List Bool Lia Permutation.
From Verif Require Import Py Monad Utils Spec SortP ListP.
Import ListNotations.

Section Before.
  Context {A : Type} (eq_dec : forall a b : A, {a = b} + {a <> b}).
  Definition before (l : list A) (a b : A) : Prop :=
    exists l1 l2 l3, l = l1 ++ a :: l2 ++ b :: l3.
  Lemma before_cons x l a b : before (x :: l) a b <-> (x = a /\ In b l) \/ before l a b.
  Proof.
    split.
    - intros (l1 & l2 & l3 & E). destruct l1 as [|y l1]; injection E as -> ->.
      + left. split; [reflexivity|]. apply in_or_app. right. left. reflexivity.
      + right. exists l1, l2, l3. reflexivity.
    - intros [(-> & H)|(l1 & l2 & l3 & ->)].
      + apply in_split in H. destruct H as (l2 & l3 & ->). exists [], l2, l3. reflexivity.
      + exists (x :: l1), l2, l3. reflexivity.
  Qed.
  Lemma before_nil a b : ~ before [] a b.
  Proof. intros (l1 & l2 & l3 & E). destruct l1; discriminate. Qed.
  Lemma before_in l a b : before l a b -> In a l /\ In b l.
  Proof.
    intros (l1 & l2 & l3 & ->). split; apply in_or_app; right; [left; reflexivity|].
    right. apply in_or_app. right. left. reflexivity.
  Qed.
  Lemma before_app l m a b :
    before (l ++ m) a b <-> before l a b \/ before m a b \/ (In a l /\ In b m).
  Proof.
    induction l as [|x l IH]; cbn [app].
    - split; [auto|]. intros [H|[H|([] & _)]]; [apply before_nil in H; contradiction|exact H].
    - rewrite !before_cons, IH, in_app_iff. cbn [In]. intuition subst; auto.
  Qed.
  Lemma before_asym l a b : NoDup l -> before l a b -> ~ before l b a.
  Proof.
    induction l as [|x l IH]; intros N; [intros H; apply before_nil in H; contradiction|].
    apply NoDup_cons_iff in N. destruct N as (Hx & N). rewrite !before_cons.
    intros [(-> & H)|H] [(-> & H')|H'].
    - contradiction.
    - apply before_in in H'. tauto.
    - apply before_in in H. tauto.
    - exact (IH N H H').
  Qed.
  Lemma before_neq l a b : NoDup l -> before l a b -> a <> b.
  Proof. intros N H <-. exact (before_asym l a a N H H). Qed.
  Lemma before_total l a b : In a l -> In b l -> a <> b -> before l a b \/ before l b a.
  Proof.
    induction l as [|x l IH]; intros Ha Hb N; [contradiction|]. rewrite !before_cons.
    destruct Ha as [->|Ha], Hb as [->|Hb]; try congruence; auto.
    destruct (IH Ha Hb N); auto.
  Qed.
  (** two duplicate-free lists with the same elements in the same order *)
  Lemma before_unique l : forall m, NoDup l -> NoDup m ->
    (forall x, In x l <-> In x m) -> (forall a b, before l a b -> before m a b) -> l = m.
  Proof.
    induction l as [|x l IH]; intros m Nl Nm E B.
    - destruct m as [|y m]; [reflexivity|]. exfalso. apply (E y). left. reflexivity.
    - destruct m as [|y m]; [exfalso; apply (E x); left; reflexivity|].
      apply NoDup_cons_iff in Nl, Nm. destruct Nl as (Hx & Nl), Nm as (Hy & Nm).
      assert (x = y).
      { destruct (proj2 (E y) (or_introl eq_refl)) as [->|Hyl]; [reflexivity|].
        destruct (proj1 (E x) (or_introl eq_refl)) as [->|Hxm]; [reflexivity|].
        exfalso. assert (Bxy : before (y :: m) x y) by (apply B, before_cons; auto).
        apply before_cons in Bxy. destruct Bxy as [(-> & _)|Bxy]; [contradiction|].
        apply before_in in Bxy. tauto. }
      subst y. f_equal. apply IH; auto.
      + intros z. specialize (E z). cbn in E. split; intros H.
        * destruct (proj1 E (or_intror H)) as [->|]; [contradiction|assumption].
        * destruct (proj2 E (or_intror H)) as [->|]; [contradiction|assumption].
      + intros a b H. assert (H' := H). apply before_in in H'. destruct H' as (Ha & _).
        assert (Bab : before (x :: m) a b) by (apply B, before_cons; auto).
        apply before_cons in Bab. destruct Bab as [(-> & _)|]; [contradiction|assumption].
  Qed.
  (** exchanging two neighbours *)
  Lemma before_swap l1 a b l2 x y : NoDup (l1 ++ a :: b :: l2) ->
    (before (l1 ++ b :: a :: l2) x y <->
     (before (l1 ++ a :: b :: l2) x y /\ (x, y) <> (a, b)) \/ (x, y) = (b, a)).
  Proof.
    intros N.
    assert (Nab : a <> b).
    { intros ->. apply NoDup_remove_2 in N. apply N. apply in_or_app. right. left. reflexivity. }
    assert (Hab : before (l1 ++ a :: b :: l2) a b) by (exists l1, [], l2; reflexivity).
    pose proof (before_asym _ _ _ N Hab) as Hba.
    assert (N' := N). apply NoDup_remove in N'. destruct N' as (N1 & Na).
    apply NoDup_remove_2 in N1. rewrite in_app_iff in Na, N1. cbn [In] in Na.
    rewrite !before_app, !before_cons in *. cbn [In] in *.
    clear Hab Hba.
    assert (Da := eq_dec x a). assert (Db := eq_dec y b). assert (Dc := eq_dec x b). assert (Dd := eq_dec y a).
    assert (P : forall u v : A * A, u = v <-> fst u = fst v /\ snd u = snd v).
    { intros [? ?] [? ?]; cbn. split; [intros E; injection E; auto|intros (-> & ->); reflexivity]. }
    rewrite !P. cbn [fst snd]. clear P.
    pose proof (before_in l1 x y) as I1. pose proof (before_in l2 x y) as I2.
    destruct Da as [Xa|Xa], Db as [Yb|Yb], Dc as [Xb|Xb], Dd as [Ya|Ya]; subst; try congruence; intuition congruence.
  Qed.

  (** [flips l log l']: the neighbours listed by [log] are exchanged one after
      the other *)
  Inductive flips_run : list A -> list (A * A) -> list A -> Prop :=
  | flips_done : forall l, flips_run l [] l
  | flips_step : forall pre a b post log l',
      flips_run (pre ++ b :: a :: post) log l' ->
      flips_run (pre ++ a :: b :: post) ((a, b) :: log) l'.
  Lemma flips_perm l log l' : flips_run l log l' -> Permutation l l'.
  Proof.
    induction 1 as [l|pre a b post log l' H IH]; [reflexivity|].
    rewrite <- IH. apply Permutation_app_head, perm_swap.
  Qed.
  Lemma flips_order l log l' : flips_run l log l' -> NoDup l ->
    (forall a b, In (a, b) log -> ~ In (b, a) log) ->
    NoDup log /\ (forall a b, In (a, b) log -> before l a b) /\
    (forall x y, before l' x y <-> (before l x y /\ ~ In (x, y) log) \/ In (y, x) log).
  Proof.
    induction 1 as [l|pre a b post log l' H IH]; intros N R.
    - split; [constructor|]. split; [intros a b []|]. intros x y. cbn. tauto.
    - assert (Nm : NoDup (pre ++ b :: a :: post)).
      { eapply Permutation_NoDup; [|exact N]. apply Permutation_app_head, perm_swap. }
      destruct IH as (Nl & Bl & Ol); [exact Nm| |].
      { intros c d Hc Hd. apply (R c d); right; assumption. }
      assert (Hba : before (pre ++ b :: a :: post) b a) by (exists pre, [], post; reflexivity).
      assert (Hn : ~ In (a, b) log).
      { intros C. apply Bl in C. exact (before_asym _ _ _ Nm Hba C). }
      split; [constructor; assumption|]. split.
      + intros c d [E|Hc]; [injection E as <- <-; exists pre, [], post; reflexivity|].
        specialize (Bl c d Hc). apply before_swap in Bl; [|exact N].
        destruct Bl as [(Bl & _)|E]; [exact Bl|]. injection E as -> ->.
        exfalso. apply (R a b); [left; reflexivity|right; exact Hc].
      + intros x y. rewrite Ol, (before_swap _ _ _ _ x y N). cbn [In].
        assert (Rab : ~ In (b, a) log).
        { intros C. apply (R a b); [left; reflexivity|right; exact C]. }
        assert (Da := eq_dec x a). assert (Db := eq_dec y b). assert (Dc := eq_dec x b). assert (Dd := eq_dec y a).
        destruct Da as [Xa|Xa], Db as [Yb|Yb], Dc as [Xb|Xb], Dd as [Ya|Ya]; subst; try congruence; intuition congruence.
  Qed.
End Before.

Lemma swap_flips {A} (cmp : A -> A -> bool) l log l' : swap_run cmp l log l' ->
  flips_run l log l' /\ forall a b, In (a, b) log -> cmp a b = false.
Proof.
  induction 1 as [l|pre a b post log l' Hc H (IH1 & IH2)].
  - split; [constructor|]. intros a b [].
  - split; [constructor; exact IH1|]. intros c d [E|Hd]; [injection E as <- <-; exact Hc|].
    apply IH2. exact Hd.
Qed.

(** ** [bubble_sort] with callbacks that may raise: if it returns, the swaps were
    those of a run of adjacent exchanges and the result is in order *)
Section BubbleLog.
  Context {St A : Type} (cmp : A -> A -> M St bool) (on_swap : A -> A -> M St unit)
          (c : A -> A -> bool) (proj : St -> list (A * A)).
  Hypothesis cmp_pure : forall a b s r s', cmp a b s = Ok (r, s') -> r = c a b /\ proj s' = proj s.
  Hypothesis swap_log : forall a b s u s', on_swap a b s = Ok (u, s') -> proj s' = proj s ++ [(a, b)].

  Lemma bubble_pass_log rest : forall x s l sw s',
    bubble_pass cmp on_swap x rest s = Ok ((l, sw), s') ->
    exists log, proj s' = proj s ++ log /\ swap_run c (x :: rest) log l /\
      (sw = false -> l = x :: rest /\ adjacent_ok c l).
  Proof.
    induction rest as [|y rest IH]; intros x s l sw s' E; cbn [bubble_pass] in E.
    - injection E as <- <- <-. exists []. rewrite app_nil_r. split; [reflexivity|].
      split; [constructor|]. intros _. split; [reflexivity|constructor].
    - unfold bind at 1 in E. destruct (cmp x y s) as [[b s1]| |] eqn:Ec; try discriminate.
      apply cmp_pure in Ec. destruct Ec as (-> & P1). destruct (c x y) eqn:Hc.
      + unfold bind at 1 in E.
        destruct (bubble_pass cmp on_swap y rest s1) as [[[l1 sw1] s2]| |] eqn:Ep; try discriminate.
        injection E as <- <- <-. apply IH in Ep. destruct Ep as (log & P2 & R & H).
        exists log. rewrite P2, P1. split; [reflexivity|]. split; [apply swap_run_cons; exact R|].
        intros F. destruct (H F) as (-> & Ha). split; [reflexivity|]. constructor; assumption.
      + unfold bind at 1 in E. destruct (on_swap x y s1) as [[u s2]| |] eqn:Es; try discriminate.
        apply swap_log in Es. unfold bind at 1 in E.
        destruct (bubble_pass cmp on_swap x rest s2) as [[[l1 sw1] s3]| |] eqn:Ep; try discriminate.
        injection E as <- <- <-. apply IH in Ep. destruct Ep as (log & P2 & R & H).
        exists ((x, y) :: log). rewrite P2, Es, P1, <- app_assoc. split; [reflexivity|].
        split; [|discriminate]. apply (swap_step c [] x y rest); [exact Hc|].
        cbn. apply swap_run_cons. exact R.
  Qed.
  Lemma bubble_sort_log fuel : forall l s l' s',
    bubble_sort cmp on_swap fuel l s = Ok (l', s') ->
    exists log, proj s' = proj s ++ log /\ swap_run c l log l' /\ adjacent_ok c l'.
  Proof.
    unfold bubble_sort. induction fuel as [|fuel IH]; intros l s l' s' E; cbn [loopM] in E; [discriminate|].
    destruct l as [|x rest]; cbn [bubble_body] in E.
    - injection E as <- <-. exists []. rewrite app_nil_r. repeat split; constructor.
    - unfold bind at 1 in E. unfold bind at 1 in E.
      destruct (bubble_pass cmp on_swap x rest s) as [[[l1 sw1] s1]| |] eqn:Ep; try discriminate.
      apply bubble_pass_log in Ep. destruct Ep as (log & P & R & H). unfold ret in E. destruct sw1.
      + apply IH in E. destruct E as (log' & P' & R' & Ad). exists (log ++ log').
        rewrite P', P, app_assoc. split; [reflexivity|]. split; [|exact Ad].
        eapply swap_run_app; eassumption.
      + injection E as <- <-. destruct (H eq_refl) as (-> & Ha). exists log. auto.
  Qed.
End BubbleLog.

(** ** Python's sort returns a permutation, whatever [__lt__] does *)
Section PySortPerm.
  Context {St A : Type} (lt : A -> A -> M St bool).
  Lemma count_run_split desc l : forall prev s run rest s',
    count_run lt desc prev l s = Ok ((run, rest), s') -> l = run ++ rest.
  Proof.
    induction l as [|x l IH]; intros prev s run rest s' E; cbn [count_run] in E.
    - injection E as <- <- <-. reflexivity.
    - unfold bind at 1 in E. destruct (lt x prev s) as [[b s1]| |]; try discriminate.
      destruct (Bool.eqb b desc).
      + unfold bind at 1 in E.
        destruct (count_run lt desc x l s1) as [[[run1 rest1] s2]| |] eqn:Ec; try discriminate.
        injection E as <- <- <-. apply IH in Ec. subst l. reflexivity.
      + injection E as <- <- <-. reflexivity.
  Qed.
  Lemma list_insert_perm (l : list A) : forall i x, Permutation (x :: l) (list_insert l i x).
  Proof.
    intros i x. unfold list_insert. rewrite <- (firstn_skipn i l) at 1.
    change (x :: firstn i l ++ skipn i l) with ((x :: firstn i l) ++ skipn i l).
    rewrite <- Permutation_middle. reflexivity.
  Qed.
  Lemma binary_insertion_perm l : forall pre s l' s',
    binary_insertion lt pre l s = Ok (l', s') -> Permutation (pre ++ l) l'.
  Proof.
    induction l as [|x l IH]; intros pre s l' s' E; cbn [binary_insertion] in E.
    - injection E as <- <-. rewrite app_nil_r. reflexivity.
    - unfold bind at 1 in E. destruct (bin_search _ _ _ _ _ _ s) as [[i s1]| |]; try discriminate.
      apply IH in E. rewrite <- E, <- list_insert_perm, <- Permutation_middle. reflexivity.
  Qed.
  Lemma py_sort_perm l s l' s' : py_sort lt l s = Ok (l', s') -> Permutation l l'.
  Proof.
    unfold py_sort. destruct l as [|x [|y l]]; intros E.
    - injection E as <- <-. reflexivity.
    - injection E as <- <-. reflexivity.
    - unfold bind at 1 in E. destruct (lt y x s) as [[d s1]| |]; try discriminate.
      unfold bind at 1 in E. destruct (count_run lt d y l s1) as [[[run rest] s2]| |] eqn:Ec; try discriminate.
      apply count_run_split in Ec. apply binary_insertion_perm in E. subst l. rewrite <- E.
      destruct d; [|reflexivity]. change (x :: y :: run ++ rest) with ((x :: y :: run) ++ rest).
      apply Permutation_app_tail. apply Permutation_rev.
  Qed.
End PySortPerm.
