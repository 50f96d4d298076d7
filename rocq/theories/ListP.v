(** * Proofs about the sequence helpers of wagyu/utils.py and Python's [sorted] *)
From Coq Require Import ZArith List Bool Lia Permutation Sorting.Sorted Arith.
From Verif Require Import Py Monad Utils.
Import ListNotations.
Local Open Scope nat_scope.

Lemma nth_error_skipn {A} k (l : list A) i : nth_error (skipn k l) i = nth_error l (k + i).
Proof.
  revert l. induction k as [|k IH]; intros l; [reflexivity|].
  destruct l as [|x l]; cbn; [now destruct i|]. apply IH.
Qed.
Lemma nth_error_firstn {A} k (l : list A) i :
  nth_error (firstn k l) i = if i <? k then nth_error l i else None.
Proof.
  revert l i. induction k as [|k IH]; intros l i; [now destruct i|].
  destruct l as [|x l]; [destruct i as [|i]; cbn [firstn nth_error]; [reflexivity|now destruct (Nat.ltb (S i) (S k))]|].
  destruct i as [|i]; cbn [firstn nth_error]; [reflexivity|]. rewrite IH. reflexivity.
Qed.

(** ** [find_if] *)
Lemma find_if_spec {A} (p : A -> bool) l :
  find_if p l <= length l /\
  (forall i x, i < find_if p l -> nth_error l i = Some x -> p x = false) /\
  (forall x, nth_error l (find_if p l) = Some x -> p x = true).
Proof.
  induction l as [|a l (IH1 & IH2 & IH3)]; cbn.
  - repeat split; [lia|lia|discriminate].
  - destruct (p a) eqn:E.
    + repeat split; [lia|lia|]. cbn. congruence.
    + repeat split; [lia| |exact IH3].
      intros [|i] x Hi Hx; cbn in Hx; [congruence|]. eapply IH2; [|exact Hx]. lia.
Qed.
Lemma find_if_none {A} (p : A -> bool) l :
  find_if p l = length l <-> forall x, In x l -> p x = false.
Proof.
  induction l as [|a l IH]; cbn; [split; [intros _ x []|reflexivity]|].
  destruct (p a) eqn:E.
  - split; [lia|]. intros H. specialize (H a (or_introl eq_refl)). congruence.
  - split.
    + intros H x [->|Hx]; [exact E|]. apply IH; [lia|exact Hx].
    + intros H. f_equal. apply IH. intros x Hx. apply H. auto.
Qed.

(** ** [rotate_sequence] *)
Lemma rotate_perm {A} (l : list A) k : Permutation l (rotate_sequence l k).
Proof.
  unfold rotate_sequence. destruct (_ && _)%bool; [|reflexivity].
  rewrite <- (firstn_skipn (Z.to_nat (if (k <? 0)%Z then Z.of_nat (length l) + k else k)) l) at 1.
  apply Permutation_app_comm.
Qed.
Lemma rotate_length {A} (l : list A) k : length (rotate_sequence l k) = length l.
Proof. symmetry. apply Permutation_length, rotate_perm. Qed.

(** element [i] of the rotation is element [i + k] (cyclically) of the list *)
Lemma rotate_nth {A} (l : list A) k i :
  (Z.abs k < Z.of_nat (length l))%Z -> i < length l ->
  nth_error (rotate_sequence l k) i
  = nth_error l (Z.to_nat ((Z.of_nat i + k) mod Z.of_nat (length l))).
Proof.
  intros Hk Hi. unfold rotate_sequence.
  destruct (Z.ltb_spec 0 (Z.abs k)) as [H0|H0].
  2:{ assert (k = 0)%Z as -> by lia. cbn. rewrite Z.add_0_r, Z.mod_small by lia.
      now rewrite Nat2Z.id. }
  destruct (Z.ltb_spec (Z.abs k) (Z.of_nat (length l))) as [_|?]; [|lia]. cbn [andb].
  set (n := Z.of_nat (length l)) in *.
  set (m := Z.to_nat (if (k <? 0)%Z then n + k else k)).
  assert (Hm : 0 < m < length l) by (unfold m; destruct (Z.ltb_spec k 0); lia).
  assert (Em : ((Z.of_nat i + k) mod n = (Z.of_nat i + Z.of_nat m) mod n)%Z).
  { unfold m. destruct (Z.ltb_spec k 0).
    - rewrite Z2Nat.id by lia. replace (Z.of_nat i + (n + k))%Z with (Z.of_nat i + k + 1 * n)%Z by lia.
      now rewrite Z_mod_plus_full.
    - now rewrite Z2Nat.id by lia. }
  rewrite Em. clear Em.
  destruct (Nat.lt_ge_cases i (length l - m)) as [L|L].
  - rewrite nth_error_app1 by (rewrite skipn_length; lia).
    rewrite Z.mod_small by lia. rewrite nth_error_skipn. f_equal. lia.
  - rewrite nth_error_app2 by (rewrite skipn_length; lia). rewrite skipn_length.
    replace (Z.of_nat i + Z.of_nat m)%Z with ((Z.of_nat i + Z.of_nat m - n) + 1 * n)%Z by lia.
    rewrite Z_mod_plus_full, Z.mod_small by lia.
    rewrite nth_error_firstn. destruct (Nat.ltb_spec (i - (length l - m)) m); [|lia].
    f_equal. lia.
Qed.
Lemma rotate_outside {A} (l : list A) k :
  (Z.of_nat (length l) <= Z.abs k)%Z -> rotate_sequence l k = l.
Proof.
  intros H. unfold rotate_sequence.
  destruct (Z.ltb_spec (Z.abs k) (Z.of_nat (length l))); [lia|].
  now rewrite andb_false_r.
Qed.
Lemma rotate_back {A} (l : list A) k : rotate_sequence (rotate_sequence l k) (- k) = l.
Proof.
  destruct (Z.lt_ge_cases (Z.abs k) (Z.of_nat (length l))) as [H|H].
  - assert (E : forall l1 l2 : list A, (forall i, nth_error l1 i = nth_error l2 i) -> l1 = l2).
    { induction l1 as [|x l1 IH]; intros [|y l2] HE; [reflexivity| | |].
      - specialize (HE 0); discriminate.
      - specialize (HE 0); discriminate.
      - f_equal; [specialize (HE 0); cbn in HE; congruence|]. apply IH. intros i. exact (HE (S i)). }
    apply E. intros i. destruct (Nat.lt_ge_cases i (length l)) as [L|L].
    + rewrite rotate_nth; rewrite ?rotate_length; try lia.
      set (n := Z.of_nat (length l)) in *.
      assert (Hn : (0 < n)%Z) by lia.
      pose proof (Z.mod_pos_bound (Z.of_nat i + - k) n Hn).
      rewrite rotate_nth; fold n; try lia. f_equal.
      rewrite Z2Nat.id by lia. rewrite Zplus_mod_idemp_l.
      replace (Z.of_nat i + - k + k)%Z with (Z.of_nat i) by lia.
      rewrite Z.mod_small by lia. lia.
    + rewrite (proj2 (nth_error_None l i)) by lia. apply nth_error_None.
      rewrite !rotate_length. lia.
  - rewrite (rotate_outside l k) by lia. apply rotate_outside. lia.
Qed.

(** ** [bisect_left] and [insort_unique] *)
Local Open Scope Z_scope.
Definition lt_all (l : list Z) (x : Z) := Forall (fun y => y < x) l.

Lemma sorted_nth (l : list Z) i j :
  StronglySorted Z.le l -> (i <= j < length l)%nat -> nth i l 0 <= nth j l 0.
Proof.
  intros H. revert i j. induction H as [|x l H IH F]; intros i j Hij; cbn in Hij; [lia|].
  destruct i as [|i], j as [|j]; cbn; try lia.
  - rewrite Forall_forall in F. apply F. apply nth_In. lia.
  - apply IH. lia.
Qed.

Lemma bisect_go_spec (l : list Z) x : StronglySorted Z.le l ->
  forall fuel lo hi, (lo <= hi <= length l)%nat -> (hi - lo <= fuel)%nat ->
    (forall i, (i < lo)%nat -> nth i l 0 < x) ->
    (forall i, (hi <= i < length l)%nat -> x <= nth i l 0) ->
    let k := bisect_go fuel l x lo hi in
    (lo <= k <= hi)%nat /\ (forall i, (i < k)%nat -> nth i l 0 < x) /\
    (forall i, (k <= i < length l)%nat -> x <= nth i l 0).
Proof.
  intros Hs. induction fuel as [|fuel IH]; intros lo hi Hr Hf Hlo Hhi; cbn [bisect_go]; cbv zeta.
  - assert (lo = hi) by lia. subst. repeat split; auto; lia.
  - destruct (Nat.ltb_spec lo hi) as [Hlt|Hge].
    + rewrite Nat.div2_div. pose proof (Nat.div_mod (lo + hi) 2 ltac:(lia)).
      pose proof (Nat.mod_upper_bound (lo + hi) 2 ltac:(lia)).
      set (mid := ((lo + hi) / 2)%nat) in *.
      destruct (Z.ltb_spec (nth mid l 0) x) as [Hm|Hm].
      * destruct (IH (S mid) hi) as (H1 & H2 & H3); try lia; auto.
        -- intros i Hi. pose proof (sorted_nth l i mid Hs). lia.
        -- repeat split; auto; lia.
      * destruct (IH lo mid) as (H1 & H2 & H3); try lia; auto.
        -- intros i Hi. pose proof (sorted_nth l mid i Hs). lia.
        -- repeat split; auto; lia.
    + assert (lo = hi) by lia. subst. repeat split; auto; lia.
Qed.
Lemma bisect_left_spec l x : StronglySorted Z.le l ->
  (bisect_left l x <= length l)%nat /\
  (forall i, (i < bisect_left l x)%nat -> nth i l 0 < x) /\
  (forall i, (bisect_left l x <= i < length l)%nat -> x <= nth i l 0).
Proof.
  intros Hs. destruct (bisect_go_spec l x Hs (length l) 0 (length l)) as (H1 & H2 & H3); try lia.
  unfold bisect_left. repeat split; auto; lia.
Qed.

Lemma SS_app (R : Z -> Z -> Prop) l1 l2 :
  StronglySorted R l1 -> StronglySorted R l2 ->
  (forall a b, In a l1 -> In b l2 -> R a b) -> StronglySorted R (l1 ++ l2).
Proof.
  intros H1 H2 H. induction H1 as [|x l1 H1 IH F]; cbn; [exact H2|].
  constructor.
  - apply IH. intros a b Ha Hb. apply H; [now right|exact Hb].
  - apply Forall_app. split; [exact F|]. apply Forall_forall. intros b Hb.
    apply H; [now left|exact Hb].
Qed.
Lemma SS_split (R : Z -> Z -> Prop) l1 l2 :
  StronglySorted R (l1 ++ l2) -> StronglySorted R l1 /\ StronglySorted R l2.
Proof.
  induction l1 as [|x l1 IH]; cbn; intros H; [split; [constructor|exact H]|].
  inversion H as [|? ? H1 H2]; subst. destruct (IH H1) as [IH1 IH2].
  split; [|exact IH2]. constructor; [exact IH1|]. apply Forall_app in H2. tauto.
Qed.
Lemma SS_impl (R R' : Z -> Z -> Prop) l :
  (forall a b, R a b -> R' a b) -> StronglySorted R l -> StronglySorted R' l.
Proof.
  intros H. induction 1 as [|x l H1 IH F]; constructor; [exact IH|].
  eapply Forall_impl; [|exact F]. auto.
Qed.

Lemma insort_split l v : StronglySorted Z.le l ->
  let k := bisect_left l v in
  (forall a, In a (firstn k l) -> a < v) /\ (forall a, In a (skipn k l) -> v <= a).
Proof.
  intros Hs k. destruct (bisect_left_spec l v Hs) as (Hk & H1 & H2). fold k in Hk, H1, H2.
  split; intros a Ha.
  - apply (In_nth _ _ 0) in Ha as (i & Hi & <-). rewrite firstn_length in Hi.
    rewrite <- (firstn_skipn k l) in H1. specialize (H1 i ltac:(lia)).
    rewrite app_nth1 in H1 by (rewrite firstn_length; lia). exact H1.
  - apply (In_nth _ _ 0) in Ha as (i & Hi & <-). rewrite skipn_length in Hi.
    specialize (H2 (k + i)%nat ltac:(lia)).
    rewrite <- (firstn_skipn k l) in H2.
    rewrite app_nth2 in H2 by (rewrite firstn_length; lia).
    rewrite firstn_length in H2. replace (k + i - Nat.min k (length l))%nat with i in H2 by lia.
    exact H2.
Qed.

(** the general step, on lists that may contain repetitions *)
Lemma insort_unique_cases l v : StronglySorted Z.le l ->
  (In v l /\ insort_unique l v = l) \/
  (~ In v l /\ insort_unique l v = firstn (bisect_left l v) l ++ v :: skipn (bisect_left l v) l).
Proof.
  intros Hs. destruct (bisect_left_spec l v Hs) as (Hk & H1 & H2).
  destruct (insort_split l v Hs) as [Ha Hb]. cbn in Ha, Hb.
  unfold insort_unique, list_insert. set (k := bisect_left l v) in *.
  assert (Hin : In v l -> In v (skipn k l)).
  { intros Hv. rewrite <- (firstn_skipn k l) in Hv. apply in_app_or in Hv as [Hv|Hv]; [|exact Hv].
    specialize (Ha v Hv). lia. }
  destruct (Nat.eqb_spec k (length l)) as [E|N]; cbn [orb].
  - right. split; [|reflexivity]. intros Hv. apply Hin in Hv. rewrite skipn_all2 in Hv by lia. inversion Hv.
  - destruct (Z.ltb_spec v (nth k l 0)) as [Hlt|Hge].
    + right. split; [|reflexivity]. intros Hv. apply (In_nth _ _ 0) in Hv as (i & Hi & Ei).
      destruct (Nat.lt_ge_cases i k) as [L|L]; [specialize (H1 i L); lia|].
      pose proof (sorted_nth l k i Hs ltac:(lia)). lia.
    + left. split; [|reflexivity]. specialize (H2 k ltac:(lia)).
      replace v with (nth k l 0) by lia. apply nth_In. lia.
Qed.
Lemma insort_unique_in l v x : StronglySorted Z.le l ->
  (In x (insort_unique l v) <-> x = v \/ In x l).
Proof.
  intros Hs. destruct (insort_unique_cases l v Hs) as [[Hv ->]|[Hv ->]].
  - split; [tauto|]. intros [->|H]; auto.
  - rewrite <- (firstn_skipn (bisect_left l v) l) at 5.
    rewrite !in_app_iff. cbn. split; [intros [?|[?|?]]; auto|intros [?|[?|?]]; auto].
Qed.
Lemma insort_unique_sorted_le l v :
  StronglySorted Z.le l -> StronglySorted Z.le (insort_unique l v).
Proof.
  intros Hs. destruct (insort_unique_cases l v Hs) as [[Hv ->]|[Hv ->]]; [exact Hs|].
  destruct (insort_split l v Hs) as [Ha Hb]. cbn in Ha, Hb.
  set (k := bisect_left l v) in *.
  assert (S0 : StronglySorted Z.le (firstn k l ++ skipn k l)) by (rewrite firstn_skipn; exact Hs).
  destruct (SS_split _ _ _ S0) as [S1 S2].
  apply SS_app; [exact S1| |].
  - constructor; [exact S2|]. apply Forall_forall. exact Hb.
  - intros a b Ha' [<-|Hb']; [specialize (Ha a Ha'); lia|].
    specialize (Ha a Ha'). specialize (Hb b Hb'). lia.
Qed.
Lemma insort_unique_sorted_lt l v :
  StronglySorted Z.lt l -> StronglySorted Z.lt (insort_unique l v).
Proof.
  intros Hs. assert (Hs' : StronglySorted Z.le l) by (eapply SS_impl; [|exact Hs]; lia).
  destruct (insort_unique_cases l v Hs') as [[Hv ->]|[Hv ->]]; [exact Hs|].
  destruct (insort_split l v Hs') as [Ha Hb]. cbn in Ha, Hb.
  set (k := bisect_left l v) in *.
  assert (S0 : StronglySorted Z.lt (firstn k l ++ skipn k l)) by (rewrite firstn_skipn; exact Hs).
  destruct (SS_split _ _ _ S0) as [S1 S2].
  assert (Hb' : forall a, In a (skipn k l) -> v < a).
  { intros a Hin. specialize (Hb a Hin). assert (a <> v); [|lia]. intros ->. apply Hv.
    rewrite <- (firstn_skipn k l). apply in_or_app. auto. }
  apply SS_app; [exact S1| |].
  - constructor; [exact S2|]. apply Forall_forall. exact Hb'.
  - intros a b Ha' [<-|Hb'']; [specialize (Ha a Ha'); lia|].
    specialize (Ha a Ha'). specialize (Hb' b Hb''). lia.
Qed.

(** ** Python's sort: always a permutation; sorted for strict weak orders *)
Section PySortP.
  Context {St A : Type} (lt : A -> A -> M St bool).
  Lemma list_insert_perm (l : list A) i x : Permutation (x :: l) (list_insert l i x).
  Proof.
    unfold list_insert. rewrite <- (firstn_skipn i l) at 1. apply Permutation_middle.
  Qed.
  Lemma count_run_app desc l : forall p s run rest s',
    count_run lt desc p l s = Ok ((run, rest), s') -> l = run ++ rest.
  Proof.
    induction l as [|x l IH]; intros p s run rest s' E; cbn in E.
    - unfold ret in E. injection E as <- <- <-. reflexivity.
    - unfold bind at 1 in E. destruct (lt x p s) as [[b s1]| |]; try discriminate.
      destruct (Bool.eqb b desc).
      + unfold bind in E. destruct (count_run lt desc x l s1) as [[[r1 r2] s2]| |] eqn:Ec; try discriminate.
        unfold ret in E. injection E as <- <- <-. cbn. f_equal. eapply IH. exact Ec.
      + unfold ret in E. injection E as <- <- <-. reflexivity.
  Qed.
  Lemma binary_insertion_perm l : forall pre s r s',
    binary_insertion lt pre l s = Ok (r, s') -> Permutation (pre ++ l) r.
  Proof.
    induction l as [|x l IH]; intros pre s r s' E; cbn in E.
    - unfold ret in E. injection E as <- <-. now rewrite app_nil_r.
    - unfold bind at 1 in E. destruct (bin_search lt _ _ _ _ _ s) as [[i s1]| |]; try discriminate.
      apply IH in E. rewrite <- E. rewrite <- Permutation_middle.
      change (x :: pre ++ l) with ((x :: pre) ++ l). apply Permutation_app_tail, list_insert_perm.
  Qed.
  Lemma py_sort_perm l s r s' : py_sort lt l s = Ok (r, s') -> Permutation l r.
  Proof.
    unfold py_sort. destruct l as [|x [|y l]].
    - unfold ret. intros E. injection E as <- <-. reflexivity.
    - unfold ret. intros E. injection E as <- <-. reflexivity.
    - unfold bind at 1. destruct (lt y x s) as [[d s1]| |]; try discriminate.
      unfold bind at 1. destruct (count_run lt d y l s1) as [[[run rest] s2]| |] eqn:Ec; try discriminate.
      intros E. apply binary_insertion_perm in E. apply count_run_app in Ec. subst l.
      rewrite <- E. destruct d.
      + rewrite <- Permutation_rev. reflexivity.
      + reflexivity.
  Qed.
  Lemma py_sort_rev_perm l s r s' : py_sort_rev lt l s = Ok (r, s') -> Permutation l r.
  Proof.
    unfold py_sort_rev, bind. destruct (py_sort lt (rev l) s) as [[l1 s1]| |] eqn:E; try discriminate.
    unfold ret. intros E1. injection E1 as <- <-. apply py_sort_perm in E.
    rewrite <- Permutation_rev, <- E, <- Permutation_rev. reflexivity.
  Qed.
End PySortP.

(** pure comparator: total result, and sorted *)
Section PureSort.
  Context {A : Type} (lt : A -> A -> bool).
  (** strict weak order: asymmetric, and "not less" is transitive *)
  Hypothesis asym : forall a b, lt a b = true -> lt b a = false.
  Hypothesis nlt_trans : forall a b c, lt b a = false -> lt c b = false -> lt c a = false.

  Definition le (a b : A) : Prop := lt b a = false.
  Let ltM (a b : A) : M unit bool := ret (lt a b).

  Lemma lt_le a b : lt a b = true -> le a b.
  Proof. intros H. unfold le. now apply asym. Qed.

  Fixpoint SSl (l : list A) : Prop :=
    match l with [] => True | x :: l' => Forall (le x) l' /\ SSl l' end.
  Lemma SSl_iff l : SSl l <-> StronglySorted le l.
  Proof.
    induction l as [|x l IH]; cbn; [split; [constructor|auto]|].
    rewrite IH. split; [intros []; now constructor|inversion 1; auto].
  Qed.
  Lemma SSl_app l1 l2 :
    SSl (l1 ++ l2) <-> SSl l1 /\ SSl l2 /\ (forall a b, In a l1 -> In b l2 -> le a b).
  Proof.
    induction l1 as [|x l1 IH]; cbn.
    - split; [intros H; repeat split; auto; intros ? ? []|tauto].
    - rewrite IH, Forall_app. split.
      + intros ((F1 & F2) & H1 & H2 & H3). repeat split; auto.
        intros a b [<-|Ha] Hb; [|now apply H3]. rewrite Forall_forall in F2. auto.
      + intros ((F1 & H1) & H2 & H3). repeat split; auto. apply Forall_forall. auto.
  Qed.

  Lemma bin_search_pure pre x : SSl pre ->
    forall fuel lo hi, (lo <= hi <= length pre)%nat -> (hi - lo <= fuel)%nat ->
    (forall i y, (i < lo)%nat -> nth_error pre i = Some y -> lt x y = false) ->
    (forall i y, (hi <= i)%nat -> nth_error pre i = Some y -> lt x y = true) ->
    exists k, bin_search ltM fuel pre x lo hi tt = Ok (k, tt) /\ (k <= length pre)%nat /\
      (forall i y, (i < k)%nat -> nth_error pre i = Some y -> lt x y = false) /\
      (forall i y, (k <= i)%nat -> nth_error pre i = Some y -> lt x y = true).
  Proof.
    intros Hs. induction fuel as [|fuel IH]; intros lo hi Hr Hf Hlo Hhi; cbn [bin_search].
    - assert (lo = hi) by lia. subst. exists hi. repeat split; auto; lia.
    - destruct (Nat.ltb_spec lo hi) as [Hlt|Hge].
      2:{ assert (lo = hi) by lia. subst. exists hi. repeat split; auto; lia. }
      rewrite Nat.div2_div. pose proof (Nat.div_mod (hi - lo) 2 ltac:(lia)).
      pose proof (Nat.mod_upper_bound (hi - lo) 2 ltac:(lia)).
      set (p := (lo + (hi - lo) / 2)%nat). assert (Hp : (lo <= p < hi)%nat) by lia.
      destruct (nth_error pre p) as [y|] eqn:Ep; [|apply nth_error_None in Ep; lia].
      unfold bind at 1, ltM at 1, ret at 1.
      assert (Hord : forall i j a b, (i <= j)%nat -> nth_error pre i = Some a ->
                                     nth_error pre j = Some b -> a = b \/ le a b).
      { clear -Hs. induction pre as [|z pre IH]; intros i j a b Hij Ha Hb; [destruct i; discriminate|].
        cbn in Hs. destruct Hs as [F Hs]. destruct i as [|i], j as [|j]; cbn in *; try lia.
        - left; congruence.
        - right. injection Ha as ->. rewrite Forall_forall in F. apply F. eapply nth_error_In. exact Hb.
        - apply (IH Hs i j); auto; lia. }
      destruct (lt x y) eqn:Exy.
      + apply IH; try lia; auto.
        intros i z Hi Hz. destruct (Hord p i y z Hi Ep Hz) as [<-|Hle]; [exact Exy|].
        destruct (lt x z) eqn:Exz; [reflexivity|].
        unfold le in Hle. rewrite (nlt_trans y z x Hle Exz) in Exy. discriminate.
      + apply IH; try lia; auto.
        intros i z Hi Hz. destruct (Hord i p z y ltac:(lia) Hz Ep) as [->|Hle]; [exact Exy|].
        eapply nlt_trans; [exact Hle|exact Exy].
  Qed.

  Lemma insert_sorted pre k x :
    SSl pre -> (k <= length pre)%nat ->
    (forall i y, (i < k)%nat -> nth_error pre i = Some y -> lt x y = false) ->
    (forall i y, (k <= i)%nat -> nth_error pre i = Some y -> lt x y = true) ->
    SSl (list_insert pre k x).
  Proof.
    intros Hs Hk H1 H2. unfold list_insert.
    assert (Hs' := Hs). rewrite <- (firstn_skipn k pre) in Hs'. apply SSl_app in Hs' as (S1 & S2 & S3).
    apply SSl_app. split; [exact S1|].
    assert (F2 : forall y, In y (skipn k pre) -> le x y).
    { intros y Hy. apply In_nth_error in Hy as [i Hi].
      apply lt_le. apply (H2 (k + i)%nat); [lia|]. rewrite nth_error_skipn in Hi. exact Hi. }
    split; [cbn; split; [apply Forall_forall; exact F2|exact S2]|].
    intros a b Ha [<-|Hb]; [|now apply S3].
    apply In_nth_error in Ha as [i Hi]. unfold le.
    assert (Hlt : (i < length (firstn k pre))%nat) by (apply nth_error_Some; congruence).
    rewrite firstn_length in Hlt.
    apply (H1 i); [lia|]. rewrite <- (firstn_skipn k pre).
    rewrite nth_error_app1 by (rewrite firstn_length; lia). exact Hi.
  Qed.

  Lemma binary_insertion_pure l : forall pre, SSl pre ->
    exists r, binary_insertion ltM pre l tt = Ok (r, tt) /\ SSl r.
  Proof.
    induction l as [|x l IH]; intros pre Hs; cbn [binary_insertion]; [eexists; split; [reflexivity|exact Hs]|].
    destruct (bin_search_pure pre x Hs (length pre) 0 (length pre)) as (k & E & Hk & H1 & H2);
      try lia.
    - intros i y Hi Hy. assert (i < length pre)%nat by (apply nth_error_Some; congruence). lia.
    - unfold bind at 1. rewrite E. apply IH. now apply insert_sorted.
  Qed.

  Lemma count_run_pure desc l : forall p,
    exists run rest, count_run ltM desc p l tt = Ok ((run, rest), tt) /\ l = run ++ rest /\
      LocallySorted (fun a b => lt b a = desc) (p :: run).
  Proof.
    induction l as [|x l IH]; intros p; cbn [count_run].
    - exists [], []. repeat split. constructor.
    - unfold bind at 1, ltM at 1, ret at 1. destruct (Bool.eqb (lt x p) desc) eqn:E.
      + apply Bool.eqb_prop in E. destruct (IH x) as (run & rest & E1 & -> & H).
        unfold bind at 1. rewrite E1. exists (x :: run), rest. repeat split. constructor; assumption.
      + exists [], (x :: l). repeat split. constructor.
  Qed.

  Lemma pure_sort_sorted l :
    exists r, py_sort ltM l tt = Ok (r, tt) /\ SSl r.
  Proof.
    unfold py_sort. destruct l as [|x [|y l]].
    - exists []. split; [reflexivity|exact I].
    - exists [x]. split; [reflexivity|cbn; auto].
    - unfold bind at 1, ltM at 1, ret at 1.
      destruct (count_run_pure (lt y x) l y) as (run & rest & E & -> & H).
      unfold bind at 1. rewrite E. apply binary_insertion_pure.
      assert (H' : LocallySorted (fun a b => lt b a = lt y x) (x :: y :: run))
        by (constructor; auto).
      apply Sorted_LocallySorted_iff in H'.
      destruct (lt y x) eqn:Eyx.
      + (* strictly descending *)
        assert (T : forall a b c, lt b a = true -> lt c b = true -> lt c a = true).
        { intros a b c H1 H2. destruct (lt c a) eqn:Eca; [reflexivity|].
          pose proof (asym _ _ H1) as H3. (* lt a b = false *)
          rewrite (nlt_trans b a c) in H2; [discriminate|exact H3|exact Eca]. }
        apply Sorted_StronglySorted in H'; [|intros a b c; apply T].
        clear -H' asym. induction H' as [|z l H IH F]; [exact I|].
        cbn [rev]. apply SSl_app. split; [exact IH|]. split; [cbn; auto|].
        intros a b Ha [<-|[]]. apply in_rev in Ha. rewrite Forall_forall in F.
        apply lt_le. exact (F a Ha).
      + apply Sorted_StronglySorted in H'; [now apply SSl_iff|].
        intros a b c H1 H2. eapply nlt_trans; eassumption.
  Qed.

  Lemma pure_sort_spec l : Permutation l (pure_sort lt l) /\ StronglySorted le (pure_sort lt l).
  Proof.
    destruct (pure_sort_sorted l) as (r & E & H). unfold pure_sort. unfold ltM in E. rewrite E.
    split; [|now apply SSl_iff]. eapply py_sort_perm. exact E.
  Qed.
  Lemma pure_sort_rev_spec l :
    Permutation l (pure_sort_rev lt l) /\ StronglySorted (fun a b => le b a) (pure_sort_rev lt l).
  Proof.
    unfold pure_sort_rev. destruct (pure_sort_spec (rev l)) as [H1 H2].
    split.
    - rewrite <- Permutation_rev, <- H1, <- Permutation_rev. reflexivity.
    - clear H1. induction H2 as [|x l' H IH F]; [constructor|]. cbn.
      assert (Fq : forall z, In z (rev l') -> le x z)
        by (intros z Hz; apply in_rev in Hz; rewrite Forall_forall in F; auto).
      induction IH as [|z q Hq IHq Fz]; cbn; [repeat constructor|].
      constructor.
      + apply IHq. intros w Hw. apply Fq. now right.
      + apply Forall_app. split; [exact Fz|]. repeat constructor. apply Fq. now left.
  Qed.
End PureSort.
