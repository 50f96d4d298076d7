(** * Proofs about [quicksort] (wagyu/utils.py:105-132) *)
From Coq Require Import ZArith List Bool Lia Permutation Sorting.Sorted.
From Verif Require Import Py Monad Utils.
Import ListNotations.
Local Open Scope nat_scope.

(** ** List lemmas *)
Lemma nth_error_ext {A} (l l' : list A) :
  (forall i, nth_error l i = nth_error l' i) -> l = l'.
Proof.
  revert l'. induction l as [|x l IH]; intros [|y l'] H; [reflexivity| | |].
  - specialize (H 0). discriminate.
  - specialize (H 0). discriminate.
  - f_equal; [specialize (H 0); cbn in H; congruence|].
    apply IH. intros i. exact (H (S i)).
Qed.

Lemma upd_length {A} (l : list A) i x : length (upd l i x) = length l.
Proof. revert i. induction l as [|y l IH]; intros [|i]; cbn; auto. Qed.

Lemma nth_error_upd_eq {A} (l : list A) i x :
  i < length l -> nth_error (upd l i x) i = Some x.
Proof.
  revert i. induction l as [|y l IH]; intros [|i] H; cbn in *; try lia; [reflexivity|].
  apply IH. lia.
Qed.
Lemma nth_error_upd_ne {A} (l : list A) i j x :
  i <> j -> nth_error (upd l i x) j = nth_error l j.
Proof.
  revert i j. induction l as [|y l IH]; intros [|i] [|j] H; cbn; try reflexivity; try lia.
  apply IH. lia.
Qed.
Lemma upd_id {A} (l : list A) i x : nth_error l i = Some x -> upd l i x = l.
Proof.
  revert i. induction l as [|y l IH]; intros [|i] H; cbn in *; try discriminate.
  - injection H as ->. reflexivity.
  - now rewrite IH.
Qed.
Lemma nth_error_lt {A} (l : list A) i : i < length l -> exists x, nth_error l i = Some x.
Proof.
  intros H. destruct (nth_error l i) eqn:E; [eauto|].
  apply nth_error_None in E. lia.
Qed.
Lemma nth_error_bound {A} (l : list A) i x : nth_error l i = Some x -> i < length l.
Proof. intros H. apply nth_error_Some. congruence. Qed.

Lemma upd_split {A} (l : list A) i x a :
  nth_error l i = Some a ->
  exists l1 l2, l = l1 ++ a :: l2 /\ length l1 = i /\ upd l i x = l1 ++ x :: l2.
Proof.
  revert i. induction l as [|y l IH]; intros [|i] H; cbn in H; try discriminate.
  - injection H as ->. exists [], l. auto.
  - destruct (IH i H) as (l1 & l2 & -> & <- & E). exists (y :: l1), l2. cbn.
    rewrite E. auto.
Qed.

Lemma upd_swap_perm_lt {A} (l : list A) i j a b :
  i < j -> nth_error l i = Some a -> nth_error l j = Some b ->
  Permutation (upd (upd l i b) j a) l.
Proof.
  revert i j. induction l as [|y l IH]; intros [|i] [|j] H Hi Hj; cbn in *; try discriminate; try lia.
  - injection Hi as ->.
    destruct (upd_split l j a b Hj) as (l1 & l2 & -> & _ & ->).
    rewrite <- !Permutation_middle. apply perm_swap.
  - constructor. apply IH; auto. lia.
Qed.
Lemma upd_upd_comm {A} (l : list A) i j x y :
  i <> j -> upd (upd l i x) j y = upd (upd l j y) i x.
Proof.
  revert i j. induction l as [|z l IH]; intros [|i] [|j] H; cbn; try reflexivity; try lia.
  f_equal. apply IH. lia.
Qed.
Lemma upd_swap_perm {A} (l : list A) i j a b :
  i <> j -> nth_error l i = Some a -> nth_error l j = Some b ->
  Permutation (upd (upd l i b) j a) l.
Proof.
  intros H Hi Hj. destruct (Nat.lt_ge_cases i j) as [L|L].
  - now apply upd_swap_perm_lt.
  - rewrite upd_upd_comm by exact H. apply upd_swap_perm_lt; auto. lia.
Qed.

Section Quick.
  Context {A : Type} (cmp : A -> A -> bool).

  Record part_inv (o : list A) (low high : nat) (pivot : A)
         (s : list A) (index : nat) (el : A) (pi : nat) : Prop := {
    pv_range : low <= index <= pi /\ pi <= high /\ high < length o;
    pv_len : length s = length o;
    pv_el : index < pi -> nth_error s index = Some el;
    pv_perm : Permutation (upd s pi pivot) o;
    pv_out : forall i, i < low \/ high < i -> nth_error s i = nth_error o i;
    pv_seg : forall i, low <= i <= high -> exists j, low <= j <= high /\ nth_error s i = nth_error o j;
    pv_small : forall i x, low <= i < index -> nth_error s i = Some x -> cmp pivot x = true;
    pv_big : forall i x, pi < i <= high -> nth_error s i = Some x -> cmp pivot x = false
  }.

  (** result of a partition *)
  Record part_res (o : list A) (low high : nat) (s : list A) (p : nat) (pivot : A) : Prop := {
    pr_range : low <= p <= high;
    pr_len : length s = length o;
    pr_pivot : nth_error s p = Some pivot;
    pr_perm : Permutation s o;
    pr_out : forall i, i < low \/ high < i -> nth_error s i = nth_error o i;
    pr_seg : forall i, low <= i <= high -> exists j, low <= j <= high /\ nth_error s i = nth_error o j;
    pr_small : forall i x, low <= i < p -> nth_error s i = Some x -> cmp pivot x = true;
    pr_big : forall i x, p < i <= high -> nth_error s i = Some x -> cmp pivot x = false
  }.

  Lemma partition_loop o low high pivot (Hpiv : nth_error o high = Some pivot) :
    forall fuel s index el pi,
      part_inv o low high pivot s index el pi -> pi - index < fuel ->
      exists s' p, loopR fuel (qs_partition_body cmp pivot) (s, index, el, pi) = Ok (s', p)
                   /\ part_res o low high s' p pivot.
  Proof.
    induction fuel as [|fuel IH]; intros s index el pi I Hf; [lia|].
    destruct I as [Hr Hlen Hel Hperm Hout Hseg Hsm Hbig].
    cbn [loopR qs_partition_body].
    destruct (Nat.ltb_spec index pi) as [Hlt|Hge].
    - specialize (Hel Hlt). destruct (cmp pivot el) eqn:Hc.
      + unfold nth_res.
        destruct (nth_error_lt s (S index)) as [e' He']; [lia|]. rewrite He'. cbn.
        apply IH; [|lia]. constructor; auto; try lia.
        intros i x Hi Hx. destruct (Nat.eq_dec i index) as [->|Hne].
        * congruence.
        * apply (Hsm i); [lia|exact Hx].
      + assert (Hpi : pi < length s) by lia.
        unfold nth_res. set (s1 := upd s pi el).
        assert (Hlen1 : length s1 = length s) by apply upd_length.
        destruct (nth_error_lt s1 (pred pi)) as [e' He']; [lia|]. rewrite He'. cbn.
        assert (He's : nth_error s (pred pi) = Some e')
          by (rewrite <- He'; unfold s1; symmetry; apply nth_error_upd_ne; lia).
        apply IH; [|lia]. constructor.
        * lia.
        * rewrite upd_length. lia.
        * intros _. apply nth_error_upd_eq. lia.
        * rewrite <- Hperm. set (t := upd s pi pivot).
          assert (Ht1 : nth_error t index = Some el)
            by (unfold t; rewrite nth_error_upd_ne by lia; exact Hel).
          assert (Ht2 : nth_error t pi = Some pivot)
            by (unfold t; apply nth_error_upd_eq; lia).
          assert (P1 : Permutation (upd (upd t pi el) index pivot) t)
            by (apply upd_swap_perm; auto; lia).
          destruct (Nat.eq_dec (pred pi) index) as [Ei|Ni].
          -- replace (upd (upd s1 index e') (pred pi) pivot)
               with (upd (upd t pi el) index pivot); [exact P1|].
             apply nth_error_ext. intros k. unfold t, s1. rewrite Ei.
             destruct (Nat.eq_dec k index) as [->|N1].
             ++ rewrite !nth_error_upd_eq; rewrite ?upd_length; auto; lia.
             ++ rewrite !(nth_error_upd_ne _ index k) by lia.
                destruct (Nat.eq_dec k pi) as [->|N2].
                ** rewrite !nth_error_upd_eq; rewrite ?upd_length; auto; lia.
                ** rewrite !nth_error_upd_ne by lia. reflexivity.
          -- rewrite <- P1. set (t1 := upd (upd t pi el) index pivot).
             assert (Ht3 : nth_error t1 index = Some pivot).
             { unfold t1. apply nth_error_upd_eq. unfold t; rewrite !upd_length. lia. }
             assert (Ht4 : nth_error t1 (pred pi) = Some e').
             { unfold t1. rewrite nth_error_upd_ne by lia.
               rewrite nth_error_upd_ne by lia. unfold t.
               rewrite nth_error_upd_ne by lia. exact He's. }
             rewrite <- (upd_swap_perm t1 index (pred pi) pivot e'); [|lia|exact Ht3|exact Ht4].
             replace (upd (upd s1 index e') (pred pi) pivot)
               with (upd (upd t1 index e') (pred pi) pivot); [reflexivity|].
             apply nth_error_ext. intros k. unfold t1, t, s1.
             destruct (Nat.eq_dec k (pred pi)) as [->|N0].
             ++ rewrite !nth_error_upd_eq; rewrite ?upd_length; auto; lia.
             ++ rewrite !(nth_error_upd_ne _ (pred pi) k) by lia.
                destruct (Nat.eq_dec k index) as [->|N1].
                ** rewrite !nth_error_upd_eq; rewrite ?upd_length; auto; lia.
                ** rewrite !(nth_error_upd_ne _ index k) by lia.
                   destruct (Nat.eq_dec k pi) as [->|N2].
                   --- rewrite !nth_error_upd_eq; rewrite ?upd_length; auto; lia.
                   --- rewrite !nth_error_upd_ne by lia. reflexivity.
        * intros i Hi. rewrite nth_error_upd_ne by lia. unfold s1.
          rewrite nth_error_upd_ne by lia. auto.
        * intros i Hi. destruct (Nat.eq_dec i index) as [->|N].
          -- rewrite nth_error_upd_eq by lia. rewrite <- He's. apply Hseg. lia.
          -- rewrite nth_error_upd_ne by lia. unfold s1.
             destruct (Nat.eq_dec i pi) as [->|N'].
             ++ rewrite nth_error_upd_eq by lia. rewrite <- Hel. apply Hseg. lia.
             ++ rewrite nth_error_upd_ne by lia. auto.
        * intros i x Hi Hx. rewrite nth_error_upd_ne in Hx by lia.
          unfold s1 in Hx. rewrite nth_error_upd_ne in Hx by lia. eauto.
        * intros i x Hi Hx. rewrite nth_error_upd_ne in Hx by lia.
          unfold s1 in Hx. destruct (Nat.eq_dec i pi) as [->|N].
          -- rewrite nth_error_upd_eq in Hx by lia. congruence.
          -- rewrite nth_error_upd_ne in Hx by lia. eapply Hbig; [|exact Hx]. lia.
    - exists (upd s pi pivot), pi. split; [reflexivity|].
      assert (index = pi) by lia. subst index.
      constructor; auto; try lia.
      + rewrite upd_length. exact Hlen.
      + apply nth_error_upd_eq. lia.
      + intros i Hi. rewrite nth_error_upd_ne by lia. auto.
      + intros i Hi. destruct (Nat.eq_dec i pi) as [->|N].
        * rewrite nth_error_upd_eq by lia. exists high. split; [lia|now symmetry].
        * rewrite nth_error_upd_ne by lia. auto.
      + intros i x Hi Hx. rewrite nth_error_upd_ne in Hx by lia. eauto.
      + intros i x Hi Hx. rewrite nth_error_upd_ne in Hx by lia. eauto.
  Qed.

  Lemma partition_ok o low high :
    low <= high < length o ->
    exists s' p pivot, qs_partition cmp o low high = Ok (s', p)
                       /\ part_res o low high s' p pivot.
  Proof.
    intros H. unfold qs_partition, nth_res.
    destruct (nth_error_lt o low) as [e He]; [lia|]. rewrite He. cbn [rbind].
    destruct (nth_error_lt o high) as [pv Hp]; [lia|]. rewrite Hp. cbn [rbind].
    destruct (partition_loop o low high pv Hp (S (high - low)) o low e high) as (s' & p & E & R).
    - constructor; auto; try lia.
      + rewrite upd_id by exact Hp. reflexivity.
      + intros i Hi. exists i. auto.
    - lia.
    - exists s', p, pv. auto.
  Qed.

  (** ** The work queue *)
  Hypothesis total : forall a b, cmp a b = true \/ cmp b a = true.
  Hypothesis trans : forall a b c, cmp a b = true -> cmp b c = true -> cmp a c = true.

  Definition seg_ok (n : nat) (q : nat * nat) : Prop := fst q <= snd q < n.
  Definition below (a b : nat * nat) : Prop :=   (* [a] inside [b], or apart *)
    (fst b <= fst a /\ snd a <= snd b) \/ snd a < fst b \/ snd b < fst a.
  Definition in_seg (i j : nat) (q : nat * nat) : Prop := fst q <= i /\ j <= snd q.

  (** every pair is ordered unless some queued segment contains both *)
  Definition covered (s : list A) (queue : list (nat * nat)) : Prop :=
    forall i j x y, i < j -> nth_error s i = Some x -> nth_error s j = Some y ->
      cmp y x = true \/ Exists (in_seg i j) queue.

  Definition measure (queue : list (nat * nat)) : nat :=
    list_sum (map (fun q => 3 ^ (S (snd q - fst q))) queue).

  (** parts of a segment are inside or apart from whatever the segment was *)
  Lemma below_part a q p lo hi :
    below (lo, hi) q -> lo <= p <= hi ->
    a = (lo, pred p) /\ lo < p \/ a = (S p, hi) /\ p < hi -> below a q.
  Proof. unfold below; destruct q; cbn; intros H Hp [[-> ?]|[-> ?]]; cbn; lia. Qed.

  Definition parts (lo p hi : nat) (queue : list (nat * nat)) : list (nat * nat) :=
    let queue1 := if (hi - p <? p - lo) then (lo, pred p) :: queue
                  else if (1 <? p - lo) then (lo, pred p) :: (S p, hi) :: queue
                       else queue in
    if (1 <? hi - p) then (S p, hi) :: queue1 else queue1.

  Lemma qs_step s lo hi queue :
    Forall (seg_ok (length s)) ((lo, hi) :: queue) ->
    ForallOrdPairs below ((lo, hi) :: queue) ->
    covered s ((lo, hi) :: queue) ->
    exists s' p, qs_body cmp (s, (lo, hi) :: queue) = Ok (inl (s', parts lo p hi queue)) /\
      Permutation s s' /\ length s' = length s /\
      Forall (seg_ok (length s)) (parts lo p hi queue) /\
      ForallOrdPairs below (parts lo p hi queue) /\
      covered s' (parts lo p hi queue) /\
      measure (parts lo p hi queue) < measure ((lo, hi) :: queue).
  Proof.
    intros Hs Ho Hcov. inversion Hs as [|? ? Hlh Hq]; subst. unfold seg_ok in Hlh; cbn in Hlh.
    inversion Ho as [|? ? Hb Hob]; subst.
    destruct (partition_ok s lo hi Hlh) as (s' & p & pv & E & R). destruct R as [Rr Rl Rp Rperm Rout Rseg Rsm Rbig].
    exists s', p. unfold qs_body. rewrite E. cbn [rbind]. fold (parts lo p hi queue).
    split; [reflexivity|]. split; [now symmetry|]. split; [exact Rl|].
    assert (Hcov' : forall i j x y, i < j -> nth_error s' i = Some x -> nth_error s' j = Some y ->
              cmp y x = true \/ Exists (in_seg i j) queue
              \/ (lo <= i /\ j < p) \/ (p < i /\ j <= hi)).
    { intros i j x y Hij Hi Hj.
      destruct (le_lt_dec lo i) as [Li|Li]; destruct (le_lt_dec i hi) as [Ui|Ui];
      destruct (le_lt_dec lo j) as [Lj|Lj]; destruct (le_lt_dec j hi) as [Uj|Uj]; try lia.
      - (* both inside *)
        destruct (lt_eq_lt_dec i p) as [[Hip| ->]|Hip].
        + destruct (lt_eq_lt_dec j p) as [[Hjp| ->]|Hjp].
          * right; right; lia.
          * left. rewrite Rp in Hj. injection Hj as <-. eapply Rsm; [|exact Hi]. lia.
          * left. pose proof (Rsm i x ltac:(lia) Hi) as H1.
            pose proof (Rbig j y ltac:(lia) Hj) as H2.
            destruct (total pv y) as [H3|H3]; [congruence|]. eapply trans; eassumption.
        + left. rewrite Rp in Hi. injection Hi as <-.
          pose proof (Rbig j y ltac:(lia) Hj) as H2.
          destruct (total pv y) as [H3|H3]; [congruence|exact H3].
        + right; right; right. lia.
      - (* i inside, j to the right *)
        destruct (Rseg i ltac:(lia)) as (i0 & Hi0 & Ei). rewrite Ei in Hi.
        rewrite (Rout j ltac:(lia)) in Hj.
        destruct (Hcov i0 j x y ltac:(lia) Hi Hj) as [|H]; [tauto|].
        inversion H as [? ? H0|? ? H0]; subst; [unfold in_seg in H0; cbn in H0; lia|].
        right; left. clear -H0 Hb Hi0 Li Ui Uj.
        apply Exists_exists in H0 as (q & Hq & H0). apply Exists_exists. exists q. split; [exact Hq|].
        rewrite Forall_forall in Hb. specialize (Hb q Hq). unfold below, in_seg in *; cbn in *; lia.
      - rewrite (Rout i ltac:(lia)) in Hi. rewrite (Rout j ltac:(lia)) in Hj.
        destruct (Hcov i j x y Hij Hi Hj) as [|H]; [tauto|].
        inversion H as [? ? H0|? ? H0]; subst; [unfold in_seg in H0; cbn in H0; lia|]. tauto.
      - (* i left *)
        rewrite (Rout i ltac:(lia)) in Hi.
        destruct (Rseg j ltac:(lia)) as (j0 & Hj0 & Ej). rewrite Ej in Hj.
        destruct (Hcov i j0 x y ltac:(lia) Hi Hj) as [|H]; [tauto|].
        inversion H as [? ? H0|? ? H0]; subst; [unfold in_seg in H0; cbn in H0; lia|].
        right; left. clear -H0 Hb Hj0 Li Uj Lj.
        apply Exists_exists in H0 as (q & Hq & H0). apply Exists_exists. exists q. split; [exact Hq|].
        rewrite Forall_forall in Hb. specialize (Hb q Hq). unfold below, in_seg in *; cbn in *; lia.
      - rewrite (Rout i ltac:(lia)) in Hi. rewrite (Rout j ltac:(lia)) in Hj.
        destruct (Hcov i j x y Hij Hi Hj) as [|H]; [tauto|].
        inversion H as [? ? H0|? ? H0]; subst; [unfold in_seg in H0; cbn in H0; lia|]. tauto.
      - rewrite (Rout i ltac:(lia)) in Hi. rewrite (Rout j ltac:(lia)) in Hj.
        destruct (Hcov i j x y Hij Hi Hj) as [|H]; [tauto|].
        inversion H as [? ? H0|? ? H0]; subst; [unfold in_seg in H0; cbn in H0; lia|]. tauto. }
    unfold parts. set (L := (lo, pred p)). set (H := (S p, hi)).
    assert (FL : lo < p -> Forall (below L) queue).
    { intros Hlt. eapply Forall_impl; [|exact Hb]. intros q Hbq.
      eapply below_part; eauto. }
    assert (FH : p < hi -> Forall (below H) queue).
    { intros Hlt. eapply Forall_impl; [|exact Hb]. intros q Hbq.
      eapply below_part; eauto. }
    assert (LH : p < hi -> below L H) by (unfold below, L, H; cbn; lia).
    assert (HL : lo < p -> below H L) by (unfold below, L, H; cbn; lia).
    assert (HH : below H H) by (unfold below, H; cbn; lia).
    assert (SL : lo < p -> seg_ok (length s) L) by (unfold seg_ok, L; cbn; lia).
    assert (SH : p < hi -> seg_ok (length s) H) by (unfold seg_ok, H; cbn; lia).
    assert (ML : lo < p -> S (snd L - fst L) = p - lo) by (unfold L; cbn; lia).
    assert (MH : p < hi -> S (snd H - fst H) = hi - p) by (unfold H; cbn; lia).
    assert (MP : S (hi - lo) = (p - lo) + S (hi - p)) by lia.
    assert (CL : forall i j, lo <= i /\ j < p -> i < j -> in_seg i j L)
      by (unfold in_seg, L; cbn; lia).
    assert (CH : forall i j, p < i /\ j <= hi -> in_seg i j H)
      by (unfold in_seg, H; cbn; lia).
    assert (PW : 3 ^ S (hi - lo) = 3 * (3 ^ (p - lo) * 3 ^ (hi - p)))
      by (rewrite MP, Nat.pow_add_r, (Nat.pow_succ_r 3 (hi - p)) by lia; lia).
    assert (P1 : 1 <= 3 ^ (p - lo)) by (pose proof (Nat.pow_nonzero 3 (p - lo)); lia).
    assert (P2 : 1 <= 3 ^ (hi - p)) by (pose proof (Nat.pow_nonzero 3 (hi - p)); lia).
    assert (PQ1 : 3 ^ (p - lo) < 3 ^ S (hi - lo)) by (rewrite PW; nia).
    assert (PQ2 : 3 ^ (hi - p) < 3 ^ S (hi - lo)) by (rewrite PW; nia).
    assert (PQ : lo < p -> 3 ^ (p - lo) + 2 * 3 ^ (hi - p) < 3 ^ S (hi - lo)).
    { intros Hlp. assert (3 ^ 1 <= 3 ^ (p - lo)) by (apply Nat.pow_le_mono_r; lia).
      change (3 ^ 1) with 3 in *. rewrite PW; nia. }
    repeat match goal with |- _ /\ _ => split end;
      destruct (Nat.ltb_spec (hi - p) (p - lo)), (Nat.ltb_spec 1 (p - lo)), (Nat.ltb_spec 1 (hi - p));
      try (exfalso; lia);
      first
        [ (* seg_ok *) solve [repeat (constructor; try (apply SL; lia); try (apply SH; lia)); assumption]
        | (* below *) solve [repeat (constructor; try (apply FL; lia); try (apply FH; lia);
                                     try (apply LH; lia); try (apply HL; lia); try exact HH); assumption]
        | (* covered *)
          solve [intros i j x y Hij Hi Hj;
                 destruct (Hcov' i j x y Hij Hi Hj) as [|[HE|[HP|HP]]];
                 [ left; assumption
                 | right; repeat (try exact HE; apply Exists_cons_tl)
                 | right; first [exfalso; lia | pose proof (CL i j HP Hij);
                     repeat (first [apply Exists_cons_hd; assumption | apply Exists_cons_tl])]
                 | right; first [exfalso; lia | pose proof (CH i j HP);
                     repeat (first [apply Exists_cons_hd; assumption | apply Exists_cons_tl])]]]
        | unfold measure; cbn [map list_sum fold_right fst snd];
          rewrite ?ML, ?MH by lia; unfold list_sum; cbn [fold_right];
          try specialize (PQ ltac:(lia)); lia ].
  Qed.

  Lemma quicksort_loop fuel : forall s queue,
    measure queue < fuel ->
    Forall (seg_ok (length s)) queue -> ForallOrdPairs below queue -> covered s queue ->
    exists s', loopR fuel (qs_body cmp) (s, queue) = Ok s' /\ Permutation s s' /\ covered s' [].
  Proof.
    induction fuel as [|fuel IH]; intros s queue Hm Hs Ho Hc; [lia|].
    destruct queue as [|[lo hi] queue].
    - exists s. cbn. auto.
    - destruct (qs_step s lo hi queue Hs Ho Hc) as (s1 & p & E & Hp & Hl & Hs1 & Ho1 & Hc1 & Hm1).
      cbn [loopR]. rewrite E.
      destruct (IH s1 (parts lo p hi queue)) as (s' & E' & Hp' & Hc'); auto.
      + lia.
      + now rewrite Hl.
      + exists s'. split; [exact E'|]. split; [now rewrite Hp|exact Hc'].
  Qed.

  Lemma covered_sorted s : covered s [] -> StronglySorted (fun a b => cmp b a = true) s.
  Proof.
    induction s as [|x s IH]; intros H; constructor.
    - apply IH. intros i j a b Hij Ha Hb.
      destruct (H (S i) (S j) a b ltac:(lia) Ha Hb) as [|HE]; [now left|inversion HE].
    - apply Forall_forall. intros y Hy. apply In_nth_error in Hy as [j Hj].
      destruct (H 0 (S j) x y ltac:(lia) eq_refl Hj) as [|HE]; [assumption|].
      inversion HE.
  Qed.

  Theorem quicksort_sorts l fuel :
    3 ^ length l < fuel ->
    exists l', quicksort cmp fuel l = Ok l' /\ Permutation l l' /\
               StronglySorted (fun a b => cmp b a = true) l'.
  Proof.
    intros Hf. unfold quicksort. destruct (Nat.ltb_spec (length l) 2) as [Hl|Hl].
    - exists l. split; [reflexivity|]. split; [reflexivity|].
      destruct l as [|x [|y l]]; cbn in Hl; try lia; repeat constructor.
    - destruct (quicksort_loop fuel l [(0, pred (length l))]) as (s' & E & Hp & Hc).
      + unfold measure, list_sum; cbn [map fold_right fst snd].
        replace (S (pred (length l) - 0)) with (length l) by lia. lia.
      + repeat constructor; cbn; lia.
      + repeat constructor.
      + intros i j x y Hij Hi Hj. right. constructor. split; cbn; [lia|].
        apply nth_error_bound in Hj. lia.
      + exists s'. split; [exact E|]. split; [exact Hp|]. now apply covered_sorted.
  Qed.
End Quick.

(** Whatever the comparator, a quicksort that returns returns a permutation. *)
Section QuickAny.
  Context {A : Type} (cmp : A -> A -> bool).
  Lemma quicksort_seg_ok_step s lo hi queue x :
    Forall (seg_ok (length s)) ((lo, hi) :: queue) ->
    qs_body cmp (s, (lo, hi) :: queue) = Ok x ->
    exists s' q', x = inl (s', q') /\ Permutation s s' /\ length s' = length s /\
                  Forall (seg_ok (length s)) q'.
  Proof.
    intros Hs E. inversion Hs as [|? ? Hlh Hq]; subst. unfold seg_ok in Hlh; cbn in Hlh.
    destruct (partition_ok cmp s lo hi Hlh) as (s' & p & pv & Ep & R). destruct R as [Rr Rl _ Rperm _ _ _ _].
    unfold qs_body in E. rewrite Ep in E. cbn [rbind] in E. fold (parts lo p hi queue) in E.
    injection E as <-. exists s', (parts lo p hi queue).
    split; [reflexivity|]. split; [now symmetry|]. split; [exact Rl|].
    unfold parts.
    destruct (Nat.ltb_spec (hi - p) (p - lo)), (Nat.ltb_spec 1 (p - lo)), (Nat.ltb_spec 1 (hi - p));
      repeat constructor; unfold seg_ok; cbn; try lia; assumption.
  Qed.
  Lemma quicksort_loop_perm fuel : forall s queue s',
    Forall (seg_ok (length s)) queue ->
    loopR fuel (qs_body cmp) (s, queue) = Ok s' -> Permutation s s'.
  Proof.
    induction fuel as [|fuel IH]; intros s queue s' Hs E; [discriminate|].
    destruct queue as [|[lo hi] queue].
    - cbn in E. injection E as <-. reflexivity.
    - cbn [loopR] in E. destruct (qs_body cmp (s, (lo, hi) :: queue)) as [x| |] eqn:Eb; try discriminate.
      destruct (quicksort_seg_ok_step _ _ _ _ _ Hs Eb) as (s1 & q1 & -> & Hp & Hl & Hq).
      rewrite Hp. eapply IH; [|exact E]. now rewrite Hl.
  Qed.
  Lemma quicksort_perm fuel l l' : quicksort cmp fuel l = Ok l' -> Permutation l l'.
  Proof.
    unfold quicksort. destruct (Nat.ltb_spec (length l) 2) as [Hl|Hl]; intros E.
    - injection E as <-. reflexivity.
    - eapply quicksort_loop_perm; [|exact E]. repeat constructor; cbn; lia.
  Qed.
End QuickAny.
