(** * Proofs about [bubble_sort] (wagyu/bubble_sort.py) *)
From Coq Require Import ZArith List Bool Lia Permutation Sorting.Sorted.
From Verif Require Import Py Monad Utils Spec.
Import ListNotations.

Local Open Scope nat_scope.

Section Bubble.
  Context {A : Type} (cmp : A -> A -> bool).

  Local Notation out_of_order_after := (out_of_order_after cmp).
  Local Notation inversions := (inversions cmp).
  Local Notation swap_run := (swap_run cmp).
  Local Notation cmpM := (cmpM cmp).
  Local Notation logM := (@logM A).

  Lemma swap_run_app l1 log1 l2 log2 l3 :
    swap_run l1 log1 l2 -> swap_run l2 log2 l3 -> swap_run l1 (log1 ++ log2) l3.
  Proof.
    induction 1 as [l|pre a b post log l' Hc H IH]; intros H2; [exact H2|].
    cbn [app]. constructor; [exact Hc|]. now apply IH.
  Qed.

  Lemma swap_run_cons x l log l' : swap_run l log l' -> swap_run (x :: l) log (x :: l').
  Proof.
    induction 1 as [l|pre a b post log l' Hc H IH]; [constructor|].
    change (x :: pre ++ a :: b :: post) with ((x :: pre) ++ a :: b :: post).
    constructor; assumption.
  Qed.

  Lemma out_of_order_app x l1 l2 :
    out_of_order_after x (l1 ++ l2) = out_of_order_after x l1 + out_of_order_after x l2.
  Proof. induction l1 as [|y l1 IH]; cbn; [reflexivity|]. rewrite IH. lia. Qed.

  Lemma out_of_order_perm x l1 l2 :
    Permutation l1 l2 -> out_of_order_after x l1 = out_of_order_after x l2.
  Proof. induction 1; cbn; lia. Qed.

  Hypothesis total : forall a b, cmp a b = true \/ cmp b a = true.

  Lemma inversions_swap pre a b post :
    cmp a b = false ->
    inversions (pre ++ a :: b :: post) = S (inversions (pre ++ b :: a :: post)).
  Proof.
    intros Hc. induction pre as [|x pre IH]; cbn.
    - rewrite Hc. destruct (total a b) as [H|H]; [congruence|]. rewrite H. lia.
    - rewrite IH.
      rewrite (out_of_order_perm x (pre ++ a :: b :: post) (pre ++ b :: a :: post)); [lia|].
      apply Permutation_app_head, perm_swap.
  Qed.

  Lemma swap_run_inversions l log l' :
    swap_run l log l' -> inversions l = length log + inversions l'.
  Proof.
    induction 1 as [l|pre a b post log l' Hc H IH]; [reflexivity|].
    rewrite inversions_swap by exact Hc. cbn. lia.
  Qed.

  Lemma swap_run_perm l log l' : swap_run l log l' -> Permutation l l'.
  Proof.
    induction 1 as [l|pre a b post log l' Hc H IH]; [reflexivity|].
    rewrite <- IH. apply Permutation_app_head, perm_swap.
  Qed.

  (** ** One pass *)
  Definition adjacent_ok (l : list A) : Prop := LocallySorted (fun a b => cmp a b = true) l.

  Lemma bubble_pass_spec rest : forall x log0,
    exists l log sw,
      bubble_pass cmpM logM x rest log0 = Ok ((l, sw), log0 ++ log) /\
      swap_run (x :: rest) log l /\
      (sw = false <-> log = []) /\
      (sw = false -> l = x :: rest /\ adjacent_ok l).
  Proof.
    induction rest as [|y rest IH]; intros x log0.
    - exists [x], [], false. cbn. rewrite app_nil_r.
      repeat split; try constructor; auto.
    - cbn [bubble_pass]. unfold cmpM at 1, bind at 1, ret at 1.
      destruct (cmp x y) eqn:Hc.
      + destruct (IH y log0) as (l & log & sw & E & R & Hl & Hn).
        exists (x :: l), log, sw. unfold bind at 1. rewrite E. cbn.
        repeat split; try tauto.
        * now apply swap_run_cons.
        * destruct (Hn H) as [-> _]. reflexivity.
        * destruct (Hn H) as [-> Ha]. constructor; [exact Ha|exact Hc].
      + unfold bind at 1, logM at 1, modify at 1.
        destruct (IH x (log0 ++ [(x, y)])) as (l & log & sw & E & R & Hl & Hn).
        exists (y :: l), ((x, y) :: log), true. unfold bind at 1. rewrite E. cbn.
        repeat split; try discriminate.
        * now rewrite <- app_assoc.
        * apply (swap_step cmp [] x y rest); [exact Hc|].
          cbn. apply swap_run_cons. exact R.
  Qed.

  Lemma bubble_loop_spec fuel : forall l log0,
    inversions l < fuel ->
    exists l' log,
      bubble_sort cmpM logM fuel l log0 = Ok (l', log0 ++ log) /\
      swap_run l log l' /\ adjacent_ok l'.
  Proof.
    unfold bubble_sort. induction fuel as [|fuel IH]; intros l log0 Hf; [lia|].
    cbn [loopM]. destruct l as [|x rest].
    - exists [], []. cbn. rewrite app_nil_r. repeat split; constructor.
    - destruct (bubble_pass_spec rest x log0) as (l & log & sw & E & R & Hl & Hn).
      cbn [bubble_body]. unfold bind at 1. unfold bind at 1. rewrite E. cbn [ret].
      destruct sw; unfold ret.
      + assert (Hlen : log <> []) by (intros C; apply Hl in C; discriminate).
        destruct (IH l (log0 ++ log)) as (l' & log' & E' & R' & S').
        { pose proof (swap_run_inversions _ _ _ R).
          destruct log as [|q log]; [contradiction|cbn in *; lia]. }
        exists l', (log ++ log'). rewrite E'. rewrite app_assoc.
        repeat split; [|exact S']. eapply swap_run_app; eassumption.
      + destruct (Hn eq_refl) as [-> Hs].
        exists (x :: rest), log. repeat split; assumption.
  Qed.

  Lemma adjacent_ok_inversions l :
    (forall a b c, cmp a b = true -> cmp b c = true -> cmp a c = true) ->
    adjacent_ok l -> inversions l = 0 /\ StronglySorted (fun a b => cmp a b = true) l.
  Proof.
    intros Ht H.
    assert (SS : StronglySorted (fun a b => cmp a b = true) l).
    { apply Sorted_StronglySorted; [intros a b c; apply Ht|]. now apply Sorted_LocallySorted_iff. }
    split; [|exact SS]. clear H.
    induction SS as [|x l SS IH F]; [reflexivity|]. cbn. rewrite IH.
    enough (out_of_order_after x l = 0) by lia.
    clear SS IH. induction F as [|y l Hy F IHF]; [reflexivity|]. cbn. now rewrite Hy, IHF.
  Qed.
End Bubble.

(** ** General form: arbitrary (effectful) callbacks.  Whatever the callbacks do,
    the result is a permutation of the input. *)
Section BubbleAny.
  Context {St A : Type} (cmp : A -> A -> M St bool) (on_swap : A -> A -> M St unit).

  Lemma bubble_pass_perm rest : forall x s l sw s',
    bubble_pass cmp on_swap x rest s = Ok ((l, sw), s') -> Permutation (x :: rest) l.
  Proof.
    induction rest as [|y rest IH]; intros x s l sw s' E; cbn in E.
    - unfold ret in E. injection E as <- <- <-. reflexivity.
    - unfold bind at 1 in E. destruct (cmp x y s) as [[b s1]| |] eqn:Ec; try discriminate.
      destruct b.
      + unfold bind at 1 in E.
        destruct (bubble_pass cmp on_swap y rest s1) as [[[l1 sw1] s2]| |] eqn:Ep; try discriminate.
        unfold ret in E. injection E as <- <- <-. constructor. eapply IH; eassumption.
      + unfold bind at 1 in E. destruct (on_swap x y s1) as [[[] s2]| |]; try discriminate.
        unfold bind at 1 in E.
        destruct (bubble_pass cmp on_swap x rest s2) as [[[l1 sw1] s3]| |] eqn:Ep; try discriminate.
        unfold ret in E. injection E as <- <- <-.
        rewrite perm_swap. constructor. eapply IH; eassumption.
  Qed.

  Lemma bubble_sort_perm fuel : forall l s l' s',
    bubble_sort cmp on_swap fuel l s = Ok (l', s') -> Permutation l l'.
  Proof.
    unfold bubble_sort. induction fuel as [|fuel IH]; intros l s l' s' E; cbn in E; [discriminate|].
    destruct l as [|x rest]; cbn in E.
    - unfold bind, ret in E. injection E as <- <-. reflexivity.
    - unfold bind at 1 in E. unfold bind at 1 in E.
      destruct (bubble_pass cmp on_swap x rest s) as [[[l1 sw1] s1]| |] eqn:Ep; try discriminate.
      apply bubble_pass_perm in Ep. unfold ret in E. destruct sw1.
      + rewrite Ep. eapply IH; eassumption.
      + injection E as <- <-. exact Ep.
  Qed.
End BubbleAny.
