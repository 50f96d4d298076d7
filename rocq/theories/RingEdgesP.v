(** * Corollaries about [LinearRing.edges] in the words of SpecRing *)
From Coq Require Import ZArith List Bool Lia Psatz.
From Verif Require Import Py Monad Utils Geometry LinearRingM SpecRing MiscP ListP ScanP FloatP LinearRingP LinearRing2P.
Import ListNotations.
Open Scope Z_scope.

Lemma mk_edge_joins a b e : mk_edge a b = Ok e -> joins e a b.
Proof.
  intros H. destruct (mk_edge_orient _ _ _ H) as (H1 & H2). unfold joins.
  destruct (Z.lt_ge_cases (py a) (py b)) as [L|L].
  - destruct (H1 L) as (-> & ->). split; [auto|lia].
  - destruct (H2 L) as (-> & ->). split; [auto|lia].
Qed.
Lemma good_ring_outline pts es vs : good_ring pts es vs -> outline vs es.
Proof.
  intros (_ & H & _). unfold outline. revert H. generalize (cyclic_pairs vs). intros ps H.
  induction H as [|[a b] e ps es H HF IH]; constructor; auto. apply mk_edge_joins, H.
Qed.
Lemma cyclic_pairs_length vs : length (cyclic_pairs vs) = length vs.
Proof.
  destruct vs as [|a l]; [reflexivity|]. unfold cyclic_pairs.
  assert (H : forall l : list point, length (pairs l) = pred (length l)).
  { clear. induction l as [|a [|b l] IH]; [reflexivity..|]. rewrite pairs_cons. cbn [length pred] in *. lia. }
  rewrite H, app_length. cbn. lia.
Qed.
Lemma outline_length vs es : outline vs es -> length es = length vs.
Proof. intros H. rewrite <- cyclic_pairs_length. symmetry. unfold outline in H. induction H; cbn; congruence. Qed.
Lemma flat_area pts : flat pts -> area2 pts = 0.
Proof. intros F. apply (F cross cross_additive). Qed.
Lemma flat_winding pts q : flat pts -> winding_number q pts = 0.
Proof. intros F. apply (F (crossed q) (crossed_additive q)). Qed.
Lemma mk_edge_ok a b : Z.abs (px a - px b) <= 2 ^ 1023 -> exists e, mk_edge a b = Ok e.
Proof.
  intros H. destruct (mk_edge_cases a b) as [E|E]; [exact E|]. exfalso. revert E. unfold mk_edge.
  destruct (py a <? py b); cbv beta iota zeta;
    match goal with |- context [?d =? 0] => destruct (Z.eqb_spec d 0) as [E|N] end; try discriminate.
  - destruct (truediv_ok (px a - px b) _ N H) as (f & -> & _). discriminate.
  - destruct (truediv_ok (px b - px a) _ N) as (f & -> & _); [lia|]. discriminate.
Qed.

Lemma edges_result pts : match linear_ring_edges pts with
  | Ok es => exists vs, outline vs es /\ incl vs pts /\
      Forall (fun '(a, b) => a <> b) (cyclic_pairs vs) /\
      Forall (fun '(a, b, c) => ~ on_line a b c) (cyclic_triples vs) /\
      (es = [] \/ (3 <= length es)%nat) /\
      area2 vs = area2 pts /\ (forall q, winding_number q vs = winding_number q pts)
  | Raise e => e = OverflowError
  | NoFuel => False
  end.
Proof.
  pose proof (linear_ring_edges_spec pts) as H. destruct (linear_ring_edges pts) as [es|e|]; [|apply H|exact H].
  destruct H as [(-> & F)|(vs & G)].
  - exists []. split; [constructor|]. split; [intros x []|]. split; [constructor|]. split; [constructor|]. split; [auto|].
    split; [symmetry; apply flat_area, F|]. intros q. symmetry. apply flat_winding, F.
  - exists vs. pose proof (good_ring_outline _ _ _ G) as O. destruct G as (L & H1 & H2 & H3 & H4 & H5).
    split; [exact O|]. split; [exact H5|]. split.
    { eapply Forall_impl; [|exact H2]. intros [a b]. auto. } split.
    { eapply Forall_impl; [|exact H3]. intros [[a b] c]. auto. } split.
    { right. rewrite (outline_length _ _ O). exact L. }
    split; [symmetry; apply (H4 cross cross_additive)|]. intros q. symmetry. apply (H4 (crossed q) (crossed_additive q)).
Qed.
Lemma edges_total pts : (forall a b, In a pts -> In b pts -> Z.abs (px a - px b) <= 2 ^ 1023) ->
  exists es, linear_ring_edges pts = Ok es.
Proof.
  intros B. pose proof (linear_ring_edges_spec pts) as H. destruct (linear_ring_edges pts) as [es|e|]; [eauto| |contradiction].
  destruct H as (_ & u & v & Iu & Iv & E). destruct (mk_edge_ok u v (B _ _ Iu Iv)) as (x & Ex). congruence.
Qed.
Lemma pairs_in l a b : In (a, b) (pairs l) -> In a l /\ In b l.
Proof.
  induction l as [|x [|y l] IH]; [intros []..|]. rewrite pairs_cons. intros [E|I].
  - injection E as -> ->. split; cbn; auto.
  - destruct (IH I). split; right; assumption.
Qed.
Lemma cyclic_pairs_in vs a b : In (a, b) (cyclic_pairs vs) -> In a vs /\ In b vs.
Proof.
  destruct vs as [|v l]; [intros []|]. unfold cyclic_pairs. intros I. apply pairs_in in I.
  rewrite !in_app_iff in I. cbn in *. tauto.
Qed.
Lemma outline_points vs es e pts : outline vs es -> incl vs pts -> In e es -> In (etop e) pts /\ In (ebot e) pts.
Proof.
  unfold outline. intros O S I.
  assert (H : exists a b, In (a, b) (cyclic_pairs vs) /\ joins e a b).
  { revert I O. generalize (cyclic_pairs vs). intros ps I O. induction O as [|[a b] e' ps es J O IH]; [destruct I|].
    destruct I as [->|I].
    - exists a, b. split; [left; reflexivity|exact J].
    - destruct (IH I) as (a' & b' & H1 & H2). exists a', b'. split; [right; exact H1|exact H2]. }
  destruct H as (a & b & H1 & H2). apply cyclic_pairs_in in H1. destruct H1 as (Ha & Hb).
  destruct H2 as ([(-> & ->)|(-> & ->)] & _); split; auto.
Qed.
