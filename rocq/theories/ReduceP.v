(** * Leaving out points on the line through their neighbours *)
From Coq Require Import ZArith List Bool Lia Psatz Classical.
From Verif Require Import Py Monad Utils Geometry LinearRingM SpecRing MiscP ListP ScanP FloatP LinearRingP LinearRing2P RepeatP SpecReduce.
Import ListNotations.
Open Scope Z_scope.

Definition turned (l l' : list point) : Prop := exists a b, l = a ++ b /\ l' = b ++ a.
Lemma turned_refl l : turned l l.
Proof. exists [], l. rewrite app_nil_r. auto. Qed.
Lemma turned_sym l l' : turned l l' -> turned l' l.
Proof. intros (a & b & -> & ->). exists b, a. auto. Qed.
Lemma turned_app a b : turned (a ++ b) (b ++ a).
Proof. exists a, b. auto. Qed.
Lemma turned_trans l l' l'' : turned l l' -> turned l' l'' -> turned l l''.
Proof.
  intros (a & b & -> & ->) (c & d & E & ->). destruct (app_eq_app _ _ _ _ E) as (u & [(-> & ->)|(-> & ->)]).
  - exists (a ++ c), u. rewrite <- !app_assoc. auto.
  - exists u, (d ++ b). rewrite <- !app_assoc. auto.
Qed.
Lemma turned_length l l' : turned l l' -> length l = length l'.
Proof. intros (a & b & -> & ->). rewrite !app_length. lia. Qed.
Lemma turned_nil l : turned [] l -> l = [].
Proof. intros (a & b & E & ->). symmetry in E. apply app_eq_nil in E. destruct E as (-> & ->). reflexivity. Qed.

Definition loose (p : point) (t : list point) : Prop := on_line (last t p) p (hd p t).
Definition step (l l' : list point) : Prop := exists p t, turned l (p :: t) /\ loose p t /\ turned t l'.
Inductive steps : list point -> list point -> Prop :=
| steps_turn : forall l l', turned l l' -> steps l l'
| steps_step : forall l m l', step l m -> steps m l' -> steps l l'.
Lemma step_left l0 l l' : turned l0 l -> step l l' -> step l0 l'.
Proof. intros T (p & t & A & B & C). exists p, t. split; [eapply turned_trans; eassumption|auto]. Qed.
Lemma step_right l l' l1 : step l l' -> turned l' l1 -> step l l1.
Proof. intros (p & t & A & B & C) T. exists p, t. split; [exact A|]. split; [exact B|]. eapply turned_trans; eassumption. Qed.
Lemma steps_left l0 l l' : turned l0 l -> steps l l' -> steps l0 l'.
Proof.
  intros T H. destruct H as [l l' T'|l m l' St H]; [apply steps_turn; eapply turned_trans; eassumption|].
  eapply steps_step; [eapply step_left; eassumption|exact H].
Qed.
Lemma steps_trans l m l' : steps l m -> steps m l' -> steps l l'.
Proof.
  intros H. revert l'. induction H as [l m T|l k m St _ IH]; intros l' H'; [eapply steps_left; eassumption|].
  eapply steps_step; [exact St|apply IH, H'].
Qed.
Lemma steps_refl l : steps l l.
Proof. apply steps_turn, turned_refl. Qed.
Lemma steps_drop p t : loose p t -> steps (p :: t) t.
Proof. intros L. eapply steps_step; [|apply steps_refl]. exists p, t. split; [apply turned_refl|]. split; [exact L|apply turned_refl]. Qed.
Lemma step_length l l' : step l l' -> length l = Datatypes.S (length l').
Proof. intros (p & t & A & _ & C). apply turned_length in A, C. cbn in A. lia. Qed.

(** ** Confluence *)
Lemma on_line_flip a b c : on_line a b c -> on_line c b a.
Proof. unfold on_line. nia. Qed.
Lemma hd_app_ne (d : point) a b : a <> [] -> hd d (a ++ b) = hd d a.
Proof. destruct a; [contradiction|reflexivity]. Qed.
Lemma hd_any (d d' : point) a : a <> [] -> hd d a = hd d' a.
Proof. destruct a; [contradiction|reflexivity]. Qed.
Lemma last_any (d d' : point) a : a <> [] -> last a d = last a d'.
Proof. destruct a; [contradiction|intros _; apply last_cons_any]. Qed.
Lemma line_pair a b c d : b <> c -> on_line a b c -> on_line b c d -> on_line a c d /\ on_line a b d.
Proof.
  intros N H1 H2.
  pose proof (on_line_trans b c a d ltac:(congruence) ltac:(unfold on_line in *; nia) H2) as Q1.
  pose proof (on_line_trans c b d a ltac:(congruence) ltac:(unfold on_line in *; nia) ltac:(unfold on_line in *; nia)) as Q2.
  unfold on_line in *. split; nia.
Qed.
Lemma join_next b b' v : loose b (b' :: v) -> loose b' (v ++ [b]) ->
  exists k, steps (b' :: v) k /\ steps (v ++ [b]) k.
Proof.
  unfold loose. intros H1 H2. destruct v as [|x v].
  - exists []. cbn [app]. split; apply steps_drop; unfold loose, on_line; cbn; ring.
  - rewrite last_last in H2. cbn [app hd] in H1, H2. change (last (b' :: x :: v) b) with (last (x :: v) b) in H1.
    destruct (point_eq_dec b b') as [<-|N].
    + exists (b :: x :: v). split; [apply steps_refl|]. apply steps_turn. apply (turned_app (x :: v) [b]).
    + destruct (line_pair _ _ _ _ N H1 H2) as (Q1 & Q2). exists (x :: v). split.
      * apply steps_drop. unfold loose. cbn [hd]. rewrite (last_any b' b) by discriminate. exact Q1.
      * eapply steps_left; [apply (turned_app (x :: v) [b])|]. cbn [app]. apply steps_drop. unfold loose. cbn [hd]. exact Q2.
Qed.
Lemma join_parts b b' u v : loose b (u ++ b' :: v) -> loose b' (v ++ b :: u) ->
  exists k, steps (u ++ b' :: v) k /\ steps (v ++ b :: u) k.
Proof.
  intros H1 H2. destruct u as [|x u]; [apply join_next; assumption|]. destruct v as [|y v].
  - destruct (join_next b' b (x :: u) H2 H1) as (k & K1 & K2). exists k. split; assumption.
  - exists ((y :: v) ++ x :: u). unfold loose in *. cbn [app hd] in H1, H2.
    change (x :: u ++ b' :: y :: v) with ((x :: u) ++ b' :: y :: v) in H1. rewrite last_app_ne in H1 by discriminate.
    change (y :: v ++ b :: x :: u) with ((y :: v) ++ b :: x :: u) in H2. rewrite last_app_ne in H2 by discriminate.
    change (last (b' :: y :: v) b) with (last (y :: v) b) in H1. change (last (b :: x :: u) b') with (last (x :: u) b') in H2.
    split.
    + eapply steps_left; [apply turned_app|]. cbn [app]. apply steps_drop. unfold loose. cbn [hd].
      change (y :: v ++ x :: u) with ((y :: v) ++ x :: u). rewrite last_app_ne by discriminate. exact H2.
    + eapply steps_left; [apply turned_app|]. cbn [app]. eapply steps_trans; [apply steps_drop|].
      * unfold loose. cbn [hd]. change (x :: u ++ y :: v) with ((x :: u) ++ y :: v). rewrite last_app_ne by discriminate. exact H1.
      * apply steps_turn. apply (turned_app (x :: u) (y :: v)).
Qed.
Lemma local l m m' : step l m -> step l m' -> exists k, steps m k /\ steps m' k.
Proof.
  intros (b & t & A & B & C) (b' & t' & A' & B' & C').
  assert (T : turned (b :: t) (b' :: t')) by (eapply turned_trans; [apply turned_sym, A|exact A']).
  assert (G : exists k, steps t k /\ steps t' k).
  { destruct T as (x & y & E & E'). destruct x as [|x0 x].
    - cbn in E. rewrite app_nil_r in E'. rewrite <- E in E'. injection E' as -> ->. exists t. split; apply steps_refl.
    - cbn [app] in E. injection E as <- ->. destruct y as [|y0 y].
      + cbn in E'. injection E' as -> ->. rewrite app_nil_r. exists x. split; apply steps_refl.
      + cbn [app] in E'. injection E' as <- ->. apply join_parts; assumption. }
  destruct G as (k & K1 & K2). exists k. split; (eapply steps_left; [apply turned_sym; eassumption|assumption]).
Qed.
Definition normal (l : list point) : Prop := forall l', ~ step l l'.
Lemma normal_exists l : exists n, steps l n /\ normal n.
Proof.
  remember (length l) as k eqn:Ek. revert l Ek. induction k as [k IH] using lt_wf_ind. intros l ->.
  destruct (classic (exists m, step l m)) as [(m & St)|N].
  - destruct (IH (length m)) with (l := m) as (n & H & Nn); [apply step_length in St; lia|reflexivity|].
    exists n. split; [eapply steps_step; eassumption|exact Nn].
  - exists l. split; [apply steps_refl|]. intros m St. apply N. eauto.
Qed.
Lemma normal_stays l n : normal l -> steps l n -> turned l n.
Proof. intros N H. destruct H as [l l' T|l m l' St _]; [exact T|]. elim (N m St). Qed.
Lemma normal_unique l n n' : steps l n -> normal n -> steps l n' -> normal n' -> turned n n'.
Proof.
  remember (length l) as k eqn:Ek. revert l n n' Ek. induction k as [k IH] using lt_wf_ind. intros l n n' -> H N H' N'.
  destruct H as [l n T|l m n St H].
  - assert (Nl : normal l) by (intros q Q; apply (N q); eapply step_left; [apply turned_sym, T|exact Q]).
    eapply turned_trans; [apply turned_sym, T|]. apply normal_stays; assumption.
  - destruct H' as [l n' T'|l m' n' St' H'].
    + elim (N' m). eapply step_left; [apply turned_sym, T'|exact St].
    + destruct (local _ _ _ St St') as (k & K1 & K2). destruct (normal_exists k) as (q & Kq & Nq).
      apply turned_trans with q.
      * eapply (IH (length m)); [apply step_length in St; lia|reflexivity|exact H|exact N| |exact Nq]. eapply steps_trans; eassumption.
      * eapply (IH (length m')); [apply step_length in St'; lia|reflexivity| |exact Nq|exact H'|exact N']. eapply steps_trans; eassumption.
Qed.
Lemma shape_normal l l' : same_shape l l' -> forall n n', steps l n -> normal n -> steps l' n' -> normal n' -> turned n n'.
Proof.
  induction 1 as [a b|p t L|l l' _ IH|l l' l'' _ IH1 _ IH2]; intros n n' H N H' N'.
  - eapply (normal_unique (a ++ b)); [exact H|exact N| |exact N']. eapply steps_left; [apply turned_app|exact H'].
  - eapply (normal_unique (p :: t)); [exact H|exact N| |exact N']. eapply steps_trans; [apply steps_drop, L|exact H'].
  - apply turned_sym. eapply IH; eassumption.
  - destruct (normal_exists l') as (q & Hq & Nq). eapply turned_trans; [eapply IH1; eassumption|eapply IH2; eassumption].
Qed.
Lemma nil_normal : normal [].
Proof. intros l' (p & t & A & _). apply turned_nil in A. discriminate. Qed.
Lemma triples_mid x y z : forall u v, In (x, y, z) (triples (u ++ x :: y :: z :: v)).
Proof.
  induction u as [|a u IH]; intros v; [left; reflexivity|]. specialize (IH v). cbn [app].
  destruct u as [|b [|c u]]; cbn [app] in *; rewrite triples_cons; right; exact IH.
Qed.
Lemma ring_normal vs : (3 <= length vs)%nat ->
  Forall (fun t => ~ on_line (fst (fst t)) (snd (fst t)) (snd t)) (cyclic_triples vs) -> normal vs.
Proof.
  intros Len F l' (p & t & (a & b & E & E') & L & _). unfold loose in L. rewrite Forall_forall in F.
  assert (G : forall x y, In (x, p, y) (cyclic_triples vs) -> ~ on_line x p y) by (intros x y I; exact (F _ I)).
  clear F. unfold cyclic_triples in G. destruct b as [|p' b].
  { rewrite app_nil_r in E. cbn in E'. subst a. destruct t as [|q t]; [subst vs; cbn in Len; lia|].
    subst vs. destruct (list_rev_ind_case (q :: t)) as [Q|(t1 & x & Q)]; [discriminate|].
    rewrite Q, last_last in L. rewrite <- Q in L. cbn [hd] in L. apply (G x q); [|exact L].
    change ((p :: q :: t) ++ [p; q]) with (p :: (q :: t) ++ [p; q]). rewrite Q, <- app_assoc. cbn [app]. apply (triples_mid x p q (p :: t1) []). }
  cbn [app] in E'. injection E' as <- ->. destruct (list_rev_ind_case a) as [->|(a1 & x & ->)].
  { rewrite app_nil_r in L. cbn [app] in E. subst vs. destruct b as [|q b]; [cbn in Len; lia|].
    destruct (list_rev_ind_case (q :: b)) as [Q|(t1 & x & Q)]; [discriminate|].
    rewrite Q, last_last in L. rewrite <- Q in L. cbn [hd] in L. apply (G x q); [|exact L].
    change ((p :: q :: b) ++ [p; q]) with (p :: (q :: b) ++ [p; q]). rewrite Q, <- app_assoc. cbn [app]. apply (triples_mid x p q (p :: t1) []). }
  rewrite app_assoc, last_last in L.
  assert (Two : exists c d r, vs = c :: d :: r) by (destruct vs as [|c [|d r]]; cbn in Len; [lia|lia|eauto]).
  destruct Two as (c & d & r & V). rewrite V in G.
  destruct b as [|q b].
  - cbn [app] in L. assert (Hc : hd p (a1 ++ [x]) = c).
    { rewrite E in V. destruct a1 as [|a0 a1]; cbn in *; congruence. }
    rewrite Hc in L. apply (G x c); [|exact L]. rewrite <- V, E, <- !app_assoc. cbn [app]. apply (triples_mid x p c a1 [d]).
  - cbn [app hd] in L. apply (G x q); [|exact L]. rewrite <- V, E, <- !app_assoc. cbn [app]. apply (triples_mid x p q a1).
Qed.
