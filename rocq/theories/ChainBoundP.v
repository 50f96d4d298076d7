(** * The ends of the chains: which bound holds which ring, and where *)
From Coq Require Import ZArith List Bool Lia FMapPositive.
From RecordUpdate Require Import RecordSet.
From Verif Require Import Py Monad Utils Geometry LinearRingM BoundM LocalMinimumM
     StateM PointNodeM RingM SweepM SpecRings CalmP VatP WindingInvP ChainP.
Import ListNotations RecordSetNotations.
Open Scope Z_scope.

Fixpoint steps (D : point -> point -> Prop) (ps : list point) : Prop :=
  match ps with
  | a :: (b :: _) as t => D a b /\ steps D t
  | _ => True
  end.
Lemma steps_app (D : point -> point -> Prop) : forall a b d, steps D a -> steps D b -> (a <> [] -> b <> [] -> D (List.last a d) (hd d b)) -> steps D (a ++ b).
Proof.
  induction a as [|x [|y a] IH]; intros b d Ha Hb H; [exact Hb| |].
  - destruct b as [|z b]; [exact I|]. cbn. split; [apply (H ltac:(discriminate) ltac:(discriminate))|exact Hb].
  - destruct Ha as (H1 & H2). cbn [app steps]. split; [exact H1|]. apply (IH b d H2 Hb). intros X Y. apply H; [discriminate|exact Y].
Qed.
Lemma last_rev {A} (l : list A) d : List.last (rev l) d = hd d l.
Proof. destruct l as [|a l]; [reflexivity|]. cbn. apply last_last. Qed.
Lemma hd_rev {A} (l : list A) d : hd d (rev l) = List.last l d.
Proof. rewrite <- (rev_involutive l) at 2. rewrite last_rev. reflexivity. Qed.
Lemma steps_rev (D : point -> point -> Prop) : (forall a b, D a b -> D b a) -> forall ps, steps D ps -> steps D (rev ps).
Proof.
  intros Sy. induction ps as [|x ps IH]; intros H; [exact I|]. cbn [rev]. apply (steps_app D _ _ x).
  - apply IH. destruct ps; [exact I|]. apply H.
  - exact I.
  - intros Hr _. rewrite last_rev. destruct ps as [|y ps]; [destruct (Hr eq_refl)|]. cbn in *. apply Sy, H.
Qed.

Section Ends.
(** [NB b p]: the point is near the current edge of the bound; [D p q]: the two points
    may be joined; [ent]: the bounds that have been used *)
Context (NB : bound -> point -> Prop) (D : point -> point -> Prop).
Hypothesis NBq : forall b b' p, b_edges b' = b_edges b -> b_cur b' = b_cur b -> NB b p -> NB b' p.
Hypothesis ND : forall b p q, NB b p -> NB b q -> D p q.
Hypothesis Dsym : forall p q, D p q -> D q p.

Notation PF := (rid -> list point).
Definition lostb (ent A : bid -> Prop) (B : bid -> bound) : Prop := exists i, ent i /\ ~ A i /\ b_ring (B i) <> None.
Definition mates (A : bid -> Prop) (B : bid -> bound) (i : bid) (r : rid) : Prop := exists j, j <> i /\ A j /\ b_ring (B j) = Some r.
Definition held (A : bid -> Prop) (B : bid -> bound) (r : rid) : Prop := exists j, A j /\ b_ring (B j) = Some r.
(** [X]: bounds whose chain does not end at their last point just now *)
Record ends (ent A X : bid -> Prop) (P : PF) (B : bid -> bound) : Prop := {
  en_tip : forall i r, A i -> b_ring (B i) = Some r -> P r <> [] /\ NB (B i) (tip (b_side (B i)) (P r) p0);
  en_last : forall i r, A i -> ~ X i -> b_ring (B i) = Some r -> tip (b_side (B i)) (P r) p0 = b_last (B i);
  en_sides : forall i j r, A i -> A j -> i <> j -> b_ring (B i) = Some r -> b_ring (B j) = Some r -> b_side (B i) <> b_side (B j);
  en_steps : forall r, steps D (P r);
  en_closed : forall r, P r <> [] -> D (back (P r) p0) (front (P r) p0) \/ held A B r \/ lostb ent A B;
  en_mate : forall i r, A i -> b_ring (B i) = Some r -> mates A B i r \/ lostb ent A B
}.

Lemma ends_weak (ent A X Y : bid -> Prop) P B : (forall i, A i -> ~ Y i -> ~ X i) -> ends ent A X P B -> ends ent A Y P B.
Proof. intros H [H1 H2 H3 H4 H5 H6]. split; auto. Qed.

(** changes that keep the ring, the side and (unless the bound is exempt) the last point of every bound *)
Definition sameb (b b' : bound) : Prop := b_ring b' = b_ring b /\ b_side b' = b_side b.
Lemma ends_same (ent A X : bid -> Prop) P B B' : (forall i, sameb (B i) (B' i)) ->
  (forall i r, A i -> b_ring (B i) = Some r -> NB (B i) (tip (b_side (B i)) (P r) p0) -> NB (B' i) (tip (b_side (B i)) (P r) p0)) ->
  (forall i r, A i -> ~ X i -> b_ring (B i) = Some r -> b_last (B' i) = b_last (B i)) ->
  ends ent A X P B -> ends ent A X P B'.
Proof.
  intros S N L [H1 H2 H3 H4 H5 H6].
  assert (Er : forall i, b_ring (B' i) = b_ring (B i)) by (intros i; apply S). assert (Es : forall i, b_side (B' i) = b_side (B i)) by (intros i; apply S).
  assert (Lo : lostb ent A B -> lostb ent A B') by (intros (i & Hi); exists i; rewrite Er; exact Hi).
  split.
  - intros i r Ai. rewrite Er, Es. intros R. destruct (H1 i r Ai R) as (Y & Z). auto.
  - intros i r Ai Xi. rewrite Er, Es. intros R. rewrite (L i r Ai Xi R). auto.
  - intros i j r. rewrite !Er, !Es. apply H3.
  - exact H4.
  - intros r Hr. destruct (H5 r Hr) as [Y|[(j & Y)|Y]]; [auto| |auto]. right; left. exists j. rewrite Er. exact Y.
  - intros i r Ai. rewrite Er. intros R. destruct (H6 i r Ai R) as [(j & Y)|Y]; [|auto]. left. exists j. rewrite Er. exact Y.
Qed.

Lemma side_flip a b : a <> b -> b = flip a.
Proof. destruct a, b; cbn; congruence. Qed.
Lemma extend_steps sd p ps : ps <> [] -> steps D ps -> D (tip sd ps p0) p -> steps D (extend sd p ps).
Proof.
  intros N H Hd. unfold extend. destruct (point_eqb _ _); [exact H|]. destruct sd; cbn in Hd.
  - destruct ps as [|a ps]; [congruence|]. split; [apply Dsym; exact Hd|exact H].
  - apply (steps_app D _ _ p0); [exact H|exact I|]. intros _ _. exact Hd.
Qed.
(** adding a point at the end of an exempt bound *)
Lemma ends_put (ent A : bid -> Prop) (X Y : bid -> Prop) P B i r p : ends ent A X P B -> A i -> b_ring (B i) = Some r -> NB (B i) p ->
  (forall j, A j -> j <> i -> ~ Y j -> ~ X j) -> (~ Y i -> b_last (B i) = p) ->
  ends ent A Y (pupd P r (extend (b_side (B i)) p (P r))) B.
Proof.
  intros [H1 H2 H3 H4 H5 H6] Ai Ri Np HY HL. destruct (H1 i r Ai Ri) as (Ne & Nt).
  assert (Tj : forall j q, A j -> j <> i -> b_ring (B j) = Some q ->
    tip (b_side (B j)) (pupd P r (extend (b_side (B i)) p (P r)) q) p0 = tip (b_side (B j)) (P q) p0).
  { intros j q Aj Nj Rj. unfold pupd. destruct (Pos.eqb_spec r q) as [<-|_]; [|reflexivity].
    rewrite (side_flip (b_side (B i)) (b_side (B j))); [|eapply H3; eauto]. apply extend_other. exact Ne. }
  split.
  - intros j q Aj Rj. destruct (Pos.eq_dec j i) as [->|Nj].
    + assert (q = r) by congruence. subst q. rewrite pupd_eq, extend_tip by exact Ne. split; [apply extend_ne; exact Ne|exact Np].
    + rewrite Tj by assumption. destruct (H1 j q Aj Rj) as (Y1 & Y2). split; [|exact Y2]. unfold pupd. destruct (Pos.eqb_spec r q); [apply extend_ne; exact Ne|exact Y1].
  - intros j q Aj Yj Rj. destruct (Pos.eq_dec j i) as [->|Nj].
    + assert (q = r) by congruence. subst q. rewrite pupd_eq, extend_tip by exact Ne. symmetry. auto.
    + rewrite Tj by assumption. apply H2; auto.
  - exact H3.
  - intros q. unfold pupd. destruct (Pos.eqb_spec r q) as [<-|_]; [|apply H4]. apply extend_steps; [exact Ne|apply H4|]. eapply ND; eassumption.
  - intros q. unfold pupd. destruct (Pos.eqb_spec r q) as [<-|_]; [|apply H5]. intros _. right; left. exists i. auto.
  - exact H6.
Qed.

(** a new ring between two bounds *)
Definition bset (B : bid -> bound) (i : bid) (b : bound) (j : bid) : bound := if Pos.eqb i j then b else B j.
Lemma ends_minimum (ent A : bid -> Prop) (X : bid -> Prop) P B B' i j r p : ends ent A X P B -> A i -> A j -> i <> j -> P r = [] ->
  b_ring (B i) = None -> b_ring (B j) = None -> NB (B' i) p -> NB (B' j) p ->
  b_ring (B' i) = Some r -> b_side (B' i) = LEFT -> b_last (B' i) = p ->
  b_ring (B' j) = Some r -> b_side (B' j) = RIGHT -> b_last (B' j) = p ->
  (forall k, k <> i -> k <> j -> B' k = B k) -> ends ent A X (pupd P r [p]) B'.
Proof.
  intros [H1 H2 H3 H4 H5 H6] Ai Aj Nij Pr Ri Rj Ni Nj A1 A2 A3 C1 C2 C3 O.
  assert (Fr : forall k q, A k -> k <> i -> k <> j -> b_ring (B' k) = Some q -> q <> r).
  { intros k q Ak K1 K2 Rk ->. rewrite O in Rk by assumption. destruct (H1 k r Ak Rk) as (Y & _). congruence. }
  assert (Lo : lostb ent A B -> lostb ent A B').
  { intros (k & Y1 & Y2 & Y3). exists k. split; [exact Y1|]. split; [exact Y2|]. rewrite O; [exact Y3|intros ->; contradiction|intros ->; contradiction]. }
  split.
  - intros k q Ak Rk. destruct (Pos.eq_dec k i) as [->|K1]; [|destruct (Pos.eq_dec k j) as [->|K2]].
    + assert (q = r) by congruence. subst q. rewrite pupd_eq, A2. split; [discriminate|exact Ni].
    + assert (q = r) by congruence. subst q. rewrite pupd_eq, C2. split; [discriminate|exact Nj].
    + pose proof (Fr k q Ak K1 K2 Rk) as Nq. rewrite pupd_neq by congruence. rewrite O in Rk |- * by assumption. auto.
  - intros k q Ak Xk Rk. destruct (Pos.eq_dec k i) as [->|K1]; [|destruct (Pos.eq_dec k j) as [->|K2]].
    + assert (q = r) by congruence. subst q. rewrite pupd_eq, A2. cbn. congruence.
    + assert (q = r) by congruence. subst q. rewrite pupd_eq, C2. cbn. congruence.
    + pose proof (Fr k q Ak K1 K2 Rk) as Nq. rewrite pupd_neq by congruence. rewrite O in Rk |- * by assumption. auto.
  - intros k m q Ak Am Nkm Rk Rm.
    destruct (Pos.eq_dec k i) as [->|K1]; [|destruct (Pos.eq_dec k j) as [->|K2]];
    (destruct (Pos.eq_dec m i) as [->|M1]; [|destruct (Pos.eq_dec m j) as [->|M2]]); try congruence;
    try (exfalso; apply (Fr m q Am M1 M2 Rm); congruence); try (exfalso; apply (Fr k q Ak K1 K2 Rk); congruence).
    rewrite O in Rk, Rm |- * by assumption. rewrite (O m) by assumption. eapply H3; eassumption.
  - intros q. unfold pupd. destruct (Pos.eqb_spec r q); [exact I|apply H4].
  - intros q. unfold pupd. destruct (Pos.eqb_spec r q) as [<-|Nq]; [intros _; right; left; exists i; auto|].
    intros Hq. destruct (H5 q Hq) as [Y|[(k & Y1 & Y2)|Y]]; [auto| |auto]. right; left. exists k. split; [exact Y1|].
    rewrite O; [exact Y2|intros ->; congruence|intros ->; congruence].
  - intros k q Ak Rk. destruct (Pos.eq_dec k i) as [->|K1]; [|destruct (Pos.eq_dec k j) as [->|K2]].
    + left. exists j. split; [congruence|]. split; [exact Aj|congruence].
    + left. exists i. split; [congruence|]. split; [exact Ai|congruence].
    + rewrite O in Rk by assumption. destruct (H6 k q Ak Rk) as [(m & Y1 & Y2 & Y3)|Y]; [|auto]. left. exists m.
      split; [exact Y1|]. split; [exact Y2|]. rewrite O; [exact Y3|intros ->; congruence|intros ->; congruence].
Qed.

(** the two ends of one ring meet *)
Lemma ends_close (ent A : bid -> Prop) (X Y : bid -> Prop) P B B' i j r p : ends ent A X P B -> A i -> A j -> i <> j ->
  b_ring (B i) = Some r -> b_ring (B j) = Some r -> tip (b_side (B i)) (P r) p0 = p -> NB (B j) p ->
  b_ring (B' i) = None -> b_ring (B' j) = None -> (forall k, k <> i -> k <> j -> B' k = B k) ->
  (forall k, A k -> k <> i -> k <> j -> ~ Y k -> ~ X k) -> ends ent A Y P B'.
Proof.
  intros [H1 H2 H3 H4 H5 H6] Ai Aj Nij Ri Rj Tp Np Ri' Rj' O HY.
  assert (Keep : forall k q, A k -> b_ring (B' k) = Some q -> k <> i /\ k <> j /\ B' k = B k).
  { intros k q Ak Rk. assert (k <> i) by (intros ->; congruence). assert (k <> j) by (intros ->; congruence). auto. }
  assert (Lo : lostb ent A B -> lostb ent A B').
  { intros (k & Y1 & Y2 & Y3). exists k. split; [exact Y1|]. split; [exact Y2|]. rewrite O; [exact Y3|intros ->; contradiction|intros ->; contradiction]. }
  assert (Only : forall k, A k -> b_ring (B k) = Some r -> k = i \/ k = j).
  { intros k Ak Rk. destruct (Pos.eq_dec k i) as [->|K1]; [auto|]. destruct (Pos.eq_dec k j) as [->|K2]; [auto|]. exfalso.
    pose proof (H3 i j r Ai Aj Nij Ri Rj) as S1. pose proof (H3 k i r Ak Ai K1 Rk Ri) as S2. pose proof (H3 k j r Ak Aj K2 Rk Rj) as S3.
    destruct (b_side (B i)), (b_side (B j)), (b_side (B k)); congruence. }
  split.
  - intros k q Ak Rk. destruct (Keep k q Ak Rk) as (K1 & K2 & E). rewrite E in *. auto.
  - intros k q Ak Xk Rk. destruct (Keep k q Ak Rk) as (K1 & K2 & E). rewrite E in *. auto.
  - intros k m q Ak Am Nkm Rk Rm. destruct (Keep k q Ak Rk) as (K1 & K2 & E). destruct (Keep m q Am Rm) as (M1 & M2 & F). rewrite E, F in *. eapply H3; eassumption.
  - exact H4.
  - intros q Hq. destruct (Pos.eq_dec q r) as [->|Nq].
    + left. destruct (H1 j r Aj Rj) as (_ & Nt). pose proof (H3 i j r Ai Aj Nij Ri Rj) as Sd. pose proof (ND _ _ _ Nt Np) as Dd. rewrite <- Tp in Dd.
      destruct (b_side (B i)), (b_side (B j)); try congruence; cbn in Dd; auto.
    + destruct (H5 q Hq) as [Z|[(k & Z1 & Z2)|Z]]; [auto| |auto]. right; left. exists k. split; [exact Z1|].
      rewrite O; [exact Z2|intros ->; congruence|intros ->; congruence].
  - intros k q Ak Rk. destruct (Keep k q Ak Rk) as (K1 & K2 & E). rewrite E in Rk. destruct (H6 k q Ak Rk) as [(m & Y1 & Y2 & Y3)|Z]; [|auto]. left. exists m.
    split; [exact Y1|]. split; [exact Y2|]. rewrite O; [exact Y3| |].
    + intros ->. assert (q = r) by congruence. subst q. destruct (Only k Ak Rk); contradiction.
    + intros ->. assert (q = r) by congruence. subst q. destruct (Only k Ak Rk); contradiction.
Qed.

(** the ends of two rings meet *)
Definition isl (sd : edge_side) : bool := side_eqb sd LEFT.
Lemma rev_ne {A} (l : list A) : l <> [] -> rev l <> [].
Proof. intros H E. apply H. rewrite <- (rev_involutive l), E. reflexivity. Qed.
Lemma hd_app_l {A} (a b : list A) d : a <> [] -> hd d (a ++ b) = hd d a.
Proof. destruct a; [congruence|reflexivity]. Qed.
Lemma last_app_r {A} (a b : list A) d : b <> [] -> List.last (a ++ b) d = List.last b d.
Proof.
  intros H. induction a as [|x a IH]; [reflexivity|]. cbn [app]. destruct (a ++ b) eqn:E.
  - destruct a; [|discriminate]. cbn in E. congruence.
  - change (List.last (x :: a0 :: l) d) with (List.last (a0 :: l) d). exact IH.
Qed.
Lemma join_ne kl rl ps qs : ps <> [] -> join_pts kl rl ps qs <> [].
Proof.
  intros H. unfold join_pts. destruct kl; [destruct rl|].
  - intros E. apply app_eq_nil in E. tauto.
  - intros E. apply app_eq_nil in E. tauto.
  - intros E. apply app_eq_nil in E. tauto.
Qed.
(** the free end of the kept ring stays where it was, the free end of the other ring
    becomes the end at which the kept ring was joined *)
Lemma join_free_kept ks rs ps qs : ps <> [] -> qs <> [] -> tip (flip ks) (join_pts (isl ks) (isl rs) ps qs) p0 = tip (flip ks) ps p0.
Proof.
  intros Np Nq. destruct ks, rs; cbn; unfold front, back.
  - apply last_app_r. exact Np.
  - apply last_app_r. exact Np.
  - apply hd_app_l. exact Np.
  - apply hd_app_l. exact Np.
Qed.
Lemma join_free_removed ks rs ps qs : ps <> [] -> qs <> [] -> tip ks (join_pts (isl ks) (isl rs) ps qs) p0 = tip (flip rs) qs p0.
Proof.
  intros Np Nq. destruct ks, rs; cbn; unfold front, back.
  - rewrite hd_app_l by (apply rev_ne; exact Nq). apply hd_rev.
  - apply hd_app_l. exact Nq.
  - apply last_app_r. exact Nq.
  - rewrite last_app_r by (apply rev_ne; exact Nq). apply last_rev.
Qed.
Lemma join_steps ks rs ps qs : ps <> [] -> qs <> [] -> steps D ps -> steps D qs -> D (tip ks ps p0) (tip rs qs p0) ->
  steps D (join_pts (isl ks) (isl rs) ps qs).
Proof.
  intros Np Nq Hp Hq Hd. destruct ks, rs; cbn in *; unfold front, back in *; apply (steps_app D _ _ p0); auto using steps_rev; intros _ _.
  - rewrite last_rev. apply Dsym. exact Hd.
  - rewrite hd_rev. exact Hd.
Qed.
Lemma ends_append (ent A : bid -> Prop) (X Y : bid -> Prop) P B B' k r kb rb t : ends ent A X P B -> A kb -> A rb -> kb <> rb -> k <> r ->
  b_ring (B kb) = Some k -> b_ring (B rb) = Some r -> D (tip (b_side (B kb)) (P k) p0) (tip (b_side (B rb)) (P r) p0) ->
  match t with
  | Some t => A t /\ t <> kb /\ t <> rb /\ b_ring (B t) = Some r
  | None => forall j, A j -> j <> kb -> j <> rb -> b_ring (B j) <> Some r
  end ->
  (forall j, B' j = relabelled k kb rb t B j) ->
  (forall j, A j -> j <> kb -> j <> rb -> ~ Y j -> ~ X j) ->
  ends ent A Y (pupd (pupd P r []) k (join_pts (isl (b_side (B kb))) (isl (b_side (B rb))) (P k) (P r))) B'.
Proof.
  intros [H1 H2 H3 H4 H5 H6] Ak Ar Nb Nkr Rk Rr Dd Ht HB HY.
  destruct (H1 kb k Ak Rk) as (Nek & Ntk). destruct (H1 rb r Ar Rr) as (Ner & Ntr).
  set (ks := b_side (B kb)) in *. set (rs := b_side (B rb)) in *. set (ps := join_pts (isl ks) (isl rs) (P k) (P r)).
  set (P' := pupd (pupd P r []) k ps).
  assert (Pk : P' k = ps) by apply pupd_eq.
  assert (Po : forall q, q <> k -> q <> r -> P' q = P q) by (intros q Q1 Q2; unfold P'; rewrite !pupd_neq by congruence; reflexivity).
  (* the holders of r are rb and t *)
  assert (Only : forall j, A j -> b_ring (B j) = Some r -> j = rb \/ t = Some j).
  { intros j Aj Rj. destruct (Pos.eq_dec j rb) as [->|Njr]; [auto|]. right. assert (Njk : j <> kb) by (intros ->; congruence).
    destruct t as [t|]; [|exfalso; apply (Ht j Aj Njk Njr Rj)]. destruct Ht as (At & T1 & T2 & Rt). f_equal.
    destruct (Pos.eq_dec t j) as [E|Ntj]; [exact E|]. exfalso.
    pose proof (H3 rb j r Ar Aj ltac:(congruence) Rr Rj) as S1. pose proof (H3 rb t r Ar At ltac:(congruence) Rr Rt) as S2. pose proof (H3 t j r At Aj Ntj Rt Rj) as S3.
    destruct (b_side (B rb)), (b_side (B t)), (b_side (B j)); congruence. }
  (* the cases for a bound that holds a ring afterwards *)
  assert (Case : forall j q, A j -> b_ring (B' j) = Some q ->
    (t = Some j /\ q = k /\ b_side (B' j) = ks /\ b_last (B' j) = b_last (B j) /\ j <> kb /\ j <> rb /\ b_ring (B j) = Some r) \/
    (j <> kb /\ j <> rb /\ t <> Some j /\ B' j = B j /\ b_ring (B j) = Some q /\ q <> r)).
  { intros j q Aj. rewrite HB. unfold relabelled. destruct t as [t|].
    - destruct Ht as (At & T1 & T2 & Rt). destruct (Pos.eqb_spec t j) as [<-|Ntj].
      + intros E. left. rewrite (proj2 (Pos.eqb_neq kb t)), (proj2 (Pos.eqb_neq rb t)) by congruence. cbn in *.
        repeat split; congruence.
      + destruct (Pos.eqb_spec kb j) as [<-|K1]; [discriminate|]. destruct (Pos.eqb_spec rb j) as [<-|K2]; [discriminate|]. cbn. intros E. right.
        repeat split; try congruence. intros ->. destruct (Only j Aj E); congruence.
    - destruct (Pos.eqb_spec kb j) as [<-|K1]; [discriminate|]. destruct (Pos.eqb_spec rb j) as [<-|K2]; [discriminate|]. cbn. intros E. right.
      repeat split; try congruence. intros ->. destruct (Only j Aj E); congruence. }
  assert (Lo : lostb ent A B -> lostb ent A B').
  { intros (j & Y1 & Y2 & Y3). exists j. split; [exact Y1|]. split; [exact Y2|]. rewrite HB. unfold relabelled.
    assert (K1 : kb <> j) by (intros ->; contradiction). assert (K2 : rb <> j) by (intros ->; contradiction).
    rewrite (proj2 (Pos.eqb_neq _ _) K1), (proj2 (Pos.eqb_neq _ _) K2). cbn.
    destruct t as [t|]; [|exact Y3]. destruct Ht as (At & _). destruct (Pos.eqb_spec t j) as [->|_]; [contradiction|exact Y3]. }
  (* the tips *)
  assert (Tip : forall j q, A j -> b_ring (B' j) = Some q -> exists q', b_ring (B j) = Some q' /\
    P' q <> [] /\ tip (b_side (B' j)) (P' q) p0 = tip (b_side (B j)) (P q') p0).
  { intros j q Aj Rj. destruct (Case j q Aj Rj) as [(Et & -> & Es & El & N1 & N2 & Rr')|(N1 & N2 & Nt & EB & Rj' & Nq)].
    - exists r. split; [exact Rr'|]. rewrite Pk, Es. split; [apply join_ne; exact Nek|]. unfold ps. rewrite join_free_removed by assumption.
      f_equal. symmetry. apply side_flip. eapply (H3 rb j r); eauto.
    - exists q. split; [exact Rj'|]. rewrite EB. destruct (Pos.eq_dec q k) as [->|Qk].
      + rewrite Pk. split; [apply join_ne; exact Nek|]. rewrite (side_flip ks (b_side (B j))); [|eapply (H3 kb j k); eauto]. apply join_free_kept; assumption.
      + rewrite Po by assumption. split; [|reflexivity]. apply (H1 j q Aj Rj'). }
  assert (Qc : forall j, b_edges (B' j) = b_edges (B j) /\ b_cur (B' j) = b_cur (B j)).
  { intros j. rewrite HB. unfold relabelled. destruct t as [t|]; [destruct (Pos.eqb t j)|]; destruct (Pos.eqb kb j || Pos.eqb rb j); split; reflexivity. }
  assert (La : forall j, b_last (B' j) = b_last (B j)).
  { intros j. rewrite HB. unfold relabelled. destruct t as [t|]; [destruct (Pos.eqb t j)|]; destruct (Pos.eqb kb j || Pos.eqb rb j); reflexivity. }
  assert (Nn : forall j q, A j -> b_ring (B' j) = Some q -> j <> kb /\ j <> rb).
  { intros j q Aj Rj. destruct (Case j q Aj Rj); tauto. }
  (* who holds the joined ring *)
  assert (Hk : held A B' k \/ lostb ent A B').
  { destruct t as [t|].
    - left. exists t. destruct Ht as (At & T). split; [exact At|]. rewrite HB. unfold relabelled. rewrite Pos.eqb_refl. reflexivity.
    - right. apply Lo. destruct (H6 rb r Ar Rr) as [(j & Y1 & Y2 & Y3)|Z]; [|exact Z]. exfalso. apply (Ht j Y2); [intros ->; congruence|exact Y1|exact Y3]. }
  split.
  - intros j q Aj Rj. destruct (Tip j q Aj Rj) as (q' & Rj' & Z1 & Z2). split; [exact Z1|]. rewrite Z2. eapply NBq; [apply Qc|apply Qc|]. apply (H1 j q' Aj Rj').
  - intros j q Aj Yj Rj. destruct (Tip j q Aj Rj) as (q' & Rj' & Z1 & Z2). rewrite Z2, La. destruct (Nn j q Aj Rj). apply H2; auto.
  - intros i j q Ai Aj Nij Ri Rj. destruct (Case i q Ai Ri) as [(Et & Eq & Es & _)|(N1 & N2 & Nt & EB & Ri' & Nq)];
      destruct (Case j q Aj Rj) as [(Et' & Eq' & Es' & _)|(N1' & N2' & Nt' & EB' & Rj' & Nq')].
    + congruence.
    + subst q. rewrite Es, EB'. eapply (H3 kb j k); eauto.
    + subst q. rewrite Es', EB. intros Z. apply (H3 kb i k Ak Ai); auto.
    + rewrite EB, EB'. eapply H3; eauto.
  - intros q. destruct (Pos.eq_dec q k) as [->|Qk]; [rewrite Pk; apply join_steps; auto|]. destruct (Pos.eq_dec q r) as [->|Qr].
    + unfold P'. rewrite pupd_neq by congruence. rewrite pupd_eq. exact I.
    + rewrite Po by assumption. apply H4.
  - intros q Hq. destruct (Pos.eq_dec q k) as [->|Qk]; [right; exact Hk|]. destruct (Pos.eq_dec q r) as [->|Qr].
    + exfalso. apply Hq. unfold P'. rewrite pupd_neq by congruence. apply pupd_eq.
    + rewrite Po in Hq |- * by assumption. destruct (H5 q Hq) as [Z|[(j & Z1 & Z2)|Z]]; [auto| |auto]. right; left. exists j. split; [exact Z1|].
      assert (K1 : j <> kb) by (intros ->; congruence). assert (K2 : j <> rb) by (intros ->; congruence).
      rewrite HB. unfold relabelled. rewrite (proj2 (Pos.eqb_neq kb j)), (proj2 (Pos.eqb_neq rb j)) by congruence. cbn.
      destruct t as [t|]; [|exact Z2]. destruct Ht as (At & _ & _ & Rt). destruct (Pos.eqb_spec t j) as [->|_]; [congruence|exact Z2].
  - intros j q Aj Rj. destruct (Case j q Aj Rj) as [(Et & -> & Es & El & N1 & N2 & Rr')|(N1 & N2 & Nt & EB & Rj' & Nq)].
    + (* t: the other holder of k *)
      destruct (H6 kb k Ak Rk) as [(m & M1 & M2 & M3)|Z]; [|auto]. left. exists m. split; [intros ->; congruence|]. split; [exact M2|].
      rewrite HB. unfold relabelled. subst t. assert (M4 : m <> rb) by (intros ->; congruence). assert (M5 : m <> j) by (intros ->; congruence).
      rewrite (proj2 (Pos.eqb_neq kb m)), (proj2 (Pos.eqb_neq rb m)), (proj2 (Pos.eqb_neq j m)) by congruence. exact M3.
    + destruct (Pos.eq_dec q k) as [->|Qk].
      * destruct t as [t|]; [|destruct Hk as [(m & M1 & M2)|Z]; [|auto]; destruct (H6 rb r Ar Rr) as [(z & Y1 & Y2 & Y3)|Z]; [|auto]; exfalso; apply (Ht z Y2); [intros ->; congruence|exact Y1|exact Y3]].
        left. exists t. split; [congruence|]. destruct Ht as (At & _). split; [exact At|]. rewrite HB. unfold relabelled. rewrite Pos.eqb_refl. reflexivity.
      * destruct (H6 j q Aj Rj') as [(m & M1 & M2 & M3)|Z]; [|auto]. left. exists m. split; [exact M1|]. split; [exact M2|].
        rewrite HB. unfold relabelled. assert (M4 : m <> rb) by (intros ->; congruence). assert (M5 : m <> kb) by (intros ->; congruence).
        rewrite (proj2 (Pos.eqb_neq kb m)), (proj2 (Pos.eqb_neq rb m)) by congruence. cbn.
        destruct t as [t|]; [|exact M3]. destruct Ht as (At & _ & _ & Rt). destruct (Pos.eqb_spec t m) as [->|_]; [congruence|exact M3].
Qed.

(** two bounds exchange their rings and sides at a point where both chains end *)
Lemma ends_swap (ent A : bid -> Prop) (X : bid -> Prop) P B B' i j p : ends ent A X P B -> A i -> A j -> i <> j -> NB (B' i) p -> NB (B' j) p -> ~ X i -> ~ X j ->
  b_last (B i) = p -> b_last (B j) = p ->
  b_ring (B' i) = b_ring (B j) -> b_side (B' i) = b_side (B j) -> b_last (B' i) = p ->
  b_ring (B' j) = b_ring (B i) -> b_side (B' j) = b_side (B i) -> b_last (B' j) = p ->
  (forall k, k <> i -> k <> j -> B' k = B k) -> ends ent A X P B'.
Proof.
  intros [H1 H2 H3 H4 H5 H6] Ai Aj Nij Ni Nj Xi Xj Li Lj A1 A2 A3 C1 C2 C3 O.
  set (sw k := if Pos.eqb i k then j else if Pos.eqb j k then i else k).
  assert (Si : sw i = j) by (unfold sw; rewrite Pos.eqb_refl; reflexivity).
  assert (Sj : sw j = i) by (unfold sw; rewrite (proj2 (Pos.eqb_neq i j)) by exact Nij; rewrite Pos.eqb_refl; reflexivity).
  assert (So : forall k, k <> i -> k <> j -> sw k = k).
  { intros k K1 K2. unfold sw. rewrite (proj2 (Pos.eqb_neq i k)), (proj2 (Pos.eqb_neq j k)) by congruence. reflexivity. }
  assert (Cs : forall k, k = i \/ k = j \/ (k <> i /\ k <> j)).
  { intros k. destruct (Pos.eq_dec k i); [auto|]. destruct (Pos.eq_dec k j); auto. }
  assert (Er : forall k, b_ring (B' k) = b_ring (B (sw k))).
  { intros k. destruct (Cs k) as [->|[->|(K1 & K2)]]; [rewrite Si; exact A1|rewrite Sj; exact C1|rewrite So by assumption; rewrite O by assumption; reflexivity]. }
  assert (Es : forall k, b_side (B' k) = b_side (B (sw k))).
  { intros k. destruct (Cs k) as [->|[->|(K1 & K2)]]; [rewrite Si; exact A2|rewrite Sj; exact C2|rewrite So by assumption; rewrite O by assumption; reflexivity]. }
  assert (El : forall k, b_last (B' k) = b_last (B (sw k))).
  { intros k. destruct (Cs k) as [->|[->|(K1 & K2)]]; [rewrite Si; congruence|rewrite Sj; congruence|rewrite So by assumption; rewrite O by assumption; reflexivity]. }
  assert (Sa : forall k, A k <-> A (sw k)).
  { intros k. destruct (Cs k) as [->|[->|(K1 & K2)]]; [rewrite Si; tauto|rewrite Sj; tauto|rewrite So by assumption; tauto]. }
  assert (Sx : forall k, ~ X k -> ~ X (sw k)).
  { intros k. destruct (Cs k) as [->|[->|(K1 & K2)]]; [rewrite Si; auto|rewrite Sj; auto|rewrite So by assumption; auto]. }
  assert (Ss : forall k, sw (sw k) = k).
  { intros k. destruct (Cs k) as [->|[->|(K1 & K2)]]; [rewrite Si; exact Sj|rewrite Sj; exact Si|rewrite (So k) by assumption; apply So; assumption]. }
  assert (Lo : lostb ent A B -> lostb ent A B').
  { intros (k & Y1 & Y2 & Y3). exists k. split; [exact Y1|]. split; [exact Y2|]. rewrite O; [exact Y3|intros ->; contradiction|intros ->; contradiction]. }
  split.
  - intros k r Ak. rewrite Er, Es. intros R. destruct (H1 (sw k) r (proj1 (Sa k) Ak) R) as (Y & Z). split; [exact Y|].
    destruct (Cs k) as [->|[->|(K1 & K2)]].
    + rewrite Si in *. rewrite (H2 j r Aj Xj R), Lj. exact Ni.
    + rewrite Sj in *. rewrite (H2 i r Ai Xi R), Li. exact Nj.
    + rewrite So in * by assumption. rewrite O by assumption. exact Z.
  - intros k r Ak Xk. rewrite Er, Es, El. apply H2; [apply (proj1 (Sa k)); exact Ak|apply Sx; exact Xk].
  - intros k m r Ak Am Nkm. rewrite !Er, !Es. apply H3; [apply (proj1 (Sa k)); exact Ak|apply (proj1 (Sa m)); exact Am|]. intros Z. apply Nkm. rewrite <- (Ss k), <- (Ss m), Z. reflexivity.
  - exact H4.
  - intros r Hr. destruct (H5 r Hr) as [Y|[(k & Y1 & Y2)|Y]]; [auto| |auto]. right; left. exists (sw k). split; [apply (proj1 (Sa k) Y1)|]. rewrite Er, Ss. exact Y2.
  - intros k r Ak. rewrite Er. intros R. destruct (H6 (sw k) r (proj1 (Sa k) Ak) R) as [(m & Y1 & Y2 & Y3)|Y]; [|auto]. left. exists (sw m).
    split; [intros Z; apply Y1; rewrite <- Z, Ss; reflexivity|]. split; [apply (proj1 (Sa m) Y2)|]. rewrite Er, Ss. exact Y3.
Qed.

(** bounds leave or enter the active list *)
Lemma ends_leave (ent A A' X : bid -> Prop) P B : (forall i, A' i -> A i) -> (forall i, A i -> A' i \/ ~ A' i) -> (forall i, A i -> ent i) -> ends ent A X P B -> ends ent A' X P B.
Proof.
  intros S Dc En [H1 H2 H3 H4 H5 H6].
  assert (Lo : lostb ent A B -> lostb ent A' B) by (intros (k & Y1 & Y2 & Y3); exists k; split; [exact Y1|split; [intros Z; apply Y2, S, Z|exact Y3]]).
  split; eauto.
  - intros r Hr. destruct (H5 r Hr) as [Y|[(k & Y1 & Y2)|Y]]; [auto| |auto]. destruct (Dc k Y1) as [Z|Z]; [right; left; exists k; auto|].
    right; right. exists k. split; [auto|]. split; [exact Z|congruence].
  - intros i r Ai Ri. destruct (H6 i r (S i Ai) Ri) as [(k & Y0 & Y1 & Y2)|Y]; [|auto]. destruct (Dc k Y1) as [Z|Z]; [left; exists k; auto|].
    right. exists k. split; [auto|]. split; [exact Z|congruence].
Qed.
Lemma ends_enter (ent ent' A A' X : bid -> Prop) P B B' : (forall i, A i -> A' i) -> (forall i, A' i -> A i \/ (~ ent i /\ b_ring (B' i) = None)) ->
  (forall i, ent i -> ent' i) -> (forall i, A i -> ent i) -> (forall i, ent i -> B' i = B i) -> ends ent A X P B -> ends ent' A' X P B'.
Proof.
  intros S1 S2 Se En O [H1 H2 H3 H4 H5 H6].
  assert (K : forall i r, A' i -> b_ring (B' i) = Some r -> A i /\ B' i = B i).
  { intros i r Ai Ri. destruct (S2 i Ai) as [Z|(_ & Z)]; [|congruence]. auto. }
  assert (Lo : lostb ent A B -> lostb ent' A' B').
  { intros (k & Y1 & Y2 & Y3). exists k. split; [auto|]. split; [|rewrite O by exact Y1; exact Y3]. intros Z. destruct (S2 k Z) as [Z'|(Z' & _)]; contradiction. }
  split.
  - intros i r Ai Ri. destruct (K i r Ai Ri) as (Z1 & Z2). rewrite Z2 in *. auto.
  - intros i r Ai Xi Ri. destruct (K i r Ai Ri) as (Z1 & Z2). rewrite Z2 in *. auto.
  - intros i j r Ai Aj N Ri Rj. destruct (K i r Ai Ri) as (Z1 & Z2). destruct (K j r Aj Rj) as (Z3 & Z4). rewrite Z2, Z4 in *. eauto.
  - exact H4.
  - intros r Hr. destruct (H5 r Hr) as [Y|[(k & Y1 & Y2)|Y]]; [auto| |auto]. right; left. exists k. split; [auto|]. rewrite O; auto.
  - intros i r Ai Ri. destruct (K i r Ai Ri) as (Z1 & Z2). rewrite Z2 in Ri. destruct (H6 i r Z1 Ri) as [(k & Y0 & Y1 & Y2)|Y]; [|auto]. left. exists k.
    split; [exact Y0|]. split; [auto|]. rewrite O; auto.
Qed.
End Ends.
