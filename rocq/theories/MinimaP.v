(** * Splitting the edges of a ring into bounds *)
From Coq Require Import ZArith List Bool Lia Psatz Permutation Reals.
From Coq Require Import Floats.SpecFloat.
From Flocq Require Import Core.Raux.
From Verif Require Import Py Monad Utils Geometry LinearRingM BoundM LocalMinimumM SpecRing SpecBounds
     MiscP ListP ScanP FloatP LinearRingP LinearRing2P RingEdgesP.
Import ListNotations.
Open Scope Z_scope.

(** ** Directed edges *)
Notation dpair := (point * point)%type.
Definition is_up (p : dpair) : bool := py (snd p) <? py (fst p).
Definition is_down (p : dpair) : bool := py (fst p) <? py (snd p).
Definition is_hor (p : dpair) : bool := py (fst p) =? py (snd p).
Definition made (p : dpair) (e : edge) : Prop := mk_edge (fst p) (snd p) = Ok e /\ fst p <> snd p.
Fixpoint walk (a : point) (ps : list dpair) (b : point) : Prop :=
  match ps with [] => a = b | p :: t => fst p = a /\ walk (snd p) t b end.
(** neighbours are not collinear *)
Definition sharp (p q : dpair) : Prop := ~ on_line (fst p) (snd p) (snd q).
Fixpoint adj (p : dpair) (ps : list dpair) : Prop :=
  match ps with [] => True | q :: t => sharp p q /\ adj q t end.

Lemma walk_app a l1 l2 b : walk a (l1 ++ l2) b <-> exists c, walk a l1 c /\ walk c l2 b.
Proof.
  revert a. induction l1 as [|p l1 IH]; intros a; cbn.
  - split; [intros H; exists a; auto|]. intros (c & -> & H). exact H.
  - rewrite IH. split; [intros (H & c & H1 & H2); exists c; auto|intros (c & (H & H1) & H2); split; eauto].
Qed.
Lemma adj_app p l1 l2 : adj p (l1 ++ l2) <-> adj p l1 /\ adj (last l1 p) l2.
Proof.
  revert p. induction l1 as [|q l1 IH]; intros p; cbn [app adj].
  - tauto.
  - rewrite IH. rewrite <- (last_step q l1 p). tauto.
Qed.

Lemma made_facts p e : made p e ->
  is_horizontal e = is_hor p /\
  (is_down p = true -> ebot e = snd p /\ etop e = fst p) /\
  (is_down p = false -> ebot e = fst p /\ etop e = snd p) /\
  (is_hor p = false -> good (eslope e)) /\ fst p <> snd p.
Proof.
  intros (H & N). destruct (mk_edge_orient _ _ _ H) as (O1 & O2). unfold is_down, is_hor.
  split; [|split; [|split; [|split; [|exact N]]]].
  - revert H. unfold mk_edge, is_horizontal.
    destruct (Z.ltb_spec (py (fst p)) (py (snd p))) as [L|L]; cbv beta iota zeta.
    + destruct (Z.eqb_spec (py (fst p) - py (snd p)) 0) as [E|E]; [lia|].
      destruct (truediv_cases (px (fst p) - px (snd p)) _ E) as [(f & -> & G)| ->]; [|discriminate].
      cbn. intros Q. injection Q as <-. cbn [eslope]. destruct (Z.eqb_spec (py (fst p)) (py (snd p))); [lia|].
      destruct f; try reflexivity. destruct G as (_ & G). discriminate.
    + destruct (Z.eqb_spec (py (snd p) - py (fst p)) 0) as [E|E].
      * intros Q. injection Q as <-. destruct (Z.eqb_spec (py (fst p)) (py (snd p))); [reflexivity|lia].
      * destruct (truediv_cases (px (snd p) - px (fst p)) _ E) as [(f & -> & G)| ->]; [|discriminate].
        cbn. intros Q. injection Q as <-. cbn [eslope]. destruct (Z.eqb_spec (py (fst p)) (py (snd p))); [lia|].
        destruct f; try reflexivity. destruct G as (_ & G). discriminate.
  - intros L. apply Z.ltb_lt in L. apply O1, L.
  - intros L. apply Z.ltb_ge in L. apply O2, L.
  - intros L. apply Z.eqb_neq in L. revert H. unfold mk_edge.
    destruct (Z.ltb_spec (py (fst p)) (py (snd p))) as [Lt|Lt]; cbv beta iota zeta;
      match goal with |- context [?d =? 0] => destruct (Z.eqb_spec d 0) as [E|E] end; try lia.
    + destruct (truediv_cases (px (fst p) - px (snd p)) _ E) as [(f & -> & G)| ->]; [|discriminate].
      cbn. intros Q. injection Q as <-. exact G.
    + destruct (truediv_cases (px (snd p) - px (fst p)) _ E) as [(f & -> & G)| ->]; [|discriminate].
      cbn. intros Q. injection Q as <-. exact G.
Qed.
Ltac dirs := unfold is_up, is_down, is_hor in *;
  repeat match goal with
  | H : (_ <? _) = true |- _ => apply Z.ltb_lt in H
  | H : (_ <? _) = false |- _ => apply Z.ltb_ge in H
  | H : (_ =? _) = true |- _ => apply Z.eqb_eq in H
  | H : (_ =? _) = false |- _ => apply Z.eqb_neq in H
  end.
Lemma point_neq_y a b : py a <> py b -> point_eqb a b = false.
Proof. intros N. apply point_eqb_neq. intros ->. apply N. reflexivity. Qed.
Lemma dir_cases p : {is_down p = true /\ is_up p = false /\ is_hor p = false} +
  {is_up p = true /\ is_down p = false /\ is_hor p = false} + {is_hor p = true /\ is_up p = false /\ is_down p = false}.
Proof.
  unfold is_up, is_down, is_hor. destruct (Z_dec (py (fst p)) (py (snd p))) as [[H|H]|H].
  - left; left. repeat split; lia.
  - left; right. repeat split; lia.
  - right. repeat split; lia.
Qed.

(** ** Finding a local maximum to start from *)
Definition step (u : bool) (p : dpair) : bool := if is_up p then true else if is_down p then false else u.
Definition after (u : bool) (ps : list dpair) : bool := fold_left step ps u.
Fixpoint peak_index (u : bool) (ps : list dpair) : nat :=
  match ps with
  | [] => O
  | p :: t => if u && is_down p then O else S (peak_index (step u p) t)
  end.
Lemma local_max_scan_spec : forall ps es p e yd i b u,
  Forall2 made ps es -> made p e -> walk (snd p) ps b -> adj p ps ->
  (is_up p = true -> u = true) -> (is_down p = true -> u = false) -> (is_hor p = true -> yd = u) ->
  (yd = true -> u = true) ->
  local_max_scan e (is_horizontal e) yd es i = (i + peak_index u ps)%nat.
Proof.
  induction ps as [|q ps IH]; intros es p e yd i b u F Me W A Hu Hd Hh Hy; inversion F as [|q' n ps' es' Mn F']; subst.
  { cbn. lia. }
  cbn [local_max_scan peak_index]. cbn [walk adj] in W, A. destruct W as (Wq & W). destruct A as (Sq & A).
  destruct (made_facts _ _ Me) as (Ehor & Ed & Eu & _ & Ne). destruct (made_facts _ _ Mn) as (Nhor & Nd & Nu & _ & Nn).
  rewrite Nhor, Ehor. unfold step.
  assert (IH' : forall yd', (yd' = true -> (if is_up q then true else if is_down q then false else u) = true) ->
            (is_hor q = true -> yd' = (if is_up q then true else if is_down q then false else u)) ->
            local_max_scan n (is_horizontal n) yd' es' (S i)
            = (S i + peak_index (if is_up q then true else if is_down q then false else u) ps)%nat).
  { intros yd' H1 H2. apply IH with (p := q) (b := b); auto.
    - intros ->. reflexivity.
    - intros Dq. unfold is_up. destruct (Z.ltb_spec (py (snd q)) (py (fst q))); [dirs; lia|]. rewrite Dq. reflexivity. }
  rewrite Nhor in IH'.
  destruct (dir_cases p) as [[(P1 & P2 & P3)|(P1 & P2 & P3)]|(P1 & P2 & P3)];
  destruct (dir_cases q) as [[(Q1 & Q2 & Q3)|(Q1 & Q2 & Q3)]|(Q1 & Q2 & Q3)];
  rewrite ?P1, ?P2, ?P3, ?Q1, ?Q2, ?Q3 in *; cbn [negb andb orb].
  - (* down down *) destruct (Ed eq_refl) as (_ & ->). destruct (Nd eq_refl) as (_ & ->).
    rewrite (Hd eq_refl) in *. rewrite point_neq_y by (rewrite Wq; dirs; lia). cbn [andb].
    replace (negb yd && true && false && _) with false by (destruct yd; reflexivity).
    rewrite IH'; [cbn [andb]; lia|auto|discriminate].
  - (* down up: a spike is excluded *) destruct (Ed eq_refl) as (_ & ->). destruct (Nu eq_refl) as (_ & ->).
    rewrite (Hd eq_refl) in *.
    rewrite (proj2 (point_eqb_neq (snd q) (fst p))) by (intros Q; apply Sq; rewrite Q; unfold on_line; ring).
    replace (negb yd && true && false && _) with false by (destruct yd; reflexivity).
    rewrite IH'; [cbn [andb]; lia|auto|discriminate].
  - (* down hor *) destruct (Ed eq_refl) as (_ & ->). destruct (Nu eq_refl) as (-> & ->). rewrite (Hd eq_refl) in *.
    rewrite (point_neq_y (fst p)), (point_neq_y (fst p)) by (rewrite ?Wq; dirs; rewrite <- ?Q1, ?Wq; lia).
    cbn [orb andb]. rewrite andb_false_r. rewrite IH'; [cbn [andb]; lia|auto|]. intros _. destruct yd; [symmetry; auto|reflexivity].
  - (* up down: stop *) destruct (Eu eq_refl) as (_ & ->). destruct (Nd eq_refl) as (_ & ->). rewrite (Hu eq_refl), Wq, point_eqb_refl.
    cbn. lia.
  - (* up up *) destruct (Eu eq_refl) as (_ & ->). destruct (Nu eq_refl) as (_ & ->).
    rewrite point_neq_y by (rewrite <- Wq; dirs; lia).
    replace (negb yd && true && false && _) with false by (destruct yd; reflexivity).
    rewrite andb_false_r. rewrite IH'; [cbn [andb]; lia|auto|discriminate].
  - (* up hor *) destruct (Eu eq_refl) as (_ & ->). destruct (Nu eq_refl) as (-> & ->). rewrite (Hu eq_refl) in *.
    rewrite Wq, point_eqb_refl. rewrite orb_true_r. destruct yd; cbn [negb andb]; (rewrite IH'; [cbn [andb]; lia|auto|auto]).
  - (* hor down *) destruct (Eu eq_refl) as (-> & ->). destruct (Nd eq_refl) as (_ & ->). specialize (Hh eq_refl). subst u.
    rewrite Wq, point_eqb_refl, orb_true_r. destruct yd; cbn [andb]; [lia|]. rewrite IH'; [cbn [andb]; lia|auto|discriminate].
  - (* hor up *) destruct (Eu eq_refl) as (-> & ->). destruct (Nu eq_refl) as (_ & ->). specialize (Hh eq_refl). subst u.
    rewrite (point_neq_y (snd q)), (point_neq_y (snd q)) by (dirs; rewrite <- ?P1; rewrite ?P1, <- ?Wq; lia).
    cbn [orb]. rewrite ?andb_false_r. cbn [andb]. rewrite ?andb_false_r. rewrite IH'; [cbn [andb]; lia|auto|discriminate].
  - (* hor hor *) specialize (Hh eq_refl). subst u. rewrite andb_false_r. cbn [andb]. rewrite andb_false_r. rewrite IH'; [cbn [andb]; lia|auto|auto].
Qed.

Lemma after_app u l1 l2 : after u (l1 ++ l2) = after (after u l1) l2.
Proof. apply fold_left_app. Qed.
Lemma after_mono l : after false l = true -> forall u, after u l = true.
Proof.
  intros H u. destruct u; [|exact H]. revert H. unfold after. generalize false at 1. 
  assert (G : forall l a b, (a = true -> b = true) -> fold_left step l a = true -> fold_left step l b = true).
  { clear. induction l as [|p l IH]; intros a b I H; cbn in *; [auto|]. eapply IH; [|exact H].
    unfold step. destruct (is_up p); [auto|]. destruct (is_down p); auto. }
  intros b H. eapply G; [|exact H]. auto.
Qed.
Lemma after_last u l q : is_hor q = false -> after u (l ++ [q]) = is_up q.
Proof.
  intros N. rewrite after_app. cbn. unfold step. destruct (dir_cases q) as [[(P1 & P2 & P3)|(P1 & P2 & P3)]|(P1 & P2 & P3)];
    rewrite ?P1, ?P2; try reflexivity. congruence.
Qed.
Lemma peak_index_spec u ps : let k := peak_index u ps in
  (k < length ps)%nat /\ (exists q t, skipn k ps = q :: t /\ is_down q = true) /\ after u (firstn k ps) = true \/
  k = length ps /\ exists l1 l2, ps = l1 ++ l2 /\ (u = true -> l1 = []) /\
     (forall q, In q l1 -> is_up q = false) /\ (forall q, In q l2 -> is_down q = false).
Proof.
  cbv zeta. revert u. induction ps as [|p ps IH]; intros u; cbn [peak_index].
  - right. split; [reflexivity|]. exists [], []. repeat split; auto; intros q [].
  - destruct (u && is_down p) eqn:E.
    + apply andb_true_iff in E. destruct E as (-> & E). left. cbn. split; [lia|]. split; [|reflexivity]. eauto.
    + destruct (IH (step u p)) as [(H1 & H2 & H3)|(H1 & l1 & l2 & -> & H2 & H3 & H4)].
      * left. cbn [length skipn firstn]. split; [lia|]. split; [exact H2|exact H3].
      * right. cbn [length]. split; [lia|]. unfold step in H2. destruct u; cbn [andb] in E.
        -- assert (l1 = []) by (apply H2; destruct (is_up p); [reflexivity|]; rewrite E; reflexivity). subst l1.
           exists [], (p :: l2). repeat split; auto; intros q []; subst; auto.
        -- destruct (is_up p) eqn:Eu.
           ++ rewrite (H2 eq_refl). exists [], (p :: l2). repeat split; auto; intros q []; subst; auto.
              unfold is_up, is_down in *. lia.
           ++ exists (p :: l1), l2. repeat split; auto; [discriminate|]. intros q []; subst; auto.
Qed.
(** a closed walk with no horizontal neighbours goes up and down *)
Lemma walk_flat : forall ps a b, walk a ps b -> (forall q, In q ps -> is_down q = false) ->
  py b <= py a /\ (py b = py a -> forall q, In q ps -> is_hor q = true).
Proof.
  induction ps as [|p ps IH]; intros a b W H; cbn in W.
  - subst b. split; [lia|]. intros _ q [].
  - destruct W as (E & W). destruct (IH _ _ W) as (L & Q); [intros q I; apply H; right; exact I|].
    pose proof (H p (or_introl eq_refl)) as D. unfold is_down in D. apply Z.ltb_ge in D. rewrite E in D.
    split; [lia|]. intros Eb q [<-|I].
    + unfold is_hor. apply Z.eqb_eq. rewrite E. lia.
    + apply Q; [lia|exact I].
Qed.
Lemma walk_flat' : forall ps a b, walk a ps b -> (forall q, In q ps -> is_up q = false) ->
  py a <= py b /\ (py b = py a -> forall q, In q ps -> is_hor q = true).
Proof.
  induction ps as [|p ps IH]; intros a b W H; cbn in W.
  - subst b. split; [lia|]. intros _ q [].
  - destruct W as (E & W). destruct (IH _ _ W) as (L & Q); [intros q I; apply H; right; exact I|].
    pose proof (H p (or_introl eq_refl)) as D. unfold is_up in D. apply Z.ltb_ge in D. rewrite E in D.
    split; [lia|]. intros Eb q [<-|I].
    + unfold is_hor. apply Z.eqb_eq. rewrite E. lia.
    + apply Q; [lia|exact I].
Qed.
Lemma sharp_hor p q : fst q = snd p -> is_hor p = true -> is_hor q = true -> sharp p q -> False.
Proof.
  unfold is_hor, sharp, on_line. intros E Hp Hq S. apply Z.eqb_eq in Hp, Hq. apply S. rewrite E in Hq.
  rewrite <- Hq, <- Hp. ring.
Qed.
Lemma last_nonempty {A} (l : list A) d d' : l <> [] -> last l d = last l d'.
Proof. destruct l as [|x l]; [contradiction|]. intros _. apply last_cons_any. Qed.

(** the rotated ring starts going down and ends going up *)
Definition down_first (ps : list dpair) : Prop := exists p t, ps = p :: t /\ is_down p = true /\ after false ps = true.
Lemma peak_rotation ps v d : walk v ps v -> adj (last ps d) ps -> (2 <= length ps)%nat ->
  let k := peak_index (is_up (last ps d)) ps in
  (k <= length ps)%nat /\ down_first (skipn k ps ++ firstn k ps).
Proof.
  intros W A L. cbv zeta. set (q := last ps d) in *.
  assert (Lst : exists ps', ps = ps' ++ [q]).
  { destruct (list_rev_ind_case ps) as [->|(ps' & z & E)]; [cbn in L; lia|].
    exists ps'. unfold q. rewrite E, last_last. reflexivity. }
  destruct Lst as (ps' & Eq). clearbody q.
  destruct (peak_index_spec (is_up q) ps) as [(H1 & (x & t & H2 & H3) & H4)|(H1 & l1 & l2 & E & H2 & H3 & H4)];
    (split; [lia|]).
  - exists x, (t ++ firstn (peak_index (is_up q) ps) ps). rewrite H2. cbn [app]. split; [reflexivity|]. split; [exact H3|].
    change (x :: t ++ firstn (peak_index (is_up q) ps) ps) with ((x :: t) ++ firstn (peak_index (is_up q) ps) ps).
    rewrite after_app. destruct (is_hor q) eqn:Hq.
    + assert (is_up q = false) as Uq by (dirs; apply Z.ltb_ge; lia). rewrite Uq in *. apply after_mono. exact H4.
    + assert (Lx : exists t', x :: t = t' ++ [q]).
      { rewrite <- H2. assert (En : skipn (peak_index (is_up q) ps) ps = skipn (peak_index (is_up q) ps) ps' ++ [q]).
        { rewrite Eq at 2. rewrite skipn_app. rewrite Eq, app_length in H1. cbn in H1.
          replace (peak_index (is_up q) ps - length ps')%nat with 0%nat; [reflexivity|].
          rewrite <- Eq in H1. lia. }
        eauto. }
      destruct Lx as (t' & ->). rewrite (after_last false t' q Hq). exact H4.
  - rewrite H1, skipn_all, firstn_all. cbn [app].
    assert (Ex : exists a b, ps = a :: b) by (destruct ps; [cbn in L; lia|eauto]). destruct Ex as (p & t & Ep).
    assert (Nh : (forall x, In x ps -> is_hor x = true) -> False).
    { intros H. destruct t as [|p2 t]; [rewrite Ep in L; cbn in L; lia|]. rewrite Ep in A, W, H.
      cbn [adj walk] in A, W. destruct A as (_ & S & _). destruct W as (_ & E1 & _).
      apply (sharp_hor p p2); auto; apply H; cbn; auto. }
    assert (Dn : exists x, In x ps /\ is_down x = true).
    { destruct (existsb is_down ps) eqn:Eb; [apply existsb_exists in Eb; exact Eb|]. exfalso. apply Nh.
      destruct (walk_flat ps v v W) as (_ & H); [|apply H; reflexivity].
      intros x I. destruct (is_down x) eqn:Dx; [|reflexivity].
      assert (existsb is_down ps = true) by (apply existsb_exists; eauto). congruence. }
    assert (Up : exists x, In x ps /\ is_up x = true).
    { destruct (existsb is_up ps) eqn:Eb; [apply existsb_exists in Eb; exact Eb|]. exfalso. apply Nh.
      destruct (walk_flat' ps v v W) as (_ & H); [|apply H; reflexivity].
      intros x I. destruct (is_up x) eqn:Dx; [|reflexivity].
      assert (existsb is_up ps = true) by (apply existsb_exists; eauto). congruence. }
    destruct Dn as (xd & Id & Hd). destruct Up as (xu & Iu & Hu). rewrite E in Id, Iu. apply in_app_or in Id, Iu.
    destruct Id as [Id|Id]; [|rewrite (H4 _ Id) in Hd; discriminate].
    destruct Iu as [Iu|Iu]; [rewrite (H3 _ Iu) in Hu; discriminate|].
    assert (Uq : is_up q = false).
    { destruct (is_up q); [|reflexivity]. rewrite (H2 eq_refl) in Id. destruct Id. }
    assert (Iq : In q l2).
    { destruct (list_rev_ind_case l2) as [->|(l2' & z & E2)]; [destruct Iu|].
      assert (z = q). { rewrite E, E2, app_assoc in Eq. apply app_inj_tail in Eq. apply Eq. }
      subst z. rewrite E2. apply in_or_app. right. left. reflexivity. }
    assert (Hq : is_hor q = true) by (specialize (H4 q Iq); dirs; apply Z.eqb_eq; lia).
    exists p, t. split; [exact Ep|]. split.
    + destruct l1 as [|p' l1]; [destruct Id|]. assert (p' = p) by (rewrite E in Ep; cbn in Ep; congruence). subst p'.
      specialize (H3 p (or_introl eq_refl)).
      destruct (dir_cases p) as [[(P1 & P2 & P3)|(P1 & P2 & P3)]|(P1 & P2 & P3)]; [exact P1|congruence|].
      exfalso. rewrite Ep in A, W. cbn [adj walk] in A, W. destruct A as (S & _). destruct W as (E1 & W).
      apply (sharp_hor q p); auto. rewrite E1. clear -Eq W Ep E1. rewrite Ep in Eq.
      assert (W' : walk v (ps' ++ [q]) v) by (rewrite <- Eq; cbn; auto).
      apply walk_app in W'. destruct W' as (c & _ & W'). cbn in W'. symmetry. apply W'.
    + rewrite E, after_app. clear - Iu Hu H4. revert Iu. generalize (after false l1). induction l2 as [|x l2 IH]; intros u I; [destruct I|].
      cbn. destruct I as [->|I].
      * unfold step. rewrite Hu. clear IH. assert (H : forall q, In q l2 -> is_down q = false) by (intros q I; apply H4; right; exact I).
        clear -H. induction l2 as [|y l2 IH]; [reflexivity|]. cbn.
        rewrite (H y (or_introl eq_refl)). destruct (is_up y); apply IH; intros q I; apply H; right; exact I.
      * apply IH; [|exact I]. intros q Iq. apply H4. right. exact Iq.
Qed.

Lemma Forall2_skipn {A B} (R : A -> B -> Prop) l l' k : Forall2 R l l' -> Forall2 R (skipn k l) (skipn k l').
Proof. intros H. revert k. induction H as [|a b l l' H HF IH]; intros k; destruct k; cbn; auto. Qed.
Lemma Forall2_firstn {A B} (R : A -> B -> Prop) l l' k : Forall2 R l l' -> Forall2 R (firstn k l) (firstn k l').
Proof. intros H. revert k. induction H as [|a b l l' H HF IH]; intros k; destruct k; cbn; auto. Qed.
Lemma Forall2_len {A B} (R : A -> B -> Prop) l l' : Forall2 R l l' -> length l = length l'.
Proof. induction 1; cbn; congruence. Qed.
Lemma rotate_skip {A} (l : list A) k : (k <= length l)%nat ->
  rotate_sequence l (Z.of_nat k) = skipn k l ++ firstn k l.
Proof.
  intros H. unfold rotate_sequence. rewrite Z.abs_eq by lia.
  destruct (Z.ltb_spec 0 (Z.of_nat k)) as [A1|A1]; cbn [andb].
  - destruct (Z.ltb_spec (Z.of_nat k) (Z.of_nat (length l))) as [B|B].
    + destruct (Z.ltb_spec (Z.of_nat k) 0); [lia|]. rewrite Nat2Z.id. reflexivity.
    + assert (k = length l) by lia. subst k. rewrite skipn_all, firstn_all. reflexivity.
  - assert (k = 0)%nat by lia. subst k. cbn. rewrite app_nil_r. reflexivity.
Qed.
Record ring_walk (v : point) (ps : list dpair) (es : list edge) : Prop := {
  rw_made : Forall2 made ps es;
  rw_walk : walk v ps v;
  rw_adj : forall d, adj (last ps d) ps;
  rw_len : (3 <= length ps)%nat
}.
Lemma start_spec v ps es : ring_walk v ps es ->
  exists w ps', ring_walk w ps' (start_on_local_maximum es) /\ down_first ps' /\
    Permutation es (start_on_local_maximum es).
Proof.
  intros [F W A L]. unfold start_on_local_maximum. rewrite <- (Forall2_len _ _ _ F).
  replace (2 <? length ps)%nat with true by (symmetry; apply Nat.ltb_lt; lia).
  set (d := (v, v) : dpair).
  assert (Ex : exists ps' q es' e, ps = ps' ++ [q] /\ es = es' ++ [e] /\ made q e).
  { destruct (list_rev_ind_case ps) as [->|(ps' & q & ->)]; [cbn in L; lia|].
    apply Forall2_app_inv_l in F. destruct F as (es' & e' & F1 & F2 & ->).
    inversion F2 as [|x y l1 l2 M F3]; subst. inversion F3; subst. eauto 10. }
  destruct Ex as (ps0 & q & es0 & e & Ep & Ee & Mq).
  assert (Lq : last ps d = q) by (rewrite Ep; apply last_last).
  assert (Wq : snd q = v).
  { rewrite Ep in W. apply walk_app in W. destruct W as (c & _ & W). cbn in W. apply W. }
  assert (K : local_maximum_index es = peak_index (is_up q) ps).
  { unfold local_maximum_index. rewrite Ee at 1. rewrite last_opt_app.
    rewrite (local_max_scan_spec ps es q e false 0 v (is_up q)); auto.
    - rewrite Wq. exact W.
    - rewrite <- Lq. apply A.
    - intros D. dirs. apply Z.ltb_ge. lia.
    - intros D. symmetry. dirs. apply Z.ltb_ge. lia.
    - discriminate. }
  destruct (peak_rotation ps v d W (A d) ltac:(lia)) as (Hk & Hd). rewrite Lq, <- K in Hk, Hd.
  set (k := local_maximum_index es) in *. clearbody k.
  rewrite (rotate_skip es k) by (rewrite <- (Forall2_len _ _ _ F); exact Hk).
  rewrite <- (firstn_skipn k ps) in W. apply walk_app in W. destruct W as (w & W1 & W2).
  exists w, (skipn k ps ++ firstn k ps). split; [|split; [exact Hd|]].
  - constructor.
    + apply Forall2_app; [apply Forall2_skipn|apply Forall2_firstn]; exact F.
    + apply walk_app. exists v. auto.
    + intros d'. specialize (A d'). 
      destruct (firstn k ps) as [|x f] eqn:Ef.
      * rewrite app_nil_r. assert (E : skipn k ps = ps) by (rewrite <- (firstn_skipn k ps) at 2; rewrite Ef; reflexivity).
        rewrite E. exact A.
      * destruct (skipn k ps) as [|y s] eqn:Es.
        -- cbn [app]. assert (E : x :: f = ps) by (rewrite <- (firstn_skipn k ps), Ef, Es, app_nil_r; reflexivity).
           rewrite E. exact A.
        -- rewrite <- (firstn_skipn k ps), Ef, Es in A.
           rewrite last_app_ne in A |- * by discriminate.
           apply adj_app in A. apply adj_app. destruct A as (A1 & A2).
           rewrite (last_nonempty (x :: f) _ d') in A2 by discriminate.
           rewrite (last_nonempty (y :: s) _ d') by discriminate. auto.
    + rewrite app_length, skipn_length, firstn_length. lia.
  - rewrite <- (firstn_skipn k es) at 1. apply Permutation_app_comm.
Qed.

(** ** Runs *)
Lemma min_scan_spec : forall ps es p e yi i b,
  Forall2 made ps es -> made p e -> walk (snd p) ps b ->
  is_up p = false -> (is_hor p = true -> yi = true) ->
  min_scan (reverse_if_horizontal e) (is_horizontal e) yi es i = (i + find_if is_up ps)%nat.
Proof.
  induction ps as [|q ps IH]; intros es p e yi i b F Me W Up Hy; inversion F as [|q' n ps' es' Mn F']; subst.
  { cbn. lia. }
  cbn [min_scan find_if]. cbn [walk] in W. destruct W as (Wq & W).
  destruct (made_facts _ _ Me) as (Ehor & Ed & Eu & _ & Ne). destruct (made_facts _ _ Mn) as (Nhor & Nd & Nu & _ & Nn).
  assert (IH' : is_up q = false -> forall yi', (is_hor q = true -> yi' = true) ->
            min_scan (reverse_if_horizontal n) (is_horizontal n) yi' es' (S i) = (S i + find_if is_up ps)%nat).
  { intros Uq yi' H1. apply IH with (p := q) (b := b); auto. }
  rewrite Nhor in *. rewrite Ehor in *.
  assert (Re : is_hor p = true -> ebot (reverse_if_horizontal e) = snd p /\ etop (reverse_if_horizontal e) = fst p).
  { intros H. unfold reverse_if_horizontal. rewrite Ehor, H. unfold reverse_horizontal. cbn.
    destruct Eu as (-> & ->); [dirs; apply Z.ltb_ge; lia|]. apply Z.eqb_eq in H.
    split; apply point_ext; cbn; auto. }
  assert (Rn : is_hor p = false -> reverse_if_horizontal e = e) by (intros H; unfold reverse_if_horizontal; rewrite Ehor, H; reflexivity).
  destruct (dir_cases p) as [[(P1 & P2 & P3)|(P1 & P2 & P3)]|(P1 & P2 & P3)]; [|congruence|];
  destruct (dir_cases q) as [[(Q1 & Q2 & Q3)|(Q1 & Q2 & Q3)]|(Q1 & Q2 & Q3)];
  rewrite ?P1, ?P2, ?P3, ?Q1, ?Q2, ?Q3 in *; cbn [negb andb orb].
  - (* down down *) rewrite (Rn eq_refl). destruct (Ed eq_refl) as (-> & _). destruct (Nd eq_refl) as (-> & _).
    rewrite point_neq_y by (rewrite <- Wq; dirs; lia). rewrite andb_false_r. cbn [andb]. rewrite (IH' eq_refl); [lia|discriminate].
  - (* down up *) rewrite (Rn eq_refl). destruct (Ed eq_refl) as (-> & _). destruct (Nu eq_refl) as (-> & _).
    rewrite Wq, point_eqb_refl. lia.
  - (* down hor *) rewrite (Rn eq_refl). destruct (Ed eq_refl) as (-> & _). destruct (Nu eq_refl) as (-> & ->).
    rewrite Wq, point_eqb_refl, orb_true_r. destruct yi; cbn [negb andb]; (rewrite (IH' eq_refl); [lia|auto]).
  - (* hor down *) destruct (Re eq_refl) as (-> & ->). destruct (Nd eq_refl) as (-> & _). rewrite (Hy eq_refl). cbn [andb].
    rewrite (point_neq_y (snd q)), (point_neq_y (snd q)) by (dirs; rewrite ?P1, <- ?Wq; lia). cbn [orb].
    rewrite (IH' eq_refl); [lia|discriminate].
  - (* hor up *) destruct (Re eq_refl) as (-> & ->). destruct (Nu eq_refl) as (-> & _). rewrite (Hy eq_refl). cbn [andb].
    rewrite Wq, point_eqb_refl. cbn [orb]. lia.
  - (* hor hor *) rewrite (Hy eq_refl). cbn [negb andb]. rewrite (IH' eq_refl); [lia|auto].
Qed.
Lemma max_scan_spec : forall ps es p e yd i b,
  Forall2 made ps es -> made p e -> walk (snd p) ps b ->
  is_down p = false -> (is_hor p = true -> yd = true) ->
  max_scan e (is_horizontal e) yd es i = (i + find_if is_down ps)%nat.
Proof.
  induction ps as [|q ps IH]; intros es p e yd i b F Me W Up Hy; inversion F as [|q' n ps' es' Mn F']; subst.
  { cbn. lia. }
  cbn [max_scan find_if]. cbn [walk] in W. destruct W as (Wq & W).
  destruct (made_facts _ _ Me) as (Ehor & _ & Eu & _ & Ne). destruct (made_facts _ _ Mn) as (Nhor & Nd & Nu & _ & Nn).
  specialize (Eu Up). destruct Eu as (Eb & Et).
  assert (IH' : is_down q = false -> forall yd', (is_hor q = true -> yd' = true) ->
            max_scan n (is_horizontal n) yd' es' (S i) = (S i + find_if is_down ps)%nat).
  { intros Uq yd' H1. apply IH with (p := q) (b := b); auto. }
  rewrite Nhor in *. rewrite Ehor in *. rewrite Eb, Et.
  destruct (dir_cases p) as [[(P1 & P2 & P3)|(P1 & P2 & P3)]|(P1 & P2 & P3)]; [congruence| |];
  destruct (dir_cases q) as [[(Q1 & Q2 & Q3)|(Q1 & Q2 & Q3)]|(Q1 & Q2 & Q3)];
  rewrite ?P1, ?P2, ?P3, ?Q1, ?Q2, ?Q3 in *; cbn [negb andb orb].
  - (* up down *) destruct (Nd eq_refl) as (_ & ->). rewrite Wq, point_eqb_refl. lia.
  - (* up up *) destruct (Nu eq_refl) as (_ & ->). rewrite point_neq_y by (rewrite <- Wq; dirs; lia).
    rewrite andb_false_r. cbn [andb]. rewrite (IH' eq_refl); [lia|discriminate].
  - (* up hor *) destruct (Nu eq_refl) as (-> & ->). rewrite Wq, point_eqb_refl, orb_true_r.
    destruct yd; cbn [negb andb]; (rewrite (IH' eq_refl); [lia|auto]).
  - (* hor down *) destruct (Nd eq_refl) as (_ & ->). rewrite (Hy eq_refl), Wq, point_eqb_refl, orb_true_r. cbn [andb]. lia.
  - (* hor up *) destruct (Nu eq_refl) as (_ & ->). rewrite (Hy eq_refl). cbn [andb].
    rewrite (point_neq_y (snd q)), (point_neq_y (snd q)) by (dirs; rewrite ?P1, <- ?Wq; lia). cbn [orb].
    rewrite (IH' eq_refl); [lia|discriminate].
  - (* hor hor *) rewrite (Hy eq_refl). cbn [negb andb]. rewrite (IH' eq_refl); [lia|auto].
Qed.

(** ** Chains of edges *)
Lemma asc_app a l1 l2 b : ascends a (l1 ++ l2) b <-> exists c, ascends a l1 c /\ ascends c l2 b.
Proof.
  revert a. induction l1 as [|e l1 IH]; intros a; cbn.
  - split; [intros H; exists a; auto|]. intros (c & -> & H). exact H.
  - rewrite IH. split.
    + intros (H1 & H2 & c & H3 & H4). exists c. auto.
    + intros (c & (H1 & H2 & H3) & H4). repeat split; auto. exists c. auto.
Qed.
Lemma up_asc : forall ps es a b, Forall2 made ps es -> walk a ps b -> (forall q, In q ps -> is_down q = false) -> ascends a es b.
Proof.
  induction ps as [|p ps IH]; intros es a b F W H; inversion F as [|p' e ps' es' M F']; subst; cbn in *; [exact W|].
  destruct W as (W1 & W2). destruct (made_facts _ _ M) as (_ & _ & Eu & _). destruct (Eu (H p (or_introl eq_refl))) as (-> & ->).
  split; [exact W1|]. split; [specialize (H p (or_introl eq_refl)); dirs; lia|]. apply IH; auto.
Qed.
Lemma down_reversed p e : made p e -> is_up p = false ->
  ebot (reverse_if_horizontal e) = snd p /\ etop (reverse_if_horizontal e) = fst p.
Proof.
  intros M U. destruct (made_facts _ _ M) as (Eh & Ed & Eu & _). unfold reverse_if_horizontal. rewrite Eh.
  destruct (dir_cases p) as [[(P1 & P2 & P3)|(P1 & P2 & P3)]|(P1 & P2 & P3)]; [|congruence|].
  - rewrite P3. apply Ed, P1.
  - rewrite P1. destruct (Eu P3) as (E1 & E2). unfold reverse_horizontal. cbn. rewrite E1, E2. apply Z.eqb_eq in P1.
    split; apply point_ext; cbn; auto.
Qed.
Lemma down_asc : forall ps es a b, Forall2 made ps es -> walk a ps b -> (forall q, In q ps -> is_up q = false) ->
  ascends b (rev (map reverse_if_horizontal es)) a.
Proof.
  induction ps as [|p ps IH]; intros es a b F W H; inversion F as [|p' e ps' es' M F']; subst; cbn in *; [auto|].
  destruct W as (W1 & W2). apply asc_app. exists (snd p). split; [apply IH; auto|].
  destruct (down_reversed p e M (H p (or_introl eq_refl))) as (E1 & E2). cbn. rewrite E1, E2.
  specialize (H p (or_introl eq_refl)). dirs. split; [reflexivity|]. split; [lia|exact W1].
Qed.
Lemma fix_from_asc : forall l e a b, ascends a (e :: l) b -> fix_from e l = l.
Proof.
  induction l as [|n l IH]; intros e a b H; [reflexivity|]. cbn in H. destruct H as (H1 & H2 & H3 & H4 & H5).
  cbn [fix_from]. rewrite H3, point_eqb_refl. cbn [negb]. rewrite andb_false_r. f_equal.
  apply (IH n (ebot n) b). cbn. auto.
Qed.
Lemma fix_asc l a b : ascends a l b -> fix_horizontals l = l.
Proof.
  intros H. destruct l as [|e [|n l]]; [reflexivity..|]. unfold fix_horizontals.
  pose proof H as (H1 & H2 & H3 & _). rewrite H3, point_eqb_refl. cbn [negb]. rewrite andb_false_r. f_equal.
  apply (fix_from_asc (n :: l) e a b H).
Qed.

(** ** One local minimum *)
Lemma after_no_up l : (forall q, In q l -> is_up q = false) -> after false l = false.
Proof.
  unfold after. induction l as [|p l IH]; intros H; [reflexivity|].
  change (fold_left step l (step false p) = false).
  replace (step false p) with false by (unfold step; rewrite (H p (or_introl eq_refl)); destruct (is_down p); reflexivity).
  apply IH; intros q I; apply H; right; exact I.
Qed.
Lemma find_if_split {A} (f : A -> bool) l :
  (forall x, In x (firstn (find_if f l) l) -> f x = false) /\
  (skipn (find_if f l) l = [] /\ (forall x, In x l -> f x = false) \/
   exists x t, skipn (find_if f l) l = x :: t /\ f x = true).
Proof.
  induction l as [|a l (IH1 & IH2)]; cbn.
  - split; [intros x []|]. left. split; [reflexivity|intros x []].
  - destruct (f a) eqn:E; cbn.
    + split; [intros x []|]. right. eauto.
    + split; [intros x [<-|I]; auto|]. destruct IH2 as [(H1 & H2)|H]; [left|right; exact H].
      split; [exact H1|]. intros x [<-|I]; auto.
Qed.
Definition good_spec (m : minimum_spec) (a b : point) : Prop :=
  exists c, ms_min m <> [] /\ ms_max m <> [] /\ ascends c (ms_min m) a /\ ascends c (ms_max m) b /\ ms_y m = py c /\
    let l := if ms_min_left m then ms_min m else ms_max m in
    let r := if ms_min_left m then ms_max m else ms_min m in
    opens_left_of l r /\ ~ starts_flat l /\ (ms_hor m = true <-> starts_flat r) /\
    flats_apart (ms_min m) /\ flats_apart (ms_max m) /\ ends_sloped (ms_min m).
Lemma undirected_reverse e : py (etop e) = py (ebot e) -> undirected (reverse_horizontal e) = undirected e.
Proof.
  intros H. unfold undirected, reverse_horizontal. cbn. rewrite H, Z.eqb_refl. cbn [andb].
  destruct e as [[tx ty] [bx by_] s]. cbn in *. subst ty.
  destruct (Z.ltb_spec bx tx), (Z.ltb_spec tx bx); try lia; try reflexivity.
  assert (bx = tx) by lia. subst. reflexivity.
Qed.
Lemma made_flat p e : made p e -> (py (etop e) = py (ebot e) <-> is_hor p = true).
Proof.
  intros M. destruct (made_facts _ _ M) as (_ & Ed & Eu & _). unfold is_hor. rewrite Z.eqb_eq.
  destruct (is_down p) eqn:D.
  - destruct (Ed eq_refl) as (-> & ->). tauto.
  - destruct (Eu eq_refl) as (-> & ->). split; congruence.
Qed.
Lemma undirected_rih p e : made p e -> undirected (reverse_if_horizontal e) = undirected e.
Proof.
  intros M. unfold reverse_if_horizontal. destruct (made_facts _ _ M) as (Eh & _). rewrite Eh.
  destruct (is_hor p) eqn:H; [|reflexivity]. apply undirected_reverse. apply (made_flat p e M). exact H.
Qed.
Lemma undirected_rev_map ps es : Forall2 made ps es ->
  Permutation (map undirected (rev (map reverse_if_horizontal es))) (map undirected es).
Proof.
  intros F. rewrite map_rev. rewrite <- Permutation_rev. induction F as [|p e ps es M F IH]; [reflexivity|].
  cbn. rewrite (undirected_rih p e M). constructor. exact IH.
Qed.
Lemma slope_total f g : good f -> good g -> num_leb (NF f) (NF g) = false -> num_leb (NF g) (NF f) = true.
Proof.
  intros Gf Gg. rewrite !num_leb_spec by assumption. cbn [numval].
  unfold Rle_bool. destruct (Flocq.Core.Raux.Rcompare_spec (val f) (val g)); try discriminate.
  intros _. destruct (Flocq.Core.Raux.Rcompare_spec (val g) (val f)) as [L|L|L]; auto. exfalso.
  exact (Rlt_asym _ _ L H).
Qed.
Lemma Forall2_one {A B} (R : A -> B -> Prop) x l : Forall2 R [x] l -> exists y, l = [y] /\ R x y.
Proof. intros H. inversion H as [|? y ? l0 H1 H2]; subst. inversion H2; subst. eauto. Qed.
Lemma move_one h l other : is_horizontal h = true -> (forall n t, l = n :: t -> is_horizontal n = false) -> l <> [] -> other <> [] ->
  move_horizontals (h :: l) other = (l, reverse_horizontal h :: other).
Proof.
  intros Hh Hl Nl No. unfold move_horizontals, leading_horizontals. destruct l as [|n t]; [contradiction|].
  specialize (Hl n t eq_refl). cbn [find_if]. rewrite Hh, Hl. cbn [negb Nat.eqb firstn map rev app skipn].
  f_equal. unfold rotate_sequence. rewrite app_length. cbn [length].
  change (- Z.of_nat 1) with (-1). change (Z.abs (-1)) with 1. cbn [Z.ltb Z.compare andb].
  destruct (Z.ltb_spec 1 (Z.of_nat (length other + 1))) as [L|L].
  - replace (Z.to_nat (Z.of_nat (length other + 1) + -1)) with (length other) by lia.
    rewrite skipn_app, skipn_all, Nat.sub_diag, firstn_app, firstn_all, Nat.sub_diag. cbn. rewrite app_nil_r. reflexivity.
  - destruct other; [contradiction|cbn in L; lia].
Qed.
Lemma move_none n t other : is_horizontal n = false -> move_horizontals (n :: t) other = (n :: t, other).
Proof. intros H. unfold move_horizontals, leading_horizontals. cbn [find_if]. rewrite H. reflexivity. Qed.
Lemma adj_firstn p l k : adj p l -> adj p (firstn k l).
Proof. intros H. rewrite <- (firstn_skipn k l) in H. apply adj_app in H. apply H. Qed.
Lemma adj_skipn p l k : adj p l -> exists q, adj q (skipn k l).
Proof. intros H. rewrite <- (firstn_skipn k l) in H. apply adj_app in H. destruct H. eauto. Qed.
Lemma sloped_head n t : py (etop n) <> py (ebot n) -> first_sloped (n :: t) = Some n.
Proof. intros H. unfold first_sloped. cbn. apply Z.eqb_neq in H. rewrite H. reflexivity. Qed.
Lemma flat_head h n t : py (etop h) = py (ebot h) -> py (etop n) <> py (ebot n) -> first_sloped (h :: n :: t) = Some n.
Proof. intros H N. unfold first_sloped. cbn. apply Z.eqb_eq in H. apply Z.eqb_neq in N. rewrite H, N. reflexivity. Qed.
Lemma not_starts_flat n t : py (etop n) <> py (ebot n) -> ~ starts_flat (n :: t).
Proof. intros N (e & t' & E & H). injection E as <- <-. contradiction. Qed.

Lemma apart_cons e f l : (py (etop e) = py (ebot e) -> py (etop f) = py (ebot f) -> False) ->
  flats_apart (f :: l) -> flats_apart (e :: f :: l).
Proof.
  intros H A [|x l1] e' f' l2 E; [injection E as <- <- <-; exact H|]. injection E as <- E. exact (A l1 e' f' l2 E).
Qed.
Lemma apart_tail e l : flats_apart (e :: l) -> flats_apart l.
Proof. intros A l1 e' f' l2 ->. exact (A (e :: l1) e' f' l2 eq_refl). Qed.
Lemma apart_one e : flats_apart [e].
Proof. intros [|x l1] e' f' l2 E; [discriminate|]. injection E as _ E. destruct l1; discriminate. Qed.
Lemma apart_made : forall ps es p e b, made p e -> Forall2 made ps es -> walk (snd p) ps b -> adj p ps -> flats_apart (e :: es).
Proof.
  induction ps as [|q ps IH]; intros es p e b M F W A; inversion F as [|? f ? es' Mq Fq]; subst.
  - apply apart_one.
  - cbn in W, A. destruct W as (Eq & W). destruct A as (Sh & A). apply apart_cons; [|eapply IH; eassumption].
    intros H1 H2. apply (made_flat _ _ M) in H1. apply (made_flat _ _ Mq) in H2. apply (sharp_hor p q); assumption.
Qed.
Lemma apart_rev l : flats_apart l -> flats_apart (rev l).
Proof.
  intros A l1 e f l2 E H1 H2. apply (f_equal (@rev _)) in E. rewrite rev_involutive, rev_app_distr in E. cbn in E.
  rewrite <- !app_assoc in E. cbn in E. exact (A _ _ _ _ E H2 H1).
Qed.
Lemma apart_map (g : edge -> edge) l : (forall e, py (etop (g e)) = py (ebot (g e)) -> py (etop e) = py (ebot e)) ->
  flats_apart l -> flats_apart (map g l).
Proof.
  intros G A l1 e f l2 E H1 H2. apply map_eq_app in E. destruct E as (m1 & m2 & -> & _ & E).
  destruct m2 as [|e0 [|f0 m2]]; try discriminate. cbn in E. injection E as <- <- _.
  exact (A m1 e0 f0 m2 eq_refl (G _ H1) (G _ H2)).
Qed.
Lemma rih_flat e : py (etop (reverse_if_horizontal e)) = py (ebot (reverse_if_horizontal e)) -> py (etop e) = py (ebot e).
Proof. unfold reverse_if_horizontal. destruct (is_horizontal e); [|auto]. cbn. auto. Qed.
Lemma ends_tail e l : ends_sloped (e :: l) -> ends_sloped l.
Proof. intros H l1 x ->. apply (H (e :: l1) x). reflexivity. Qed.
Lemma one_minimum_spec a ps es z d :
  Forall2 made ps es -> walk a ps z -> adj d ps -> down_first ps ->
  exists m b rest erest used,
    one_minimum es = Ok (m, erest) /\ Forall2 made rest erest /\ walk b rest z /\ (exists d', adj d' rest) /\
    (rest = [] \/ down_first rest) /\ es = used ++ erest /\ (length erest < length es)%nat /\
    good_spec m a b /\ Permutation (map undirected (ms_min m ++ ms_max m)) (map undirected used).
Proof.
  intros F W A (p & t & -> & Dp & Aft). inversion F as [|? e ? et Mp Ft]; subst. cbn [walk] in W. destruct W as (<- & W).
  cbn [adj] in A. destruct A as (_ & A). assert (Up : is_up p = false) by (dirs; apply Z.ltb_ge; lia).
  assert (Hp : is_hor p = false) by (dirs; apply Z.eqb_neq; lia).
  set (k := find_if is_up t) in *.
  assert (Tmin : towards_minimum (e :: et) = Ok (rev (map reverse_if_horizontal (e :: firstn k et)), skipn k et)).
  { unfold towards_minimum. rewrite (min_scan_spec t et p e false 1 z Ft Mp W Up) by congruence. reflexivity. }
  destruct (find_if_split is_up t) as (Dn & Sk). fold k in Dn, Sk.
  destruct Sk as [(_ & NoUp)|(q & t2 & Sk & Uq)].
  { exfalso. rewrite after_no_up in Aft; [discriminate|]. intros x [<-|I]; auto. }
  pose proof (Forall2_skipn _ _ _ k Ft) as Fs. rewrite Sk in Fs.
  destruct (skipn k et) as [|eq et2] eqn:Ske; [inversion Fs|].
  assert (Mq : made q eq) by (inversion Fs; assumption). assert (Ft2 : Forall2 made t2 et2) by (inversion Fs; assumption). clear Fs.
  assert (W' : exists c, walk (snd p) (firstn k t) c /\ walk c (q :: t2) z).
  { rewrite <- (firstn_skipn k t), Sk in W. apply walk_app in W. exact W. }
  destruct W' as (c & Wd & Wq). cbn [walk] in Wq. destruct Wq as (Eqc & Wu).
  assert (Dq : is_down q = false) by (dirs; apply Z.ltb_ge; lia).
  assert (Hq : is_hor q = false) by (dirs; apply Z.eqb_neq; lia).
  set (k2 := find_if is_down t2) in *.
  assert (Tmax : towards_maximum (eq :: et2) = Ok (eq :: firstn k2 et2, skipn k2 et2)).
  { unfold towards_maximum. rewrite (max_scan_spec t2 et2 q eq false 1 z Ft2 Mq Wu Dq) by congruence. reflexivity. }
  destruct (find_if_split is_down t2) as (Un & Sk2). fold k2 in Un, Sk2.
  assert (W' : exists b, walk (snd q) (firstn k2 t2) b /\ walk b (skipn k2 t2) z).
  { rewrite <- (firstn_skipn k2 t2) in Wu. apply walk_app in Wu. exact Wu. }
  destruct W' as (b & Wu1 & Wr).
  pose proof (Forall2_firstn _ _ _ k Ft) as FD. pose proof (Forall2_firstn _ _ _ k2 Ft2) as FU.
  assert (FD' : Forall2 made (p :: firstn k t) (e :: firstn k et)) by (constructor; assumption).
  assert (FU' : Forall2 made (q :: firstn k2 t2) (eq :: firstn k2 et2)) by (constructor; assumption).
  assert (Amin : ascends c (rev (map reverse_if_horizontal (e :: firstn k et))) (fst p)).
  { apply (down_asc (p :: firstn k t)); [exact FD'|cbn; auto|]. intros x [<-|I]; auto. }
  assert (Amax : ascends c (eq :: firstn k2 et2) b).
  { apply (up_asc (q :: firstn k2 t2)); [exact FU'|cbn; auto|]. intros x [<-|I]; auto. }
  assert (Fmin : flats_apart (rev (map reverse_if_horizontal (e :: firstn k et)))).
  { apply apart_rev, apart_map; [apply rih_flat|]. eapply apart_made; [exact Mp|exact FD|exact Wd|apply adj_firstn; exact A]. }
  assert (Fmax : flats_apart (eq :: firstn k2 et2)).
  { destruct (adj_skipn _ _ k A) as (d1 & A1). rewrite Sk in A1. cbn [adj] in A1. destruct A1 as (_ & A1).
    eapply apart_made; [exact Mq|exact FU|exact Wu1|apply adj_firstn; exact A1]. }
  assert (Emin : ends_sloped (rev (map reverse_if_horizontal (e :: firstn k et)))).
  { intros l1 x Q. cbn [map rev] in Q. apply app_inj_tail in Q. destruct Q as (_ & <-).
    intros Fl. apply rih_flat in Fl. apply (made_flat p e Mp) in Fl. congruence. }
  assert (Hrest : skipn k2 t2 = [] \/ down_first (skipn k2 t2)).
  { destruct Sk2 as [(E & _)|(x & t3 & E & Dx)]; [left; exact E|right]. exists x, t3. split; [exact E|]. split; [exact Dx|].
    assert (Ux : is_up x = false) by (dirs; apply Z.ltb_ge; lia).
    rewrite <- (firstn_skipn k t), Sk, app_comm_cons, after_app in Aft. cbn [app] in Aft.
    rewrite <- (firstn_skipn k2 t2), app_comm_cons, after_app, E in Aft. rewrite E.
    unfold after in Aft at 1. cbn [fold_left] in Aft. unfold step at 2 in Aft. rewrite Ux, Dx in Aft.
    unfold after. cbn [fold_left]. unfold step at 2. rewrite Ux, Dx. exact Aft. }
  assert (Adjr : exists d', adj d' (skipn k2 t2)).
  { destruct (adj_skipn _ _ k A) as (d1 & A1). rewrite Sk in A1. cbn [adj] in A1. destruct A1 as (_ & A1).
    apply (adj_skipn _ _ k2 A1). }
  assert (Eused : e :: et = ((e :: firstn k et) ++ eq :: firstn k2 et2) ++ skipn k2 et2).
  { rewrite <- app_assoc. cbn [app]. rewrite firstn_skipn, <- Ske, firstn_skipn. reflexivity. }
  assert (Elen : (length (skipn k2 et2) < length (e :: et))%nat).
  { rewrite Eused, !app_length. cbn. lia. }
  assert (Pmin : Permutation (map undirected (rev (map reverse_if_horizontal (e :: firstn k et)))) (map undirected (e :: firstn k et)))
    by (apply (undirected_rev_map (p :: firstn k t)); exact FD').
  destruct (made_facts _ _ Mq) as (EHq & _ & EUq & Gq & _). rewrite Hq in EHq. destruct (EUq Dq) as (Ebq & Etq).
  assert (Nfq : py (etop eq) <> py (ebot eq)) by (rewrite (made_flat q eq Mq); congruence).
  (* the last element of the descent *)
  destruct (list_rev_ind_case (p :: firstn k t)) as [E|(D' & x & ED)]; [discriminate|].
  assert (Ix : In x (p :: firstn k t)) by (rewrite ED; apply in_or_app; right; left; reflexivity).
  assert (Ux : is_up x = false) by (destruct Ix as [<-|I]; auto).
  pose proof FD' as FD2. rewrite ED in FD2. apply Forall2_app_inv_l in FD2. destruct FD2 as (eD' & ex' & FD1 & FD2 & EeD).
  apply Forall2_one in FD2. destruct FD2 as (ex & Eex & Mx). rewrite Eex in EeD. clear Eex ex'.
  assert (Emn : rev (map reverse_if_horizontal (e :: firstn k et)) = reverse_if_horizontal ex :: rev (map reverse_if_horizontal eD')).
  { rewrite EeD, map_app, rev_app_distr. reflexivity. }
  rewrite Emn in Tmin, Amin, Pmin, Fmin, Emin.
  pose proof (made_facts _ _ Mx) as (EHx & EDx & EUx & Gx & _).
  destruct (down_reversed x ex Mx Ux) as (Ebx & Etx).
  assert (Wx : snd x = c).
  { assert (Wd' : walk (fst p) (p :: firstn k t) c) by (cbn; auto). rewrite ED in Wd'. apply walk_app in Wd'.
    destruct Wd' as (c1 & _ & Wd'). cbn in Wd'. apply Wd'. }
  assert (Eqx : fst q = snd x) by congruence. clear Eqc. rename Eqx into Eqc. subst c.
  unfold one_minimum. rewrite Tmin. cbn [rbind].
  (* common finish *)
  destruct (is_hor x) eqn:Hx.
  - (* a horizontal edge at the bottom *)
    destruct (list_rev_ind_case D') as [->|(D2 & y & ->)].
    { exfalso. cbn in ED. injection ED as <- _. congruence. }
    apply Forall2_app_inv_l in FD1. destruct FD1 as (eD2 & ey' & FD1 & FD2 & ->).
    apply Forall2_one in FD2. destruct FD2 as (ey & Eey & My). rewrite Eey in *. clear Eey ey'.
    rewrite map_app, rev_app_distr in Tmin, Amin, Pmin, Emn, Fmin, Emin |- *. cbn [map rev app] in Tmin, Amin, Pmin, Emn, Fmin, Emin |- *.
    assert (Iy : In y (p :: firstn k t)).
    { rewrite ED. apply in_or_app. left. apply in_or_app. right. left. reflexivity. }
    assert (Uy : is_up y = false) by (destruct Iy as [<-|I]; auto).
    assert (Wy : snd y = fst x /\ sharp y x).
    { assert (Wd' : walk (fst p) (p :: firstn k t) (snd x)) by (cbn; auto). rewrite ED in Wd'. rewrite <- app_assoc in *.
      apply walk_app in Wd'. destruct Wd' as (c1 & _ & Wd'). cbn in Wd'. split; [symmetry; apply Wd'|].
      assert (A1 : adj p (firstn k t)) by (apply adj_firstn; exact A).
      destruct D2 as [|p' D2]; cbn [app] in ED; injection ED as -> ED.
      - rewrite ED in A1. cbn in A1. apply A1.
      - rewrite ED in A1. apply adj_app in A1. destruct A1 as (_ & A1). cbn in A1. apply A1. }
    destruct Wy as (Wy & Sy).
    assert (Hy : is_hor y = false).
    { destruct (is_hor y) eqn:Hy; [|reflexivity]. exfalso. apply (sharp_hor y x); auto. }
    assert (Dy : is_down y = true) by (dirs; apply Z.ltb_lt; lia).
    destruct (made_facts _ _ My) as (EHy & EDy & _ & Gy & _). rewrite Hy in EHy. destruct (EDy Dy) as (Eby & Ety).
    assert (Ry : reverse_if_horizontal ey = ey) by (unfold reverse_if_horizontal; rewrite EHy; reflexivity).
    rewrite Ry in *.
    assert (Rx : is_horizontal (reverse_if_horizontal ex) = true).
    { unfold reverse_if_horizontal. rewrite EHx. cbn. exact EHx. }
    assert (Nfy : py (etop ey) <> py (ebot ey)) by (rewrite (made_flat y ey My); congruence).
    assert (Xh : py (fst x) = py (snd x)) by (apply Z.eqb_eq; exact Hx).
    assert (Nx : px (fst x) <> px (snd x)).
    { intros Q. destruct Mx as (_ & Nx). apply Nx, point_ext; assumption. }
    assert (Flx : py (etop (reverse_if_horizontal ex)) = py (ebot (reverse_if_horizontal ex))) by (rewrite Ebx, Etx; exact Xh).
    rewrite Tmax. cbn [rbind].
    rewrite (fix_asc _ _ _ Amax), (fix_asc _ _ _ Amin).
    unfold first_non_horizontal at 1. cbn [find_if]. rewrite EHq. cbn [negb length Nat.eqb].
    unfold first_non_horizontal. cbn [find_if]. rewrite Rx, EHy. cbn [negb length Nat.eqb].
    cbn [nth_res nth_error rbind Nat.ltb Nat.leb orb].
    rewrite Ebq, Eby, Eqc, Wy. rewrite Z.gtb_ltb.
    destruct (Z.ltb_spec (px (fst x)) (px (snd x))) as [Lx|Lx].
    + (* the horizontal edge goes to the right bound *)
      rewrite (move_one (reverse_if_horizontal ex) (ey :: rev (map reverse_if_horizontal eD2)) (eq :: firstn k2 et2));
        [|exact Rx|intros n0 t0 E0; injection E0 as <- _; exact EHy|discriminate|discriminate].
      cbn [nth_res nth_error rbind].
      set (h := reverse_horizontal (reverse_if_horizontal ex)).
      assert (Ebh : ebot h = fst x) by (unfold h, reverse_horizontal; cbn; rewrite Etx, Ebx; apply point_ext; cbn; auto).
      assert (Eth : etop h = snd x) by (unfold h, reverse_horizontal; cbn; rewrite Etx, Ebx; apply point_ext; cbn; auto).
      do 5 eexists. split; [reflexivity|]. split; [apply (Forall2_skipn _ _ _ k2 Ft2)|]. split; [exact Wr|].
      split; [exact Adjr|]. split; [exact Hrest|]. split; [exact Eused|]. split; [exact Elen|]. split.
      * exists (fst x). cbn [ms_min ms_max ms_y ms_min_left ms_hor]. split; [discriminate|]. split; [discriminate|].
        cbn [ascends] in Amin, Amax |- *. rewrite Etx in Amin.
        split; [apply Amin|]. split.
        { rewrite Ebh, Eth, Xh. split; [reflexivity|]. split; [lia|]. exact Amax. }
        split; [rewrite Eby, Wy; reflexivity|]. split.
        { exists ey, eq. split; [apply sloped_head, Nfy|]. split; [apply flat_head; [rewrite Ebh, Eth; auto|exact Nfq]|].
          rewrite Eby, Ebq, Eqc, Wy. split; [exact Xh|]. left. exact Lx. }
        split; [apply not_starts_flat, Nfy|]. split; [split; [|reflexivity]; intros _; do 2 eexists; split; [reflexivity|];
        rewrite Ebh, Eth; auto|]. split; [apply apart_tail in Fmin; exact Fmin|]. split; [apply apart_cons; [intros _; exact Nfq|exact Fmax]|]. apply ends_tail in Emin; exact Emin.
      * cbn [ms_min ms_max]. rewrite map_app, map_app. cbn [map].
        assert (Eh : undirected h = undirected (reverse_if_horizontal ex)) by (apply undirected_reverse; exact Flx).
        rewrite Eh. rewrite <- Permutation_middle. rewrite <- (Permutation_app_tail _ Pmin).
        cbn [map app]. reflexivity.
    + (* it stays with the bound that is the right one already *)
      rewrite (move_none eq (firstn k2 et2)) by exact EHq. cbn [nth_res nth_error rbind].
      do 5 eexists. split; [reflexivity|]. split; [apply (Forall2_skipn _ _ _ k2 Ft2)|]. split; [exact Wr|].
      split; [exact Adjr|]. split; [exact Hrest|]. split; [exact Eused|]. split; [exact Elen|]. split.
      * exists (snd x). cbn [ms_min ms_max ms_y ms_min_left ms_hor]. split; [discriminate|]. split; [discriminate|].
        split; [exact Amin|]. split; [exact Amax|]. split; [rewrite Ebx; reflexivity|]. split.
        { exists eq, ey. split; [apply sloped_head, Nfq|]. split; [apply flat_head; [exact Flx|exact Nfy]|].
          rewrite Eby, Ebq, Eqc, Wy. split; [auto|]. left. lia. }
        split; [apply not_starts_flat, Nfq|]. split; [split; [|reflexivity]; intros _; do 2 eexists; split; [reflexivity|exact Flx]|].
        split; [exact Fmin|split; [exact Fmax|exact Emin]].
      * cbn [ms_min ms_max]. rewrite map_app, map_app. cbn [map] in *. apply Permutation_app_tail. exact Pmin.
  - (* no horizontal edge at the bottom *)
    assert (Dx : is_down x = true) by (dirs; apply Z.ltb_lt; lia). destruct (EDx Dx) as (Ebx' & Etx').
    assert (Rx : reverse_if_horizontal ex = ex) by (unfold reverse_if_horizontal; rewrite EHx; reflexivity).
    rewrite Rx in *.
    assert (Nfx : py (etop ex) <> py (ebot ex)) by (rewrite (made_flat x ex Mx); congruence).
    rewrite Tmax. cbn [rbind].
    rewrite (fix_asc _ _ _ Amax), (fix_asc _ _ _ Amin).
    unfold first_non_horizontal at 1. cbn [find_if]. rewrite EHq. cbn [negb length Nat.eqb].
    unfold first_non_horizontal. cbn [find_if]. rewrite EHx. cbn [negb length Nat.eqb].
    cbn [nth_res nth_error rbind Nat.ltb Nat.leb orb].
    do 5 eexists. split; [reflexivity|]. split; [apply (Forall2_skipn _ _ _ k2 Ft2)|]. split; [exact Wr|].
    split; [exact Adjr|]. split; [exact Hrest|]. split; [exact Eused|]. split; [exact Elen|]. split.
    + exists (snd x). cbn [ms_min ms_max ms_y ms_min_left ms_hor]. split; [discriminate|]. split; [discriminate|].
      split; [exact Amin|]. split; [exact Amax|]. split; [rewrite Ebx; reflexivity|].
      destruct (num_leb (NF (eslope eq)) (NF (eslope ex))) eqn:Le.
      * split; [|split; [apply not_starts_flat, Nfx|]].
        -- exists ex, eq. split; [apply sloped_head, Nfx|]. split; [apply sloped_head, Nfq|].
           rewrite Ebx, Ebq, Eqc. split; [reflexivity|]. right. auto.
        -- split; [|split; [exact Fmin|split; [exact Fmax|exact Emin]]]. split; [discriminate|]. intros S. exfalso. exact (not_starts_flat _ _ Nfq S).
      * split; [|split; [apply not_starts_flat, Nfq|]].
        -- exists eq, ex. split; [apply sloped_head, Nfq|]. split; [apply sloped_head, Nfx|].
           rewrite Ebx, Ebq, Eqc. split; [reflexivity|]. right. split; [reflexivity|]. apply slope_total; auto.
        -- split; [|split; [exact Fmin|split; [exact Fmax|exact Emin]]]. split; [discriminate|]. intros S. exfalso. exact (not_starts_flat _ _ Nfx S).
    + cbn [ms_min ms_max]. rewrite map_app, map_app. cbn [map] in *. apply Permutation_app_tail. exact Pmin.
Qed.
