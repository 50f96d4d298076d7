(** * [LinearRing.edges]: closed chain, no degenerate vertices, same winding numbers *)
From Coq Require Import ZArith List Bool Lia Psatz.
From Verif Require Import Py Monad Utils Geometry LinearRingM SpecRing MiscP ListP ScanP FloatP.
Import ListNotations.
Open Scope Z_scope.

Lemma slopes_equal_spec a b c : points_slopes_equal a b c = true <-> on_line a b c.
Proof. unfold points_slopes_equal, on_line. rewrite Z.eqb_eq. split; intros H; nia. Qed.
Lemma slopes_equal_false a b c : points_slopes_equal a b c = false <-> ~ on_line a b c.
Proof. rewrite <- slopes_equal_spec, not_true_iff_false. reflexivity. Qed.

(** ** Additive functions of directed edges *)
Definition additive (c : point -> point -> Z) : Prop :=
  (forall a, c a a = 0) /\ (forall a b d, on_line a b d -> c a b + c b d = c a d).
Lemma additive_anti c a b : additive c -> c a b + c b a = 0.
Proof.
  intros (Z & A). rewrite (A a b a); [apply Z|]. unfold on_line. ring.
Qed.
Lemma cross_additive : additive cross.
Proof. split; intros; unfold cross, on_line in *; nia. Qed.
Definition crossed_alt (q : qpoint) (a b : point) : Z :=
  let d := Zpos (qd q) in
  ((if (py a * d <=? qy q) then 1 else 0) - (if (py b * d <=? qy q) then 1 else 0))
  * (if 0 <? side q a b * (py b - py a) then 1 else 0).
Lemma crossed_alt_eq q a b : crossed q a b = crossed_alt q a b.
Proof.
  unfold crossed, crossed_alt. cbv zeta. set (d := Zpos (qd q)). assert (Hd : 0 < d) by (unfold d; lia).
  destruct (Z.leb_spec (py a * d) (qy q)), (Z.leb_spec (py b * d) (qy q)); cbn [andb];
    rewrite ?(proj2 (Z.ltb_ge _ _)) by lia; try lia.
  - assert (E : (qy q <? py b * d) = true) by lia. rewrite E. assert (py a < py b) by nia.
    destruct (Z.ltb_spec 0 (side q a b)), (Z.ltb_spec 0 (side q a b * (py b - py a))); nia.
  - assert (E : (qy q <? py a * d) = true) by lia. rewrite E. assert (py b < py a) by nia.
    destruct (Z.ltb_spec (side q a b) 0), (Z.ltb_spec 0 (side q a b * (py b - py a))); nia.
Qed.
(** for collinear points the side does not depend on the pair chosen *)
Lemma side_line q a b e : on_line a b e ->
  side q a b * (py e - py a) = side q a e * (py b - py a) /\
  side q a b * (py e - py b) = side q b e * (py b - py a).
Proof.
  unfold on_line, side. intros H.
  assert (Z0 : (px b - px a) * (py e - py a) - (py b - py a) * (px e - px a) = 0) by lia.
  split; apply Z.sub_move_0_r.
  - transitivity (((px b - px a) * (py e - py a) - (py b - py a) * (px e - px a)) * (qy q - py a * Zpos (qd q))); [ring|].
    rewrite Z0. reflexivity.
  - transitivity (((px b - px a) * (py e - py a) - (py b - py a) * (px e - px a)) * (qy q - py b * Zpos (qd q))); [ring|].
    rewrite Z0. reflexivity.
Qed.
Lemma sign_eq s1 y1 s2 y2 : y1 <> 0 -> y2 <> 0 -> s1 * y2 = s2 * y1 -> (0 <? s1 * y1) = (0 <? s2 * y2).
Proof.
  intros N1 N2 E.
  assert (E1 : s1 * y1 * (y2 * y2) = s2 * y2 * (y1 * y1)) by (transitivity (s1 * y2 * (y1 * y2)); [ring|rewrite E; ring]).
  assert (P1 : 0 < y1 * y1) by nia. assert (P2 : 0 < y2 * y2) by nia.
  destruct (Z.ltb_spec 0 (s1 * y1)), (Z.ltb_spec 0 (s2 * y2)); try reflexivity; exfalso; nia.
Qed.
Lemma crossed_additive q : additive (crossed q).
Proof.
  split; [intros a; rewrite crossed_alt_eq; unfold crossed_alt; cbv zeta; rewrite Z.sub_diag; reflexivity|].
  intros a b e L. rewrite !crossed_alt_eq. unfold crossed_alt. cbv zeta.
  destruct (side_line q a b e L) as (S1 & S2).
  assert (S3 : side q a e * (py e - py b) = side q b e * (py e - py a)).
  { destruct (side_line q e b a) as (S3 & S4); [unfold on_line in *; nia|].
    assert (Sw : forall x y, side q x y = - side q y x) by (intros x y; unfold side; ring).
    rewrite (Sw a e), (Sw b e). lia. }
  set (d := Zpos (qd q)). assert (Hd : 0 < d) by (unfold d; lia).
  assert (B1 : py b <> py a -> py e <> py a -> (0 <? side q a b * (py b - py a)) = (0 <? side q a e * (py e - py a)))
    by (intros; apply sign_eq; lia).
  assert (B2 : py b <> py a -> py e <> py b -> (0 <? side q a b * (py b - py a)) = (0 <? side q b e * (py e - py b)))
    by (intros; apply sign_eq; lia).
  assert (B3 : py e <> py b -> py e <> py a -> (0 <? side q a e * (py e - py a)) = (0 <? side q b e * (py e - py b)))
    by (intros; apply sign_eq; lia).
  clear S1 S2 S3 L.
  destruct (Z.leb_spec (py a * d) (qy q)), (Z.leb_spec (py b * d) (qy q)), (Z.leb_spec (py e * d) (qy q)); try lia.
  - rewrite B3 by nia. lia.
  - rewrite B2 by nia. lia.
  - rewrite B1 by nia. lia.
  - rewrite B1 by nia. lia.
  - rewrite B2 by nia. lia.
  - rewrite B3 by nia. lia.
Qed.

(** ** Chains *)
Lemma pairs_cons a b l : pairs (a :: b :: l) = (a, b) :: pairs (b :: l).
Proof. reflexivity. Qed.
Lemma pairs_app l1 : forall a l2, pairs (l1 ++ a :: l2) = pairs (l1 ++ [a]) ++ pairs (a :: l2).
Proof.
  induction l1 as [|x l1 IH]; intros a l2; [reflexivity|]. destruct l1 as [|y l1]; [reflexivity|].
  cbn [app]. rewrite !pairs_cons. cbn [app]. f_equal. apply (IH a l2).
Qed.
Lemma pairs_snoc l a b : pairs (l ++ [a; b]) = pairs (l ++ [a]) ++ [(a, b)].
Proof. rewrite (pairs_app l a [b]). reflexivity. Qed.
Lemma triples_cons a b c l : triples (a :: b :: c :: l) = (a, b, c) :: triples (b :: c :: l).
Proof. reflexivity. Qed.
Lemma triples_snoc l : forall a b c, triples (l ++ [a; b; c]) = triples (l ++ [a; b]) ++ [(a, b, c)].
Proof.
  induction l as [|x l IH]; intros a b c; [reflexivity|].
  destruct l as [|y [|z l]]; [reflexivity|reflexivity|].
  cbn [app]. rewrite !triples_cons. cbn [app]. f_equal. apply (IH a b c).
Qed.
Definition psum (c : point -> point -> Z) (l : list point) : Z := zsum (map (fun '(a, b) => c a b) (pairs l)).
Definition csum (c : point -> point -> Z) (l : list point) : Z := zsum (map (fun '(a, b) => c a b) (cyclic_pairs l)).
Lemma zsum_app l1 l2 : zsum (l1 ++ l2) = zsum l1 + zsum l2.
Proof. unfold zsum. induction l1 as [|x l1 IH]; cbn; [reflexivity|]. rewrite IH. lia. Qed.
Lemma psum_app c l1 a l2 : psum c (l1 ++ a :: l2) = psum c (l1 ++ [a]) + psum c (a :: l2).
Proof. unfold psum. rewrite pairs_app, map_app, zsum_app. reflexivity. Qed.
Lemma psum_snoc c l a b : psum c (l ++ [a; b]) = psum c (l ++ [a]) + c a b.
Proof. rewrite (psum_app c l a [b]). unfold psum at 2. cbn. lia. Qed.
Lemma psum_cons c a b l : psum c (a :: b :: l) = c a b + psum c (b :: l).
Proof. reflexivity. Qed.
Lemma psum_one c a : psum c [a] = 0. Proof. reflexivity. Qed.
Lemma csum_cons c a l : csum c (a :: l) = psum c (a :: l ++ [a]).
Proof. reflexivity. Qed.

Definition chain_edges (l : list point) (es : list edge) : Prop :=
  Forall2 (fun p e => mk_edge (fst p) (snd p) = Ok e) (pairs l) es.
Definition good_chain (l : list point) : Prop :=
  Forall (fun p => fst p <> snd p) (pairs l) /\
  Forall (fun t => ~ on_line (fst (fst t)) (snd (fst t)) (snd t)) (triples l).

Lemma chain_edges_snoc l a b es e : chain_edges (l ++ [a]) es -> mk_edge a b = Ok e ->
  chain_edges (l ++ [a; b]) (es ++ [e]).
Proof.
  intros H E. unfold chain_edges. rewrite pairs_snoc. apply Forall2_app; [exact H|]. constructor; [exact E|constructor].
Qed.
Lemma chain_edges_snoc_inv l a b es : chain_edges (l ++ [a; b]) es ->
  exists es' e, es = es' ++ [e] /\ chain_edges (l ++ [a]) es' /\ mk_edge a b = Ok e.
Proof.
  unfold chain_edges. rewrite pairs_snoc. intros H. apply Forall2_app_inv_l in H.
  destruct H as (es' & e' & H1 & H2 & ->). inversion H2 as [|x y l1 l2 H3 H4]; subst. inversion H4; subst.
  exists es', y. auto.
Qed.
Lemma chain_edges_length l es : chain_edges l es -> length es = pred (length l).
Proof.
  intros H. assert (L : length (pairs l) = length es) by (induction H; cbn; congruence). rewrite <- L. clear. induction l as [|a [|b l] IH]; [reflexivity..|].
  rewrite pairs_cons. cbn [length pred] in *. rewrite IH. reflexivity.
Qed.
Lemma good_chain_snoc l a b c : good_chain (l ++ [a; b]) -> b <> c -> ~ on_line a b c -> good_chain (l ++ [a; b; c]).
Proof.
  intros (H1 & H2) N L. split.
  - replace (l ++ [a; b; c]) with ((l ++ [a]) ++ [b; c]) by (rewrite <- app_assoc; reflexivity).
    rewrite pairs_snoc, <- app_assoc. apply Forall_app. split; [exact H1|]. constructor; [exact N|constructor].
  - rewrite triples_snoc. apply Forall_app. split; [exact H2|]. constructor; [exact L|constructor].
Qed.
Lemma good_chain_removelast l a b : good_chain (l ++ [a; b]) -> good_chain (l ++ [a]).
Proof.
  intros (H1 & H2). split.
  - rewrite pairs_snoc in H1. apply Forall_app in H1. apply H1.
  - destruct (list_rev_ind_case l) as [->|(l' & x & ->)]; [constructor|].
    rewrite <- app_assoc in *. cbn in *. rewrite triples_snoc in H2. apply Forall_app in H2. apply H2.
Qed.
Lemma good_chain_one a : good_chain [a].
Proof. split; constructor. Qed.
Lemma good_chain_two a b : a <> b -> good_chain [a; b].
Proof. intros N. split; repeat constructor. exact N. Qed.
Lemma good_chain_tail a l : good_chain (a :: l) -> good_chain l.
Proof.
  intros (H1 & H2). split.
  - destruct l as [|b l]; [constructor|]. rewrite pairs_cons in H1. inversion H1; assumption.
  - destruct l as [|b [|c l]]; [constructor..|]. rewrite triples_cons in H2. inversion H2; assumption.
Qed.

(** ** Edges *)
Lemma mk_edge_orient u v e : mk_edge u v = Ok e ->
  (py u < py v -> ebot e = v /\ etop e = u) /\ (py v <= py u -> ebot e = u /\ etop e = v).
Proof.
  unfold mk_edge. destruct (Z.ltb_spec (py u) (py v)) as [L|L]; cbv beta iota zeta.
  - destruct (Z.eqb_spec (py u - py v) 0); [lia|]. destruct (int_truediv _ _); try discriminate.
    intros E. injection E as <-. split; [auto|lia].
  - destruct (Z.eqb_spec (py v - py u) 0).
    + intros E. injection E as <-. split; [lia|auto].
    + destruct (int_truediv _ _); try discriminate. intros E. injection E as <-. split; [lia|auto].
Qed.
Lemma mk_edge_cases u v : (exists e, mk_edge u v = Ok e) \/ mk_edge u v = Raise OverflowError.
Proof.
  unfold mk_edge. destruct (py u <? py v); cbv beta iota zeta;
    match goal with |- context [?d =? 0] => destruct (Z.eqb_spec d 0) as [E|N] end; eauto;
    match goal with |- context [int_truediv ?a ?b] => destruct (truediv_cases a b N) as [(f & -> & _)| ->] end;
    cbn; eauto.
Qed.

(** ** The main loop *)
Lemma py_nth_at {A} (L : list A) p R : py_nth (L ++ p :: R) (Z.of_nat (length L)) = Ok p.
Proof.
  unfold py_nth, py_index. rewrite app_length. cbn [length].
  destruct (Z.leb_spec 0 (Z.of_nat (length L))); [|lia].
  destruct (Z.ltb_spec (Z.of_nat (length L)) (Z.of_nat (length L + S (length R)))); [|lia].
  cbn [andb]. rewrite Nat2Z.id, nth_error_app2, Nat.sub_diag by lia. reflexivity.
Qed.
Lemma py_nth_eq {A} (L : list A) p R l k : l = L ++ p :: R -> k = Z.of_nat (length L) -> py_nth l k = Ok p.
Proof. intros -> ->. apply py_nth_at. Qed.

Record lr_inv (pts : list point) (s : lr_state) (L0 : list point) (l : point) (R T : list point)
       (vs0 : list point) : Prop := {
  i_pts : pts = L0 ++ l :: R ++ T;
  i_index : lr_index s = Z.of_nat (S (length L0));
  i_ri : lr_ri s = Z.of_nat (length L0 + length R);
  i_lri : lr_lri s = lr_ri s + 1;
  i_last : last R l <> hd (lr_pt2 s) vs0;
  i_edges : chain_edges (vs0 ++ [lr_pt2 s]) (lr_result s);
  i_good : good_chain (vs0 ++ [lr_pt2 s]);
  i_pt1 : vs0 = [] -> lr_pt1 s = last R l;
  i_back : forall vs1 v, vs0 = vs1 ++ [v] ->
           lr_pt1 s = v /\ lr_back s = Some v /\ lr_front s = Some (hd (lr_pt2 s) vs0);
  i_pt3 : lr_pt3 s = hd (hd (lr_pt2 s) vs0) R;
  i_prev : R <> [] -> lr_pt2 s = l \/ l <> lr_pt3 s;
  i_sum : forall c, additive c -> csum c pts = csum c (vs0 ++ lr_pt2 s :: R);
  i_incl : incl (vs0 ++ [lr_pt2 s]) pts
}.
Definition lr_ok (pts : list point) (s : lr_state) : Prop := exists L0 l R T vs0, lr_inv pts s L0 l R T vs0.
(** what the main loop delivers *)
Definition closed_chain (pts : list point) (es : list edge) (v : point) (W : list point) : Prop :=
  W <> [] /\ chain_edges (v :: W ++ [v]) es /\ good_chain (v :: W ++ [v]) /\
  (forall c, additive c -> csum c pts = psum c (v :: W ++ [v])) /\ incl (v :: W) pts.
Definition flat (pts : list point) : Prop := forall c, additive c -> csum c pts = 0.
Definition lr_post (pts : list point) (r : list edge * bool) : Prop :=
  fst r = [] /\ flat pts \/ snd r = true /\ exists v W, closed_chain pts (fst r) v W.
Definition overflow (pts : list point) (e : exn) : Prop :=
  e = OverflowError /\ exists u v, In u pts /\ In v pts /\ mk_edge u v = Raise OverflowError.

(** [skip_back2] walks over copies of [x] at the end of [R] *)
Lemma skip_back2_spec x L0 l : forall R T fuel, (length R + 1 < fuel)%nat ->
  (R = [] -> l <> x) -> (R = [x] -> l <> x) ->
  let r := skip_back2 fuel (L0 ++ l :: R ++ T) x (Z.of_nat (S (length L0))) (Z.of_nat (length L0 + length R)) in
  (r = Ok None /\ exists p X, R = p :: X /\ X <> [] /\ Forall (eq x) X) \/
  (exists S X, R = S ++ X /\ Forall (eq x) X /\ last S l <> x /\ r = Ok (Some (Z.of_nat (length L0 + length S)))).
Proof.
  intros R. induction R as [|p R IH] using rev_ind; intros T fuel Hf H0 H1; cbv zeta.
  - destruct fuel as [|fuel]; [cbn in Hf; lia|]. cbn [skip_back2 length app].
    rewrite (py_nth_eq L0 l T _ _ eq_refl) by lia. rewrite (proj2 (point_eqb_neq l x)) by auto. right.
    exists [], []. repeat split; auto.
  - rewrite app_length in *. cbn [length] in *. destruct fuel as [|fuel]; [lia|]. cbn [skip_back2].
    rewrite (py_nth_eq (L0 ++ l :: R) p T) by (rewrite <- ?app_assoc; cbn; rewrite <- ?app_assoc, ?app_length; cbn; try reflexivity; lia).
    destruct (point_eqb p x) eqn:E.
    + apply point_eqb_eq in E. subst p. cbv zeta.
      replace (Z.of_nat (length L0 + (length R + 1)) - 1) with (Z.of_nat (length L0 + length R)) by lia.
      destruct (Z.eqb_spec (Z.of_nat (S (length L0))) (Z.of_nat (length L0 + length R))) as [Q|Q].
      * left. split; [reflexivity|]. assert (LR : length R = 1%nat) by lia.
        destruct R as [|p [|? ?]]; try discriminate. exists p, [x]. repeat split; [discriminate|repeat constructor].
      * destruct (IH ([x] ++ T) fuel) as [(E1 & p & X & E2 & E3 & E4)|(S & X & E2 & E3 & E4 & E1)].
        -- lia.
        -- intros ->. apply H1. reflexivity.
        -- intros ->. cbn in Q. lia.
        -- left. rewrite <- app_assoc. split; [exact E1|]. exists p, (X ++ [x]). subst R. repeat split.
           ++ destruct X; discriminate.
           ++ apply Forall_app. split; [exact E4|repeat constructor].
        -- right. exists S, (X ++ [x]). rewrite E2, <- !app_assoc. split; [reflexivity|].
           split; [apply Forall_app; split; [exact E3|repeat constructor]|]. split; [exact E4|].
           rewrite E2, <- !app_assoc in E1. exact E1.
    + right. exists (R ++ [p]), []. rewrite app_nil_r. split; [reflexivity|]. split; [constructor|].
      split; [rewrite last_last; intros ->; rewrite point_eqb_refl in E; discriminate|].
      rewrite app_length. reflexivity.
Qed.

(** moving the start of a cycle over a collinear vertex *)
Lemma psum_const c x X : additive c -> Forall (eq x) X -> psum c (x :: X) = 0.
Proof.
  intros (Z & _). induction 1 as [|y X <- H IH]; [reflexivity|]. rewrite psum_cons, IH, Z. reflexivity.
Qed.
Lemma csum_drop_tail c a l X : additive c -> Forall (eq a) X -> csum c (a :: l ++ X) = csum c (a :: l).
Proof.
  intros A H. rewrite !csum_cons. rewrite <- app_assoc.
  replace (X ++ [a]) with (a :: X).
  - rewrite (app_comm_cons l), psum_app, (psum_app c (a :: l) a []), psum_one, psum_const by assumption. cbn [app]. lia.
  - clear -H. induction H as [|y X <- H IH]; [reflexivity|]. cbn. rewrite <- IH. reflexivity.
Qed.
Lemma csum_rot c l1 l2 : csum c (l1 ++ l2) = csum c (l2 ++ l1).
Proof.
  destruct l1 as [|a l1]; [rewrite app_nil_r; reflexivity|]. destruct l2 as [|b l2]; [rewrite app_nil_r; reflexivity|].
  cbn [app]. rewrite !csum_cons, <- !app_assoc. cbn [app].
  pose proof (psum_app c (a :: l1) b (l2 ++ [a])) as H1. pose proof (psum_app c (b :: l2) a (l1 ++ [b])) as H2.
  cbn [app] in H1, H2. rewrite H1, H2. lia.
Qed.
(** dropping a repeated or collinear vertex inside a cycle *)
Lemma csum_dup c l1 p l2 : additive c -> csum c (l1 ++ p :: p :: l2) = csum c (l1 ++ p :: l2).
Proof.
  intros A. rewrite (csum_rot c l1), (csum_rot c l1). cbn [app]. rewrite !csum_cons. cbn [app].
  rewrite psum_cons. destruct A as (Z & _). rewrite Z. cbn. reflexivity.
Qed.
Lemma csum_collinear c l1 a b d l2 : additive c -> on_line a b d ->
  csum c (l1 ++ a :: b :: d :: l2) = csum c (l1 ++ a :: d :: l2).
Proof.
  intros (_ & A) H. rewrite (csum_rot c l1), (csum_rot c l1). cbn [app]. rewrite !csum_cons. cbn [app].
  rewrite !psum_cons, <- (A a b d H). lia.
Qed.
Lemma csum_one c x : additive c -> csum c [x] = 0.
Proof. intros (Z & _). unfold csum. cbn. rewrite Z. reflexivity. Qed.
Lemma csum_two c x y : additive c -> csum c [x; y] = 0.
Proof. intros A. unfold csum. cbn. pose proof (additive_anti c x y A). lia. Qed.
Lemma csum_restart c x b S X : additive c -> X <> [] -> Forall (eq x) X -> on_line x b (hd x S) ->
  csum c (b :: S ++ X) = csum c (x :: S).
Proof.
  intros A N F H. destruct (list_rev_ind_case X) as [->|(X' & z & ->)]; [contradiction|]. clear N.
  apply Forall_app in F. destruct F as (F & Fz). inversion Fz; subst z. clear Fz.
  rewrite app_comm_cons, csum_rot, <- app_assoc. cbn [app].
  destruct S as [|d S].
  - rewrite csum_rot. cbn [app]. change (x :: b :: X') with (x :: [b] ++ X').
    rewrite (csum_drop_tail c x [b] X' A F), csum_two, csum_one by exact A. reflexivity.
  - cbn [hd] in H. rewrite csum_collinear by assumption. rewrite csum_rot. apply (csum_drop_tail c x (d :: S) X' A F).
Qed.
Lemma last_app_ne {A} (S X : list A) d : X <> [] -> last (S ++ X) d = last X d.
Proof.
  intros N. destruct (list_rev_ind_case X) as [->|(X' & z & ->)]; [contradiction|].
  rewrite app_assoc, !last_last. reflexivity.
Qed.
Lemma last_const {A} (x d : A) X : X <> [] -> Forall (eq x) X -> last X d = x.
Proof.
  intros N F. destruct (list_rev_ind_case X) as [->|(X' & z & ->)]; [contradiction|].
  rewrite last_last. apply Forall_app in F. destruct F as (_ & F). inversion F. auto.
Qed.
Lemma last_cons_any {A} (p : A) R d d' : last (p :: R) d = last (p :: R) d'.
Proof. revert p. induction R as [|q R IH]; intros p; [reflexivity|]. apply (IH q). Qed.
Lemma last_step {A} (p : A) R l : last R p = last (p :: R) l.
Proof. destruct R as [|q R]; [reflexivity|]. change (last (q :: R) p = last (q :: R) l). apply last_cons_any. Qed.
Lemma last_in {A} (R : list A) l : In (last R l) (l :: R).
Proof.
  revert l. induction R as [|p R IH]; intros l; [left; reflexivity|]. rewrite <- last_step. right. apply IH.
Qed.

Definition lr_measure (pts : list point) (s : lr_state) : nat :=
  2 * (length pts + 1 - Z.to_nat (lr_index s)) + length (lr_result s) + Z.to_nat (lr_ri s).

Lemma removelast_app1 {A} (l : list A) x : removelast (l ++ [x]) = l.
Proof. apply removelast_last. Qed.

Lemma lr_body_step pts s : lr_ok pts s ->
  match lr_body pts s with
  | Ok (inl s') => lr_ok pts s' /\ (lr_measure pts s' < lr_measure pts s)%nat
  | Ok (inr r) => lr_post pts r
  | Raise e => overflow pts e
  | NoFuel => False
  end.
Proof.
  intros (L0 & l & R & T & vs0 & I). destruct s as [index ri lri pt1 pt2 pt3 front back result].
  destruct I as [Ep Ei Er El Hl He Hg H1 Hb H3 Hp Hs Hi].
  cbn [lr_index lr_ri lr_lri lr_pt1 lr_pt2 lr_pt3 lr_front lr_back lr_result] in *.
  assert (Lp : (S (length L0) + length R <= length pts)%nat) by (rewrite Ep, app_length; cbn; rewrite app_length; lia).
  assert (R0 : index = lri -> R = []) by (intros Q; destruct R; [reflexivity|cbn in *; lia]).
  assert (R1 : index <> lri -> exists p R', R = p :: R').
  { intros Q. destruct R as [|p R']; [cbn in *; lia|]. eauto. }
  assert (Rn : result = [] -> vs0 = []).
  { intros ->. apply chain_edges_length in He. rewrite app_length in He. cbn in He. destruct vs0; [reflexivity|cbn in He; lia]. }
  assert (Rv : vs0 = [] -> result = []).
  { intros ->. inversion He. reflexivity. }
  unfold lr_body. destruct (point_eqb pt2 pt3) eqn:E23.
  - (* pt2 = pt3 *)
    apply point_eqb_eq in E23. rewrite <- E23 in H3. rename H3 into H3'. subst pt3. rename H3' into H3.
    destruct (Z.eqb_spec index lri) as [Q|Q].
    + specialize (R0 Q). subst R. destruct vs0 as [|v W].
      * left. cbn [fst]. split; [auto|]. intros c A. rewrite (Hs c A). apply csum_one, A.
      * right. split; [reflexivity|]. exists v, W. cbn [fst hd] in *. subst pt2. cbn [app] in *.
        assert (Wn : W <> []).
        { intros ->. destruct Hg as (Hg & _). inversion Hg as [|? ? X]; subst. apply X. reflexivity. }
        split; [exact Wn|]. split; [exact He|]. split; [exact Hg|]. split.
        -- intros c A. rewrite (Hs c A), (csum_drop_tail c v W [v] A); [reflexivity|repeat constructor].
        -- intros x Hx. apply Hi. cbn in *. destruct Hx; [auto|]. right. apply in_or_app. auto.
    + destruct (R1 Q) as (p & R' & ER). subst R. cbn [hd] in H3. subst p. clear R0 R1.
      assert (Next : forall q, q = hd (hd pt2 vs0) R' ->
        lr_ok pts (LR (index + 1) ri lri pt1 pt2 q front back result) /\
        (lr_measure pts (LR (index + 1) ri lri pt1 pt2 q front back result)
         < lr_measure pts (LR index ri lri pt1 pt2 pt2 front back result))%nat).
      { intros q Eq. split; [|unfold lr_measure; cbn [lr_index lr_result lr_ri]; rewrite Ei; cbn [length] in Lp; lia].
        exists (L0 ++ [l]), pt2, R', T, vs0.
        constructor; cbn [lr_index lr_ri lr_lri lr_pt1 lr_pt2 lr_pt3 lr_front lr_back lr_result];
          try assumption.
        - rewrite Ep, <- app_assoc. reflexivity.
        - rewrite Ei, app_length. cbn. lia.
        - rewrite Er, app_length. cbn. lia.
        - rewrite (last_step pt2 R' l). exact Hl.
        - intros V. rewrite (H1 V). apply eq_sym, last_step.
        - intros _. left. reflexivity.
        - intros c A. rewrite (Hs c A). apply csum_dup. exact A. }
      unfold lr_next_pt3. destruct (Z.eqb_spec (index + 1) lri) as [Q'|Q'].
      * assert (R' = []) by (destruct R'; [reflexivity|cbn in *; lia]). subst R'.
        destruct result as [|e0 result].
        -- left. split; [reflexivity|]. intros c A. rewrite (Hs c A), (Rn eq_refl). apply csum_two, A.
        -- destruct (list_rev_ind_case vs0) as [V|(vs1 & v & V)]; [discriminate (Rv V)|].
           destruct (Hb _ _ V) as (_ & _ & ->). apply Next. reflexivity.
      * destruct R' as [|q R']; [cbn in *; lia|].
        rewrite (py_nth_eq (L0 ++ [l; pt2]) q (R' ++ T)); cbn [rbind].
        -- apply Next. reflexivity.
        -- rewrite Ep, <- app_assoc. reflexivity.
        -- rewrite app_length. cbn. lia.
  - apply point_eqb_neq in E23. destruct (points_slopes_equal pt1 pt2 pt3) eqn:Es.
    + (* collinear: pt2 is dropped *)
      apply slopes_equal_spec in Es.
      assert (Hp' : R <> [] -> l <> pt3).
      { intros N. destruct (Hp N) as [X|X]; [subst l; exact E23|exact X]. }
      destruct (list_rev_ind_case vs0) as [->|(vs1 & v & ->)].
      * (* no edges yet: the start moves back *)
        rewrite (Rv eq_refl) in *. cbn [removelast]. cbn [last_opt rev]. cbn [hd] in *.
        specialize (H1 eq_refl).
        assert (Rne : R <> []) by (intros ->; apply E23; symmetry; exact H3).
        pose proof (skip_back2_spec pt1 L0 l R T (S (2 * length pts))) as Sk. cbv zeta in Sk.
        rewrite <- Ep, <- Ei, <- Er in Sk.
        destruct Sk as [(-> & p & X & ER & Xn & Fx)|(S & X & ER & Fx & Hl' & ->)].
        -- lia.
        -- intros ->. contradiction.
        -- intros ->. cbn in H3. rewrite <- H3. apply Hp'. exact Rne.
        -- left. split; [reflexivity|]. intros c A. rewrite (Hs c A). cbn [app].
           rewrite ER. change (p :: X) with ([p] ++ X). rewrite (csum_restart c pt1); auto.
           ++ apply csum_two, A.
           ++ rewrite ER in H3. cbn in H3. cbn. rewrite <- H3. exact Es.
        -- assert (Xn : X <> []).
           { intros ->. apply Hl'. rewrite app_nil_r in ER. subst S. symmetry. exact H1. }
           assert (E3 : pt3 = hd pt1 S).
           { rewrite ER in H3. destruct S as [|d S]; [|exact H3]. destruct X as [|x X]; [contradiction|].
             apply Forall_inv in Fx. cbn [app hd] in *. congruence. }
           rewrite (py_nth_eq (removelast (L0 ++ l :: S)) (last S l) (X ++ T)).
           ++ split.
              ** exists L0, l, S, (X ++ T), [].
                 constructor; cbn [lr_index lr_ri lr_lri lr_pt1 lr_pt2 lr_pt3 lr_front lr_back lr_result hd app]; auto.
                 --- rewrite Ep, ER, <- app_assoc. reflexivity.
                 --- intros vs1 v V. destruct vs1; discriminate.
                 --- intros c A. rewrite (Hs c A). cbn [app]. rewrite ER. apply csum_restart; auto. rewrite <- E3. exact Es.
                 --- intros x [<-|[]]. rewrite H1, Ep. apply in_or_app. right.
                     destruct (last_in R l) as [X1|X1]; [left; exact X1|right; apply in_or_app; left; exact X1].
              ** unfold lr_measure. cbn [lr_index lr_result lr_ri]. rewrite Er, ER, app_length, !Nat2Z.id.
                 assert (0 < length X)%nat by (destruct X; [contradiction|cbn; lia]). lia.
           ++ rewrite Ep, ER.
              replace (removelast (L0 ++ l :: S) ++ last S l :: X ++ T)
                with ((removelast (L0 ++ l :: S) ++ [last (L0 ++ l :: S) l]) ++ X ++ T).
              ** rewrite <- app_removelast_last by (destruct L0; discriminate). rewrite <- !app_assoc. cbn. rewrite <- ?app_assoc. reflexivity.
              ** rewrite <- app_assoc. cbn. rewrite last_app_ne by discriminate. rewrite <- last_step. reflexivity.
           ++ replace (length (removelast (L0 ++ l :: S))) with (pred (length (L0 ++ l :: S))).
              ** rewrite app_length. cbn. f_equal. lia.
              ** rewrite (app_removelast_last (l := L0 ++ l :: S) l) at 1 by (destruct L0; discriminate).
                 rewrite app_length. cbn. lia.
      * (* the last edge is dropped *)
        destruct (Hb _ _ eq_refl) as (Ev & Hbk & Hfr). subst v. clear Hb H1.
        rewrite <- app_assoc in He, Hg, Hi. cbn [app] in He, Hg, Hi.
        destruct (chain_edges_snoc_inv _ _ _ _ He) as (es' & e & -> & He' & _).
        rewrite removelast_last.
        assert (Hsum : forall c, additive c -> csum c pts = csum c (vs1 ++ pt1 :: R)).
        { intros c A. rewrite (Hs c A), <- app_assoc. cbn [app]. destruct R as [|d R'].
          - destruct vs1 as [|h vs1].
            + cbn [app]. rewrite csum_two, csum_one by exact A. reflexivity.
            + cbn [app hd] in H3. subst pt3.
              rewrite (csum_rot c (h :: vs1) [pt1; pt2]), (csum_rot c (h :: vs1) [pt1]).
              apply (csum_collinear c [] pt1 pt2 h vs1 A Es).
          - cbn [hd] in H3. subst pt3. apply csum_collinear; assumption. }
        assert (Hhd : forall d, hd d (vs1 ++ [pt1]) = hd pt1 vs1) by (intros d; destruct vs1; reflexivity).
        rewrite Hhd in *.
        destruct (list_rev_ind_case vs1) as [->|(vs2 & u & ->)].
        -- assert (es' = []) by (inversion He'; reflexivity). subst es'. cbn [last_opt rev hd app] in *.
           pose proof (skip_back2_spec pt1 L0 l R T (S (2 * length pts))) as Sk. cbv zeta in Sk.
           rewrite <- Ep, <- Ei, <- Er in Sk.
           destruct Sk as [(-> & p & X & ER & Xn & Fx)|(S & X & ER & Fx & Hl' & ->)].
           ++ lia.
           ++ intros ->. exact Hl.
           ++ intros ->. elim Hl. reflexivity.
           ++ elim Hl. rewrite ER. change (p :: X) with ([p] ++ X). rewrite last_app_ne by exact Xn.
              apply last_const; assumption.
           ++ assert (X = []).
              { destruct X as [|x X]; [reflexivity|]. elim Hl. rewrite ER, last_app_ne by discriminate.
                apply last_const; [discriminate|assumption]. }
              subst X. rewrite app_nil_r in ER. subst S.
              rewrite (py_nth_eq (removelast (L0 ++ l :: R)) (last R l) T).
              ** split.
                 --- exists L0, l, R, T, [].
                     constructor; cbn [lr_index lr_ri lr_lri lr_pt1 lr_pt2 lr_pt3 lr_front lr_back lr_result hd app]; auto.
                     +++ apply good_chain_one.
                     +++ intros vs1 v V. destruct vs1; discriminate.
                     +++ intros x [<-|[]]. apply Hi. left. reflexivity.
                 --- unfold lr_measure. cbn [lr_index lr_result lr_ri length app]. rewrite Er. lia.
              ** rewrite Ep.
                 replace (removelast (L0 ++ l :: R) ++ last R l :: T)
                   with ((removelast (L0 ++ l :: R) ++ [last (L0 ++ l :: R) l]) ++ T).
                 --- rewrite <- app_removelast_last by (destruct L0; discriminate). rewrite <- !app_assoc. reflexivity.
                 --- rewrite <- app_assoc. cbn. rewrite last_app_ne by discriminate. rewrite <- last_step. reflexivity.
              ** replace (length (removelast (L0 ++ l :: R))) with (pred (length (L0 ++ l :: R))).
                 --- rewrite app_length. cbn. f_equal. lia.
                 --- rewrite (app_removelast_last (l := L0 ++ l :: R) l) at 1 by (destruct L0; discriminate).
                     rewrite app_length. cbn. lia.
        -- rewrite <- app_assoc in He'. cbn [app] in He'.
           destruct (chain_edges_snoc_inv _ _ _ _ He') as (es'' & be & -> & He'' & Hbe).
           rewrite last_opt_app. subst back.
           assert (Nuv : u <> pt1).
           { destruct Hg as (Hg & _). rewrite <- !app_assoc in Hg. cbn [app] in Hg.
             replace (vs2 ++ [u; pt1; pt2]) with (vs2 ++ u :: [pt1; pt2]) in Hg by reflexivity.
             rewrite pairs_app in Hg. apply Forall_app in Hg. destruct Hg as (_ & Hg). inversion Hg; subst. assumption. }
           assert (Eu : (if (px pt1 =? px (etop be)) && (py pt1 =? py (etop be)) then ebot be else etop be) = u).
           { change ((px pt1 =? px (etop be)) && (py pt1 =? py (etop be))) with (point_eqb pt1 (etop be)).
             destruct (mk_edge_orient _ _ _ Hbe) as (O1 & O2).
             destruct (Z.lt_ge_cases (py u) (py pt1)) as [Lu|Lu].
             - destruct (O1 Lu) as (-> & ->). destruct (point_eqb_spec pt1 u); [congruence|reflexivity].
             - destruct (O2 Lu) as (-> & ->). rewrite point_eqb_refl. reflexivity. }
           rewrite Eu. split.
           ++ exists L0, l, R, T, (vs2 ++ [u]).
              constructor; cbn [lr_index lr_ri lr_lri lr_pt1 lr_pt2 lr_pt3 lr_front lr_back lr_result]; auto.
              ** rewrite <- app_assoc. exact He'.
              ** rewrite <- !app_assoc in *. cbn [app] in *. 
                 apply (good_chain_removelast (vs2 ++ [u]) pt1 pt2) in Hg || idtac.
                 --- replace (vs2 ++ [u; pt1]) with ((vs2 ++ [u]) ++ [pt1]) by (rewrite <- app_assoc; reflexivity).
                     apply good_chain_removelast with (b := pt2). rewrite <- app_assoc. exact Hg.
              ** intros V. destruct vs2; discriminate.
              ** intros vs3 v V. apply app_inj_tail in V. destruct V as (_ & ->). split; [reflexivity|]. split; [reflexivity|].
                 rewrite Hfr. f_equal.
              ** intros x Hx. apply Hi. rewrite <- app_assoc in *. cbn [app] in *.
                 apply in_app_or in Hx. apply in_or_app. cbn in *. tauto.
           ++ unfold lr_measure. cbn [lr_index lr_result lr_ri]. rewrite !app_length. cbn. lia.
    + (* a new edge *)
      apply slopes_equal_false in Es.
      assert (I3 : In pt3 pts).
      { rewrite H3. destruct R as [|p R']; cbn [hd].
        - apply Hi. destruct vs0; left; reflexivity.
        - rewrite Ep. apply in_or_app. right. right. left. reflexivity. }
      assert (I2 : In pt2 pts) by (apply Hi, in_or_app; right; left; reflexivity).
      destruct (mk_edge_cases pt2 pt3) as [(e & Ee)|Ee]; rewrite Ee.
      2: { split; [reflexivity|]. eauto. }
      assert (Hg' : good_chain (vs0 ++ [pt2; pt3])).
      { destruct (list_rev_ind_case vs0) as [->|(vs1 & v & ->)]; [apply good_chain_two; assumption|].
        destruct (Hb _ _ eq_refl) as (-> & _). rewrite <- app_assoc in *. apply good_chain_snoc; assumption. }
      pose proof (chain_edges_snoc _ _ _ _ _ He Ee) as He'.
      destruct (Z.eqb_spec index lri) as [Q|Q].
      * specialize (R0 Q). subst R. cbn [hd] in H3. subst pt3. right. split; [reflexivity|]. cbn [fst].
        destruct vs0 as [|v W]; [elim E23; reflexivity|]. cbn [hd] in *. exists v, (W ++ [pt2]).
        unfold closed_chain. rewrite <- app_assoc. cbn [app] in *.
        split; [destruct W; discriminate|]. split; [exact He'|]. split; [exact Hg'|]. split; [|exact Hi].
        intros c A. rewrite (Hs c A), csum_cons, <- app_assoc. reflexivity.
      * destruct (R1 Q) as (p & R' & ER). subst R. cbn [hd] in H3. subst p.
        assert (Fr : match result with [] => Some pt2 | _ :: _ => front end = Some (hd pt2 vs0)).
        { destruct result as [|e0 result]; [rewrite (Rn eq_refl); reflexivity|].
          destruct (list_rev_ind_case vs0) as [V|(vs1 & v & V)]; [discriminate (Rv V)|].
          destruct (Hb _ _ V) as (_ & _ & ->). reflexivity. }
        rewrite Fr.
        assert (Next : forall q, q = hd (hd pt2 vs0) R' ->
          lr_ok pts (LR (index + 1) ri lri pt2 pt3 q (Some (hd pt2 vs0)) (Some pt2) (result ++ [e])) /\
          (lr_measure pts (LR (index + 1) ri lri pt2 pt3 q (Some (hd pt2 vs0)) (Some pt2) (result ++ [e]))
           < lr_measure pts (LR index ri lri pt1 pt2 pt3 front back result))%nat).
        { intros q Eq. split.
          2:{ unfold lr_measure; cbn [lr_index lr_result lr_ri]; rewrite Ei, app_length; cbn [length] in *; lia. }
          assert (Hh : hd pt3 (vs0 ++ [pt2]) = hd pt2 vs0) by (destruct vs0; reflexivity).
          exists (L0 ++ [l]), pt3, R', T, (vs0 ++ [pt2]).
          constructor; cbn [lr_index lr_ri lr_lri lr_pt1 lr_pt2 lr_pt3 lr_front lr_back lr_result]; rewrite ?Hh;
            try assumption.
          - rewrite Ep, <- app_assoc. reflexivity.
          - rewrite Ei, app_length. cbn. lia.
          - rewrite Er, app_length. cbn. lia.
          - rewrite (last_step pt3 R' l). exact Hl.
          - rewrite <- app_assoc. exact He'.
          - rewrite <- app_assoc. exact Hg'.
          - intros V. destruct vs0; discriminate.
          - intros vs1 v V. apply app_inj_tail in V. destruct V as (_ & ->). auto.
          - intros _. left. reflexivity.
          - intros c A. rewrite (Hs c A), <- app_assoc. reflexivity.
          - intros x Hx. apply in_app_or in Hx. destruct Hx as [Hx|[<-|[]]]; auto. }
        unfold lr_next_pt3. destruct (Z.eqb_spec (index + 1) lri) as [Q'|Q'].
        -- assert (R' = []) by (destruct R'; [reflexivity|cbn in *; lia]). subst R'.
           destruct (result ++ [e]) as [|e0 res'] eqn:Er'; [destruct result; discriminate|]. rewrite <- Er' in *.
           apply Next. reflexivity.
        -- destruct R' as [|q R']; [cbn in *; lia|].
           rewrite (py_nth_eq (L0 ++ [l; pt3]) q (R' ++ T)); cbn [rbind].
           ++ apply Next. reflexivity.
           ++ rewrite Ep, <- app_assoc. reflexivity.
           ++ rewrite app_length. cbn. lia.
Qed.
