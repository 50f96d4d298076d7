(** * [LinearRing.edges]: start of the main loop, merging of the ends, result *)
From Coq Require Import ZArith List Bool Lia Psatz.
From Verif Require Import Py Monad Utils Geometry LinearRingM SpecRing MiscP ListP ScanP FloatP LinearRingP.
Import ListNotations.
Open Scope Z_scope.

Lemma loopR_measure {X R} (body : X -> res (X + R)) (Inv : X -> Prop) (Post : R -> Prop) (Exc : exn -> Prop) (mu : X -> nat) :
  (forall x, Inv x -> match body x with
                      | Ok (inl x') => Inv x' /\ (mu x' < mu x)%nat
                      | Ok (inr r) => Post r
                      | Raise e => Exc e
                      | NoFuel => False
                      end) ->
  forall fuel x, Inv x -> (mu x < fuel)%nat ->
    match loopR fuel body x with Ok r => Post r | Raise e => Exc e | NoFuel => False end.
Proof.
  intros H fuel. induction fuel as [|fuel IH]; intros x I L; [lia|]. cbn. specialize (H x I).
  destruct (body x) as [[x'|r]|e|]; auto. destruct H as (I' & L'). apply IH; [exact I'|lia].
Qed.

(** ** The first loop *)
Lemma skip_back_all p0 pts : Forall (eq p0) pts -> forall fuel ri,
  - Z.of_nat (length pts) <= ri < Z.of_nat (length pts) -> ri + Z.of_nat (length pts) + 1 <= Z.of_nat fuel ->
  skip_back fuel pts p0 ri p0 = Ok None.
Proof.
  intros F. induction fuel as [|fuel IH]; intros ri H1 H2; [lia|]. cbn [skip_back]. rewrite point_eqb_refl. cbv zeta.
  unfold py_nth, py_index.
  destruct (Z.leb_spec 0 (ri - 1)) as [A|A], (Z.ltb_spec (ri - 1) (Z.of_nat (length pts))) as [B|B]; cbn [andb]; try lia.
  - destruct (nth_error pts (Z.to_nat (ri - 1))) as [q|] eqn:E.
    + assert (q = p0) by (apply nth_error_In in E; rewrite Forall_forall in F; symmetry; apply F, E). subst q.
      apply IH; lia.
    + reflexivity.
  - destruct ((- Z.of_nat (length pts) <=? ri - 1) && (ri - 1 <? 0)) eqn:C; [|reflexivity].
    apply andb_true_iff in C. destruct C as (C & D). apply Z.leb_le in C. apply Z.ltb_lt in D.
    destruct (nth_error _ _) as [q|] eqn:E.
    + assert (q = p0) by (apply nth_error_In in E; rewrite Forall_forall in F; symmetry; apply F, E). subst q.
      apply IH; lia.
    + reflexivity.
Qed.
Lemma py_nth_last (p0 : point) M X T :
  py_nth (p0 :: M ++ X ++ T) (Z.of_nat (length M + length X)) = Ok (last (M ++ X) p0).
Proof.
  assert (A : p0 :: M ++ X = removelast (p0 :: M ++ X) ++ [last (p0 :: M ++ X) p0])
    by (apply app_removelast_last; discriminate).
  apply (py_nth_eq (removelast (p0 :: M ++ X)) (last (M ++ X) p0) T).
  - rewrite (app_assoc M X T), app_comm_cons. rewrite A at 1. rewrite <- app_assoc. cbn [app]. rewrite <- last_step. reflexivity.
  - f_equal. apply (f_equal (@length _)) in A. rewrite app_length in A. cbn [length] in A. rewrite app_length in A. lia.
Qed.
Lemma skip_back_spec p0 : forall X M T fuel, last M p0 <> p0 -> Forall (eq p0) X -> (length X < fuel)%nat ->
  skip_back fuel (p0 :: M ++ X ++ T) p0 (Z.of_nat (length M + length X)) (last (M ++ X) p0)
  = Ok (Some (Z.of_nat (length M), last M p0)).
Proof.
  intros X. induction X as [|x X IH] using rev_ind; intros M T fuel N F Lf.
  - destruct fuel as [|fuel]; [cbn in Lf; lia|]. rewrite app_nil_r. cbn [skip_back length]. rewrite Nat.add_0_r.
    rewrite (proj2 (point_eqb_neq _ _)) by exact N. reflexivity.
  - apply Forall_app in F. destruct F as (F & Fx). apply Forall_inv in Fx. subst x.
    rewrite app_length in *. cbn [length] in *. destruct fuel as [|fuel]; [lia|].
    cbn [skip_back]. rewrite (app_assoc M), last_last, point_eqb_refl. cbv zeta.
    replace (Z.of_nat (length M + (length X + 1)) - 1) with (Z.of_nat (length M + length X)) by lia.
    rewrite <- (app_assoc X). rewrite py_nth_last. apply IH; [exact N|exact F|lia].
Qed.
Lemma split_tail (p0 : point) l : Forall (eq p0) l \/
  exists M X, l = M ++ X /\ Forall (eq p0) X /\ last M p0 <> p0.
Proof.
  induction l as [|p l IH] using rev_ind; [left; constructor|]. destruct (point_eq_dec p0 p) as [<-|N].
  - destruct IH as [F|(M & X & -> & F & L)].
    + left. apply Forall_app. split; [exact F|repeat constructor].
    + right. exists M, (X ++ [p0]). rewrite app_assoc. split; [reflexivity|]. split; [|exact L].
      apply Forall_app. split; [exact F|repeat constructor].
  - right. exists (l ++ [p]), []. rewrite app_nil_r. split; [reflexivity|]. split; [constructor|].
    rewrite last_last. congruence.
Qed.

(** the main loop, from its initial state *)
Definition lr_run (pts : list point) (r : res (list edge * bool)) : Prop :=
  match r with Ok x => lr_post pts x | Raise e => overflow pts e | NoFuel => False end.
Lemma lr_loop p0 M X : last M p0 <> p0 -> Forall (eq p0) X ->
  lr_run (p0 :: M ++ X) (loopR (lr_fuel (p0 :: M ++ X)) (lr_body (p0 :: M ++ X))
    (LR 1 (Z.of_nat (length M)) (Z.of_nat (length M) + 1) (last M p0) p0 (hd p0 (M ++ X)) None None [])).
Proof.
  intros N F. apply (loopR_measure _ (lr_ok (p0 :: M ++ X)) _ _ (lr_measure (p0 :: M ++ X))).
  - apply lr_body_step.
  - exists [], p0, M, X, [].
    assert (Mn : M <> []) by (intros ->; apply N; reflexivity).
    constructor; cbn [lr_index lr_ri lr_lri lr_pt1 lr_pt2 lr_pt3 lr_front lr_back lr_result hd app length]; auto.
    + constructor.
    + apply good_chain_one.
    + intros vs1 v V. destruct vs1; discriminate.
    + destruct M; [contradiction|reflexivity].
    + intros c A. apply csum_drop_tail; assumption.
    + intros x [<-|[]]. left. reflexivity.
  - unfold lr_measure, lr_fuel. cbn [lr_index lr_ri lr_result length]. rewrite Nat2Z.id, app_length. lia.
Qed.
Lemma flat_const p0 l : Forall (eq p0) l -> flat (p0 :: l).
Proof. intros F c A. pose proof (csum_drop_tail c p0 [] l A F) as E. cbn [app] in E. rewrite E. apply csum_one, A. Qed.

(** ** Merging the ends *)
Lemma truediv_edge u v w x e : mk_edge u v = Ok e ->
  (* the edge w x has the same direction ratio as u v *)
  (py u - py v) * (px w - px x) = (px u - px v) * (py w - py x) ->
  (py u - py v = 0 <-> py w - py x = 0) ->
  mk_edge w x = Ok (let '(b, t) := if py w <? py x then (x, w) else (w, x) in Edge t b (eslope e)).
Proof.
  intros H E Z. unfold mk_edge in *.
  destruct (Z.ltb_spec (py u) (py v)) as [A|A], (Z.ltb_spec (py w) (py x)) as [B|B]; cbv beta iota zeta in *.
  all: match type of H with (if ?d =? 0 then _ else _) = _ => destruct (Z.eqb_spec d 0) as [C|C] end.
  all: match goal with |- (if ?d =? 0 then _ else _) = _ => destruct (Z.eqb_spec d 0) as [D|D] end; try lia.
  all: try (injection H as <-; reflexivity).
  all: match type of H with (_ <- int_truediv ?a ?b ;; _)%res = _ =>
       match goal with |- (_ <- int_truediv ?c ?d ;; _)%res = _ => rewrite (truediv_ratio c d a b) by nia end end.
  all: destruct (int_truediv _ _); try discriminate; cbn in *; injection H as <-; reflexivity.
Qed.
Lemma mk_edge_shape u v e : mk_edge u v = Ok e ->
  e = (let '(b, t) := if py u <? py v then (v, u) else (u, v) in Edge t b (eslope e)).
Proof.
  intros H. pose proof (truediv_edge u v u v e H ltac:(ring) ltac:(tauto)) as E. rewrite H in E. injection E as E. exact E.
Qed.
Lemma point_ext a b : px a = px b -> py a = py b -> a = b.
Proof. destruct a, b. cbn. congruence. Qed.
Ltac peq :=
  repeat match goal with
  | |- context [point_eqb ?a ?a] => rewrite (point_eqb_refl a)
  | |- context [point_eqb ?a ?b] =>
      first [ rewrite (proj2 (point_eqb_neq a b)) by (intros Q; apply (f_equal py) in Q; cbn in Q; lia)
            | rewrite (proj2 (point_eqb_neq a b)) by congruence ]
  end.
Lemma lr_merge_spec v w1 wn f b mid : mk_edge v w1 = Ok f -> mk_edge wn v = Ok b -> v <> w1 -> wn <> v ->
  (~ on_line wn v w1 -> lr_merge f mid b = None) /\
  (on_line wn v w1 ->
   wn = w1 /\ lr_merge f mid b = Some mid \/
   wn <> w1 /\ exists e, mk_edge wn w1 = Ok e /\ (lr_merge f mid b = Some (e :: mid) \/ lr_merge f mid b = Some (mid ++ [e]))).
Proof.
  intros Hf Hb N1 N2.
  pose proof (mk_edge_shape _ _ _ Hf) as Ef. pose proof (mk_edge_shape _ _ _ Hb) as Eb.
  assert (Hd : v = w1 \/ px v <> px w1 \/ py v <> py w1).
  { destruct (Z.eq_dec (px v) (px w1)), (Z.eq_dec (py v) (py w1)); auto. left. apply point_ext; assumption. }
  destruct Hd as [Hd|Hd]; [contradiction|].
  assert (Hd' : wn = v \/ px wn <> px v \/ py wn <> py v).
  { destruct (Z.eq_dec (px wn) (px v)), (Z.eq_dec (py wn) (py v)); auto. left. apply point_ext; assumption. }
  destruct Hd' as [Hd'|Hd']; [contradiction|].
  assert (Sl : edges_slopes_equal f b = true <-> on_line wn v w1).
  { rewrite Ef, Eb. unfold edges_slopes_equal, on_line.
    destruct (Z.ltb_spec (py v) (py w1)), (Z.ltb_spec (py wn) (py v)); cbn [etop ebot]; rewrite Z.eqb_eq; split; intros; nia. }
  split.
  { intros L. unfold lr_merge. destruct (edges_slopes_equal f b); [|reflexivity]. exfalso. apply L, Sl. reflexivity. }
  intros L. destruct (point_eq_dec wn w1) as [Ew|Nw].
  - left. split; [exact Ew|]. subst wn. unfold lr_merge. rewrite (proj2 Sl L).
    rewrite Ef, Eb. destruct (Z.ltb_spec (py v) (py w1)), (Z.ltb_spec (py w1) (py v)); cbn [etop ebot]; try lia.
    + peq. reflexivity.
    + peq. reflexivity.
    + peq. reflexivity.
  - right. split; [exact Nw|].
    assert (Hd2 : px wn <> px w1 \/ py wn <> py w1).
    { destruct (Z.eq_dec (px wn) (px w1)), (Z.eq_dec (py wn) (py w1)); auto. elim Nw. apply point_ext; assumption. }
    assert (Hz : py v - py w1 = 0 <-> py wn - py w1 = 0) by (unfold on_line in L; split; intros; nia).
    assert (Hz2 : py wn - py v = 0 <-> py wn - py w1 = 0) by (unfold on_line in L; split; intros; nia).
    pose proof (truediv_edge v w1 wn w1 f Hf ltac:(unfold on_line in L; nia) Hz) as E1.
    pose proof (truediv_edge wn v wn w1 b Hb ltac:(unfold on_line in L; nia) Hz2) as E2.
    eexists. split; [exact E1|]. rewrite E1 in E2. injection E2 as E2.
    assert (Sle : eslope f = eslope b) by (revert E2; destruct (py wn <? py w1); congruence). clear E2.
    unfold lr_merge. rewrite (proj2 Sl L). clear Sl E1. rewrite Ef, Eb.
    destruct (Z.ltb_spec (py v) (py w1)) as [A|A], (Z.ltb_spec (py wn) (py v)) as [B|B]; cbn [etop ebot eslope].
    + (* v top of both: upwards chain bottom w1, top v; b bottom v, top wn *)
      peq. left. unfold set_top. cbn [etop ebot eslope]. destruct (Z.ltb_spec (py wn) (py w1)); [reflexivity|lia].
    + assert (B' : py v < py wn) by nia. peq. cbn [andb]. unfold point_between.
      rewrite (proj2 (point_eqb_neq v w1)), (proj2 (point_eqb_neq w1 wn)), (proj2 (point_eqb_neq v wn)) by congruence.
      cbn [orb]. unfold set_top. cbn [etop ebot eslope].
      destruct (Z.eqb_spec (px v) (px wn)); cbn [negb].
      * rewrite Z.gtb_ltb. destruct (Z.ltb_spec (py v) (py w1)); [|lia].
        destruct (Z.ltb_spec (py w1) (py wn)); cbn [Bool.eqb].
        -- right. destruct (Z.ltb_spec (py wn) (py w1)); [lia|]. rewrite Sle. reflexivity.
        -- left. destruct (Z.ltb_spec (py wn) (py w1)); [reflexivity|]. unfold on_line in L. exfalso. nia.
      * rewrite Z.gtb_ltb. destruct (Z.ltb_spec (px v) (px w1)), (Z.ltb_spec (px w1) (px wn)); cbn [Bool.eqb];
          destruct (Z.ltb_spec (py wn) (py w1)); try (left; reflexivity); try (right; rewrite Sle; reflexivity);
          exfalso; unfold on_line in L; nia.
    + assert (A' : py w1 < py v) by (unfold on_line in L; nia). peq. cbn [andb]. unfold point_between.
      rewrite (proj2 (point_eqb_neq v w1)), (proj2 (point_eqb_neq w1 wn)), (proj2 (point_eqb_neq v wn)) by congruence.
      cbn [orb]. unfold set_bot. cbn [etop ebot eslope].
      destruct (Z.eqb_spec (px v) (px wn)); cbn [negb].
      * rewrite Z.gtb_ltb. destruct (Z.ltb_spec (py v) (py w1)); [lia|].
        destruct (Z.ltb_spec (py w1) (py wn)); cbn [Bool.eqb].
        -- left. destruct (Z.ltb_spec (py wn) (py w1)); [lia|]. reflexivity.
        -- right. destruct (Z.ltb_spec (py wn) (py w1)); [rewrite Sle; reflexivity|]. unfold on_line in L. exfalso. nia.
      * rewrite Z.gtb_ltb. destruct (Z.ltb_spec (px v) (px w1)), (Z.ltb_spec (px w1) (px wn)); cbn [Bool.eqb];
          destruct (Z.ltb_spec (py wn) (py w1)); try (left; reflexivity); try (right; rewrite Sle; reflexivity);
          exfalso; unfold on_line in L; nia.
    + peq. left. unfold set_bot. cbn [etop ebot eslope]. destruct (Z.ltb_spec (py wn) (py w1)); [lia|reflexivity].
Qed.

(** ** The [while modified] loop *)
Lemma on_line_trans a b c d : a <> b -> on_line a b c -> on_line a b d -> on_line b c d.
Proof.
  unfold on_line. intros N H1 H2.
  assert (Hd : px a <> px b \/ py a <> py b).
  { destruct (Z.eq_dec (px a) (px b)), (Z.eq_dec (py a) (py b)); auto. elim N. apply point_ext; assumption. }
  destruct Hd as [Hd|Hd].
  - assert (E1 : (px b - px a) * (py c - py b) = (py b - py a) * (px c - px b)) by lia.
    assert (E2 : (px b - px a) * (py d - py b) = (py b - py a) * (px d - px b)) by lia.
    apply (Z.mul_reg_l _ _ (px b - px a)); [lia|].
    transitivity ((px c - px b) * ((px b - px a) * (py d - py b))); [ring|]. rewrite E2.
    transitivity ((px d - px b) * ((px b - px a) * (py c - py b))); [rewrite E1; ring|ring].
  - assert (E1 : (py b - py a) * (px c - px b) = (px b - px a) * (py c - py b)) by lia.
    assert (E2 : (py b - py a) * (px d - px b) = (px b - px a) * (py d - py b)) by lia.
    apply (Z.mul_reg_l _ _ (py b - py a)); [lia|].
    transitivity ((py d - py b) * ((py b - py a) * (px c - px b))); [ring|]. rewrite E1.
    transitivity ((py c - py b) * ((py b - py a) * (px d - px b))); [rewrite E2; ring|ring].
Qed.
Lemma closed_chain_long pts es v W : closed_chain pts es v W ->
  exists w1 M wn f mid b, W = w1 :: M ++ [wn] /\ es = f :: mid ++ [b] /\ mid <> [] /\
    mk_edge v w1 = Ok f /\ mk_edge wn v = Ok b /\ v <> w1 /\ wn <> v /\
    chain_edges (w1 :: M ++ [wn]) mid /\ good_chain (w1 :: M ++ [wn]).
Proof.
  intros (Wn & He & Hg & _ & _). destruct W as [|w1 W]; [contradiction|]. clear Wn.
  destruct (list_rev_ind_case W) as [->|(M & wn & ->)].
  - exfalso. destruct Hg as (_ & Hg). cbn in Hg. apply Forall_inv in Hg. apply Hg. unfold on_line. cbn. ring.
  - cbn [app] in *. rewrite <- app_assoc in *. cbn [app] in *.
    unfold chain_edges in He. rewrite pairs_cons in He. inversion He as [|p f ps es' Hf He' E1 E2]; subst. clear He.
    change (chain_edges ((w1 :: M) ++ [wn; v]) es') in He'.
    destruct (chain_edges_snoc_inv _ _ _ _ He') as (mid & b & -> & Hm & Hb). cbn [app fst snd] in *.
    pose proof (good_chain_tail _ _ Hg) as Hg1.
    change (good_chain ((w1 :: M) ++ [wn; v])) in Hg1.
    exists w1, M, wn, f, mid, b. repeat split; auto.
    + intros ->. apply chain_edges_length in Hm. cbn in Hm. rewrite app_length in Hm. cbn in Hm. lia.
    + destruct Hg as (Hg & _). rewrite pairs_cons in Hg. apply Forall_inv in Hg. exact Hg.
    + destruct Hg1 as (Hg1 & _). rewrite pairs_snoc in Hg1. apply Forall_app in Hg1. destruct Hg1 as (_ & Hg1).
      apply Forall_inv in Hg1. exact Hg1.
    + apply good_chain_removelast in Hg1. apply Hg1.
    + apply good_chain_removelast in Hg1. apply Hg1.
Qed.
(** the final shape: the cyclic chain [vs] has no degenerate vertex *)
Definition good_ring (pts : list point) (es : list edge) (vs : list point) : Prop :=
  (3 <= length vs)%nat /\
  Forall2 (fun p e => mk_edge (fst p) (snd p) = Ok e) (cyclic_pairs vs) es /\
  Forall (fun p => fst p <> snd p) (cyclic_pairs vs) /\
  Forall (fun t => ~ on_line (fst (fst t)) (snd (fst t)) (snd t)) (cyclic_triples vs) /\
  (forall c, additive c -> csum c pts = csum c vs) /\ incl vs pts.
Lemma closed_chain_ring pts es v W : closed_chain pts es v W ->
  (forall w1 M wn, W = w1 :: M ++ [wn] -> ~ on_line wn v w1) -> good_ring pts es (v :: W).
Proof.
  intros C H. destruct (closed_chain_long _ _ _ _ C) as (w1 & M & wn & f & mid & b & -> & E & _).
  specialize (H _ _ _ eq_refl). destruct C as (_ & He & (Hg1 & Hg2) & Hs & Hi).
  split; [cbn; rewrite app_length; cbn; lia|]. split; [exact He|]. split; [exact Hg1|]. split; [|split; [exact Hs|exact Hi]].
  unfold cyclic_triples. cbn [app] in *. rewrite <- app_assoc in *. cbn [app] in *.
  change (v :: w1 :: M ++ [wn; v; w1]) with ((v :: w1 :: M) ++ [wn; v; w1]). rewrite triples_snoc.
  apply Forall_app. split; [exact Hg2|]. repeat constructor. exact H.
Qed.
Lemma lr_simplify_spec pts : forall fuel es v W, closed_chain pts es v W -> (length es <= fuel)%nat ->
  exists vs, good_ring pts (lr_simplify fuel es) vs.
Proof.
  induction fuel as [|fuel IH]; intros es v W C Lf.
  - destruct (closed_chain_long _ _ _ _ C) as (w1 & M & wn & f & mid & b & _ & -> & _). cbn in Lf. lia.
  - destruct (closed_chain_long _ _ _ _ C) as (w1 & M & wn & f & mid & b & -> & -> & Nm & Hf & Hb & N1 & N2 & Hm & Hg).
    assert (Es : lr_simplify (S fuel) (f :: mid ++ [b]) =
                 match lr_merge f mid b with Some r => lr_simplify fuel r | None => f :: mid ++ [b] end).
    { cbn [lr_simplify]. destruct mid as [|m0 [|m1 mid]]; [contradiction| |].
      - reflexivity.
      - cbn [app]. replace (last_opt (m0 :: m1 :: mid ++ [b])) with (Some b)
          by (symmetry; apply (last_opt_app (m0 :: m1 :: mid) b)).
        replace (removelast (m0 :: m1 :: mid ++ [b])) with (m0 :: m1 :: mid)
          by (symmetry; apply (removelast_last (m0 :: m1 :: mid) b)). reflexivity. }
    rewrite Es. clear Es. cbn [length] in Lf. rewrite app_length in Lf. cbn [length] in Lf.
    destruct (lr_merge_spec v w1 wn f b mid Hf Hb N1 N2) as (Mn & Ms).
    assert (D : on_line wn v w1 \/ ~ on_line wn v w1)
      by (unfold on_line; match goal with |- ?a = ?b \/ _ => destruct (Z.eq_dec a b); auto end).
    destruct D as [D|D].
    2:{ rewrite (Mn D). exists (v :: w1 :: M ++ [wn]). apply closed_chain_ring; [exact C|].
        intros w1' M' wn' E. injection E as <- E. apply app_inj_tail in E. destruct E as (_ & <-). exact D. }
    pose proof C as (_ & He & (_ & Hg2) & Hs & Hi). cbn [app] in *. rewrite <- app_assoc in *. cbn [app] in *.
    assert (Hsum : forall c, additive c -> csum c pts = psum c (w1 :: M ++ [wn]) + c wn w1).
    { intros c A. rewrite (Hs c A), psum_cons.
      change (w1 :: M ++ [wn; v]) with ((w1 :: M) ++ [wn; v]). rewrite psum_snoc. destruct A as (_ & A).
      rewrite <- (A wn v w1 D). cbn [app]. lia. }
    destruct (Ms D) as [(-> & ->)|(Nw & e & Ee & [->| ->])].
    + (* the spike disappears *)
      apply (IH mid w1 M); [|lia].
      split; [|split; [exact Hm|split; [exact Hg|split]]].
      * intros ->. destruct Hg as (Hg & _). cbn in Hg. apply Forall_inv in Hg. apply Hg. reflexivity.
      * intros c A. rewrite (Hsum c A). destruct A as (Z & _). rewrite Z. lia.
      * intros x Hx. apply Hi. cbn in *. destruct Hx as [->|Hx]; [auto|]. right. right. apply in_or_app. auto.
    + apply (IH (e :: mid) wn (w1 :: M)); [|cbn; lia].
      split; [discriminate|]. split; [|split; [|split]].
      * cbn [app]. unfold chain_edges. rewrite pairs_cons. constructor; [exact Ee|exact Hm].
      * destruct Hg as (Hg & Hg3). split.
        -- cbn [app]. rewrite pairs_cons. constructor; [exact Nw|exact Hg].
        -- cbn [app]. destruct M as [|m M]; cbn [app] in *; rewrite triples_cons in *; (constructor; [|exact Hg3]); cbn [fst snd].
           ++ intros Q. try rewrite triples_cons in Hg2. apply Forall_inv in Hg2. apply Hg2. cbn [fst snd].
              unfold on_line in *. clear -Q D. nia.
           ++ intros Q. try rewrite triples_cons in Hg2. apply Forall_inv in Hg2. apply Hg2. cbn [fst snd].
              pose proof (on_line_trans wn w1 v m Nw ltac:(unfold on_line in *; nia) Q) as Q'. unfold on_line in *. nia.
      * intros c A. rewrite (Hsum c A). cbn [app]. rewrite psum_cons. lia.
      * intros x Hx. apply Hi. cbn in *. destruct Hx as [->|[->|Hx]]; auto; right; right; apply in_or_app; cbn; auto.
    + apply (IH (mid ++ [e]) w1 (M ++ [wn])); [|rewrite app_length; cbn; lia].
      split; [destruct M; discriminate|]. rewrite <- app_assoc. cbn [app]. split; [|split; [|split]].
      * change (w1 :: M ++ [wn; w1]) with ((w1 :: M) ++ [wn; w1]). apply chain_edges_snoc; [exact Hm|exact Ee].
      * destruct (list_rev_ind_case (w1 :: M)) as [Q|(M' & m & Q)]; [discriminate|].
        change (w1 :: M ++ [wn; w1]) with ((w1 :: M) ++ [wn; w1]). change (w1 :: M ++ [wn]) with ((w1 :: M) ++ [wn]) in Hg.
        change (v :: w1 :: M ++ [wn; v]) with (v :: (w1 :: M) ++ [wn; v]) in Hg2.
        rewrite Q in Hg, Hg2 |- *. rewrite <- app_assoc in *. cbn [app] in *. apply good_chain_snoc; [exact Hg|exact Nw|].
        rewrite app_comm_cons, triples_snoc in Hg2. apply Forall_app in Hg2. destruct Hg2 as (_ & Hg2). apply Forall_inv in Hg2.
        cbn [fst snd] in Hg2. intros Q1. apply Hg2.
        pose proof (on_line_trans w1 wn v m ltac:(congruence) ltac:(unfold on_line in *; nia) ltac:(unfold on_line in *; nia)) as Q'.
        unfold on_line in *. nia.
      * intros c A. rewrite (Hsum c A). change (w1 :: M ++ [wn; w1]) with ((w1 :: M) ++ [wn; w1]). rewrite psum_snoc. cbn [app]. lia.
      * intros x Hx. apply Hi. cbn in *. rewrite in_app_iff in *. cbn in *. tauto.
Qed.

(** ** The result *)
Theorem linear_ring_edges_spec pts :
  match linear_ring_edges pts with
  | Ok es => es = [] /\ flat pts \/ exists vs, good_ring pts es vs
  | Raise e => overflow pts e
  | NoFuel => False
  end.
Proof.
  destruct pts as [|p0 [|p1 [|p2 l]]].
  - left. split; [reflexivity|]. intros c A. reflexivity.
  - left. split; [reflexivity|]. intros c A. apply csum_one, A.
  - left. split; [reflexivity|]. intros c A. apply csum_two, A.
  - unfold linear_ring_edges. set (L := p1 :: p2 :: l).
    assert (Hl : py_nth (p0 :: L) (Z.of_nat (length (p0 :: L)) - 1) = Ok (last L p0)).
    { pose proof (py_nth_last p0 L [] []) as H. rewrite !app_nil_r in H. rewrite <- H. f_equal. cbn [length]. lia. }
    rewrite Hl. cbn [rbind].
    replace (Z.of_nat (length (p0 :: L)) - 1) with (Z.of_nat (length L)) by (cbn [length]; lia).
    destruct (split_tail p0 L) as [F|(M & X & E & F & N)].
    + replace (last L p0) with p0.
      * rewrite skip_back_all; cbn [rbind].
        -- left. split; [reflexivity|]. apply flat_const. exact F.
        -- constructor; [reflexivity|exact F].
        -- cbn [length]. lia.
        -- cbn [length]. lia.
      * symmetry. apply last_const; [discriminate|exact F].
    + pose proof (skip_back_spec p0 X M [] (S (2 * length (p0 :: L))) N F) as Sb.
      rewrite !app_nil_r, <- E in Sb. replace (length M + length X)%nat with (length L) in Sb by (rewrite E, app_length; reflexivity).
      rewrite Sb by (cbn [length]; rewrite E, app_length; lia). cbn [rbind].
      pose proof (lr_loop p0 M X N F) as Lp. rewrite <- E in Lp. change (hd p0 L) with p1 in Lp.
      destruct (loopR _ _ _) as [[es cont]|x|]; cbn [rbind lr_run] in *; [|exact Lp|exact Lp].
      destruct Lp as [(E1 & Fl)|(E1 & v & W & C)]; cbn [fst snd] in *.
      * subst es. destruct cont; (left; split; [reflexivity|exact Fl]).
      * subst cont. right. eapply lr_simplify_spec; [exact C|]. lia.
Qed.
