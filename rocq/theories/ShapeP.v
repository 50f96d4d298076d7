(** * What [LinearRing.edges] computes is the ring with all loose points left out *)
From Coq Require Import ZArith List Bool Lia Psatz.
From Verif Require Import Py Monad Utils Geometry LinearRingM SpecRing MiscP ListP ScanP FloatP LinearRingP LinearRing2P RepeatP SpecReduce ReduceP.
Import ListNotations.
Open Scope Z_scope.

Lemma steps_at a x b : loose x (b ++ a) -> steps (a ++ x :: b) (a ++ b).
Proof.
  intros L. eapply steps_left; [apply turned_app|]. cbn [app]. eapply steps_trans; [apply steps_drop, L|]. apply steps_turn, turned_app.
Qed.
Lemma loose_dup x l : loose x (x :: l).
Proof. unfold loose, on_line. cbn [hd]. ring. Qed.
Lemma steps_dup a x b : steps (a ++ x :: x :: b) (a ++ x :: b).
Proof. apply steps_at. cbn [app]. apply loose_dup. Qed.
Lemma steps_copies p X : X <> [] -> Forall (eq p) X -> forall A, steps (A ++ X) (A ++ [p]).
Proof.
  intros N F A. destruct X as [|x X]; [contradiction|]. clear N. pose proof (Forall_inv F) as Q. subst x. pose proof (Forall_inv_tail F) as F'. clear F.
  induction X as [|x X IH]; [apply steps_refl|]. pose proof (Forall_inv F') as Q. subst x.
  eapply steps_trans; [apply steps_dup|]. apply IH. exact (Forall_inv_tail F').
Qed.
Lemma steps_tail p S X : X <> [] -> Forall (eq p) X -> steps (S ++ X) (p :: S).
Proof. intros N F. eapply steps_trans; [apply (steps_copies p X N F)|]. apply steps_turn. apply (turned_app S [p]). Qed.
Lemma steps_one a : steps [a] [].
Proof. apply steps_drop. unfold loose, on_line. cbn. ring. Qed.
Lemma steps_two a b : steps [a; b] [].
Proof. eapply steps_trans; [apply steps_drop|apply steps_one]. unfold loose, on_line. cbn. ring. Qed.
Lemma steps_const p l : Forall (eq p) l -> steps l [].
Proof.
  intros F. destruct l as [|x l]; [apply steps_refl|]. eapply steps_trans; [apply (steps_copies p (x :: l) ltac:(discriminate) F [])|]. apply steps_one.
Qed.

(** ** The main loop *)
Lemma closed_end pts s L0 l T v W : lr_inv pts s L0 l [] T (v :: W) -> lr_pt2 s = v -> closed_chain pts (lr_result s) v W.
Proof.
  intros H E. pose proof (i_edges _ _ _ _ _ _ _ H) as He. pose proof (i_good _ _ _ _ _ _ _ H) as Hg.
  pose proof (i_sum _ _ _ _ _ _ _ H) as Hs. pose proof (i_incl _ _ _ _ _ _ _ H) as Hi. rewrite E in *. cbn [app] in *.
  assert (Wn : W <> []).
  { intros ->. destruct Hg as (Hg & _). inversion Hg as [|? ? X]; subst. apply X. reflexivity. }
  split; [exact Wn|]. split; [exact He|]. split; [exact Hg|]. split.
  - intros c A. rewrite (Hs c A), (csum_drop_tail c v W [v] A); [reflexivity|repeat constructor].
  - intros x Hx. apply Hi. cbn in *. destruct Hx; [auto|]. right. apply in_or_app. auto.
Qed.
Lemma closed_close pts s L0 l T v W e : lr_inv pts s L0 l [] T (v :: W) -> lr_pt2 s <> lr_pt3 s ->
  ~ on_line (lr_pt1 s) (lr_pt2 s) (lr_pt3 s) -> mk_edge (lr_pt2 s) (lr_pt3 s) = Ok e ->
  closed_chain pts (lr_result s ++ [e]) v (W ++ [lr_pt2 s]).
Proof.
  intros H N NL Ee. pose proof (i_edges _ _ _ _ _ _ _ H) as He. pose proof (i_good _ _ _ _ _ _ _ H) as Hg.
  pose proof (i_sum _ _ _ _ _ _ _ H) as Hs. pose proof (i_incl _ _ _ _ _ _ _ H) as Hi. pose proof (i_pt3 _ _ _ _ _ _ _ H) as E3.
  pose proof (i_back _ _ _ _ _ _ _ H) as Hb. cbn [hd] in E3.
  assert (Hg' : good_chain ((v :: W) ++ [lr_pt2 s; lr_pt3 s])).
  { destruct (list_rev_ind_case (v :: W)) as [Q|(vs1 & u & Q)]; [discriminate|]. rewrite Q in *.
    destruct (Hb _ _ eq_refl) as (E1 & _). rewrite <- app_assoc in *. apply good_chain_snoc; [exact Hg|exact N|]. rewrite <- E1. exact NL. }
  pose proof (chain_edges_snoc _ _ _ _ _ He Ee) as He'. rewrite E3 in Hg', He'.
  unfold closed_chain. rewrite <- app_assoc. cbn [app] in *.
  split; [destruct W; discriminate|]. split; [exact He'|]. split; [exact Hg'|]. split; [|exact Hi].
  intros c A. rewrite (Hs c A), csum_cons, <- app_assoc. reflexivity.
Qed.
Lemma runs_steps pts s o : runs pts s o -> forall es L0 l R T vs0, o = Ok es -> lr_inv pts s L0 l R T vs0 ->
  es = [] /\ steps (vs0 ++ lr_pt2 s :: R) [] \/ exists v W, closed_chain pts es v W /\ steps (vs0 ++ lr_pt2 s :: R) (v :: W).
Proof.
  induction 1 as [s s1 o E _ IH|s r c E|s e E]; intros es L0 l R T vs0 Eo H; [| |discriminate].
  - assert (Via : forall L0' l' R' T' vs0', lr_inv pts s1 L0' l' R' T' vs0' -> steps (vs0 ++ lr_pt2 s :: R) (vs0' ++ lr_pt2 s1 :: R') ->
      es = [] /\ steps (vs0 ++ lr_pt2 s :: R) [] \/ exists v W, closed_chain pts es v W /\ steps (vs0 ++ lr_pt2 s :: R) (v :: W)).
    { intros L0' l' R' T' vs0' H1 St. destruct (IH es L0' l' R' T' vs0' Eo H1) as [(Q1 & Q2)|(v & W & Q1 & Q2)].
      - left. split; [exact Q1|]. eapply steps_trans; eassumption.
      - right. exists v, W. split; [exact Q1|]. eapply steps_trans; eassumption. }
    pose proof (lr_moves _ _ _ _ _ _ _ H) as M. rewrite E in M.
    inversion M as [| |R' s2 N23 ER NE H1 E2| |S X s2 N23 OL V0 ER NX FX NL H1 E2|vs1 s2 N23 OL V0 H1 E2| | |e R' s2 N23 NL Ee ER H1 E2]; subst s2.
    + apply (Via _ _ _ _ _ H1). rewrite E2, ER. apply steps_dup.
    + apply (Via _ _ _ _ _ H1). rewrite E2, V0 in *. cbn [app]. rewrite ER.
      eapply steps_trans; [apply steps_drop|apply steps_tail; assumption]. rewrite <- ER. unfold loose.
      pose proof (i_pt3 _ _ _ _ _ _ _ H) as E3. pose proof (i_pt1 _ _ _ _ _ _ _ H eq_refl) as E1. cbn [hd] in E3.
      rewrite <- E3. rewrite (last_any (lr_pt2 s) l) by (rewrite ER; destruct S; [exact NX|discriminate]). rewrite <- E1. exact OL.
    + apply (Via _ _ _ _ _ H1). rewrite E2. pose proof (i_pt3 _ _ _ _ _ _ _ H) as E3. rewrite V0 in *. rewrite <- app_assoc. cbn [app].
      change (vs1 ++ lr_pt1 s :: lr_pt2 s :: R) with (vs1 ++ [lr_pt1 s] ++ lr_pt2 s :: R).
      change (vs1 ++ lr_pt1 s :: R) with (vs1 ++ [lr_pt1 s] ++ R). rewrite !(app_assoc vs1). apply steps_at. unfold loose.
      rewrite app_assoc, last_last. replace (hd (lr_pt2 s) ((R ++ vs1) ++ [lr_pt1 s])) with (lr_pt3 s); [exact OL|].
      rewrite E3. rewrite <- app_assoc. destruct R; reflexivity.
    + apply (Via _ _ _ _ _ H1). rewrite E2, ER, <- app_assoc. apply steps_refl.
  - injection Eo as <-. pose proof (lr_moves _ _ _ _ _ _ _ H) as M. rewrite E in M.
    inversion M as [E23 ER|E23 ER V0| |p X N23 OL V0 ER NX FX| | | |e N23 NL Ee ER|]; subst r c; subst R.
    + destruct vs0 as [|v W].
      * left. split; [|apply steps_one]. pose proof (i_edges _ _ _ _ _ _ _ H) as He. inversion He. reflexivity.
      * right. pose proof (i_pt3 _ _ _ _ _ _ _ H) as E3. cbn [hd] in E3. rewrite <- E23 in E3. exists v, W. split; [eapply closed_end; eassumption|].
        rewrite E3. eapply steps_left; [apply turned_app|]. apply (steps_dup [] v W).
    + left. split; [reflexivity|]. subst vs0. apply steps_two.
    + left. split; [reflexivity|]. subst vs0. cbn [app]. pose proof (i_pt3 _ _ _ _ _ _ _ H) as E3. pose proof (i_pt1 _ _ _ _ _ _ _ H eq_refl) as E1. cbn [hd] in E3.
      eapply steps_trans; [apply steps_drop|eapply steps_trans; [apply (steps_tail (lr_pt1 s) [p] X NX FX)|apply steps_two]].
      unfold loose. cbn [hd]. rewrite E3 in OL. rewrite (last_any (lr_pt2 s) l) by discriminate. rewrite <- E1. exact OL.
    + right. destruct vs0 as [|v W].
      * exfalso. apply N23. rewrite (i_pt3 _ _ _ _ _ _ _ H). reflexivity.
      * exists v, (W ++ [lr_pt2 s]). split; [eapply closed_close; eassumption|]. apply steps_refl.
Qed.

(** ** The first and the last edge *)
Lemma lr_simplify_steps pts : forall fuel es v W, closed_chain pts es v W -> (length es <= fuel)%nat ->
  exists vs, good_ring pts (lr_simplify fuel es) vs /\ steps (v :: W) vs.
Proof.
  induction fuel as [|fuel IH]; intros es v W C Lf.
  - destruct (closed_chain_long _ _ _ _ C) as (w1 & M & wn & f & mid & b & _ & -> & _). cbn in Lf. lia.
  - destruct (closed_chain_long _ _ _ _ C) as (w1 & M & wn & f & mid & b & -> & -> & Nm & Hf & Hb & N1 & N2 & Hm & Hg).
    assert (Es : lr_simplify (S fuel) (f :: mid ++ [b]) =
                 match lr_merge f mid b with Some r => lr_simplify fuel r | None => f :: mid ++ [b] end).
    { cbn [lr_simplify]. destruct mid as [|m0 [|m1 mid]]; [contradiction| |].
      - reflexivity.
      - cbn [app]. replace (last_opt (m0 :: m1 :: mid ++ [b])) with (Some b)
          by (symmetry; apply (last_opt_app (m0 :: m1 :: mid) b)).
        replace (removelast (m0 :: m1 :: mid ++ [b])) with (m0 :: m1 :: mid)
          by (symmetry; apply (removelast_last (m0 :: m1 :: mid) b)). reflexivity. }
    rewrite Es. clear Es. cbn [length] in Lf. rewrite app_length in Lf. cbn [length] in Lf.
    destruct (lr_merge_spec v w1 wn f b mid Hf Hb N1 N2) as (Mn & Ms).
    assert (D : on_line wn v w1 \/ ~ on_line wn v w1)
      by (unfold on_line; match goal with |- ?a = ?b \/ _ => destruct (Z.eq_dec a b); auto end).
    destruct D as [D|D].
    2:{ rewrite (Mn D). exists (v :: w1 :: M ++ [wn]). split; [|apply steps_refl]. apply closed_chain_ring; [exact C|].
        intros w1' M' wn' E. injection E as <- E. apply app_inj_tail in E. destruct E as (_ & <-). exact D. }
    assert (Drop : steps (v :: w1 :: M ++ [wn]) (w1 :: M ++ [wn])).
    { apply steps_drop. unfold loose. rewrite app_comm_cons, last_last. cbn [app hd]. exact D. }
    pose proof C as (_ & He & (_ & Hg2) & Hs & Hi). cbn [app] in *. rewrite <- app_assoc in *. cbn [app] in *.
    assert (Hsum : forall c, additive c -> csum c pts = psum c (w1 :: M ++ [wn]) + c wn w1).
    { intros c A. rewrite (Hs c A), psum_cons.
      change (w1 :: M ++ [wn; v]) with ((w1 :: M) ++ [wn; v]). rewrite psum_snoc. destruct A as (_ & A).
      rewrite <- (A wn v w1 D). cbn [app]. lia. }
    assert (Via : forall es' v' W', closed_chain pts es' v' W' -> (length es' <= fuel)%nat -> steps (w1 :: M ++ [wn]) (v' :: W') ->
      exists vs, good_ring pts (lr_simplify fuel es') vs /\ steps (v :: w1 :: M ++ [wn]) vs).
    { intros es' v' W' C' L' St. destruct (IH es' v' W' C' L') as (vs & G & St'). exists vs. split; [exact G|].
      eapply steps_trans; [exact Drop|]. eapply steps_trans; eassumption. }
    destruct (Ms D) as [(-> & ->)|(Nw & e & Ee & [->| ->])].
    + (* the spike disappears *)
      apply (Via mid w1 M); [|lia|].
      * split; [|split; [exact Hm|split; [exact Hg|split]]].
        -- intros ->. destruct Hg as (Hg & _). cbn in Hg. apply Forall_inv in Hg. apply Hg. reflexivity.
        -- intros c A. rewrite (Hsum c A). destruct A as (Z & _). rewrite Z. lia.
        -- intros x Hx. apply Hi. cbn in *. destruct Hx as [->|Hx]; [auto|]. right. right. apply in_or_app. auto.
      * eapply steps_left; [apply (turned_app (w1 :: M) [w1])|]. apply (steps_dup [] w1 M).
    + apply (Via (e :: mid) wn (w1 :: M)); [|cbn; lia|].
      * split; [discriminate|]. split; [|split; [|split]].
        -- cbn [app]. unfold chain_edges. rewrite pairs_cons. constructor; [exact Ee|exact Hm].
        -- destruct Hg as (Hg & Hg3). split.
           ++ cbn [app]. rewrite pairs_cons. constructor; [exact Nw|exact Hg].
           ++ cbn [app]. destruct M as [|m M]; cbn [app] in *; rewrite triples_cons in *; (constructor; [|exact Hg3]); cbn [fst snd].
              ** intros Q. try rewrite triples_cons in Hg2. apply Forall_inv in Hg2. apply Hg2. cbn [fst snd].
                 unfold on_line in *. clear -Q D. nia.
              ** intros Q. try rewrite triples_cons in Hg2. apply Forall_inv in Hg2. apply Hg2. cbn [fst snd].
                 pose proof (on_line_trans wn w1 v m Nw ltac:(unfold on_line in *; nia) Q) as Q'. unfold on_line in *. nia.
        -- intros c A. rewrite (Hsum c A). cbn [app]. rewrite psum_cons. lia.
        -- intros x Hx. apply Hi. cbn in *. destruct Hx as [->|[->|Hx]]; auto; right; right; apply in_or_app; cbn; auto.
      * apply steps_turn. apply (turned_app (w1 :: M) [wn]).
    + apply (Via (mid ++ [e]) w1 (M ++ [wn])); [|rewrite app_length; cbn; lia|apply steps_refl].
      split; [destruct M; discriminate|]. rewrite <- app_assoc. cbn [app]. split; [|split; [|split]].
      * change (w1 :: M ++ [wn; w1]) with ((w1 :: M) ++ [wn; w1]). apply chain_edges_snoc; [exact Hm|exact Ee].
      * destruct (list_rev_ind_case (w1 :: M)) as [Q|(M' & m & Q)]; [discriminate|].
        change (w1 :: M ++ [wn; w1]) with ((w1 :: M) ++ [wn; w1]). change (w1 :: M ++ [wn]) with ((w1 :: M) ++ [wn]) in Hg.
        change (v :: w1 :: M ++ [wn; v]) with (v :: (w1 :: M) ++ [wn; v]) in Hg2.
        rewrite Q in Hg, Hg2 |- *. rewrite <- app_assoc in *. cbn [app] in *. apply good_chain_snoc; [exact Hg|exact Nw|].
        rewrite app_comm_cons, triples_snoc in Hg2. apply Forall_app in Hg2. destruct Hg2 as (_ & Hg2). apply Forall_inv in Hg2.
        cbn [fst snd] in Hg2. intros Q1. apply Hg2.
        pose proof (on_line_trans w1 wn v m ltac:(congruence) ltac:(unfold on_line in *; nia) ltac:(unfold on_line in *; nia)) as Q'.
        unfold on_line in *. nia.
      * intros c A. rewrite (Hsum c A). change (w1 :: M ++ [wn; w1]) with ((w1 :: M) ++ [wn; w1]). rewrite psum_snoc. cbn [app]. lia.
      * intros x Hx. apply Hi. cbn in *. rewrite in_app_iff in *. cbn in *. tauto.
Qed.

(** ** The whole *)
Lemma edges_steps pts es : linear_ring_edges pts = Ok es ->
  es = [] /\ steps pts [] \/ exists vs, good_ring pts es vs /\ steps pts vs.
Proof.
  destruct pts as [|p0 L]; [intros [= <-]; left; split; [reflexivity|apply steps_refl]|].
  destruct (split_tail p0 L) as [F|(M & X & -> & F & N)]; intros E.
  - rewrite (edges_const p0 L F) in E. injection E as <-. left. split; [reflexivity|]. apply (steps_const p0). constructor; auto.
  - destruct (edges_runs p0 M X N F) as (o & Ru & Ev). pose proof (start_inv p0 M X N F) as I0.
    destruct (Nat.le_gt_cases 2 (length (M ++ X))) as [Len|Len].
    + specialize (Ev Len). rewrite E in Ev. destruct o as [r|x|]; cbn [simp] in Ev; [|discriminate|discriminate]. injection Ev as ->.
      assert (D : steps (p0 :: M ++ X) (p0 :: M)).
      { destruct X as [|x X]; [rewrite app_nil_r; apply steps_refl|]. rewrite app_comm_cons. eapply steps_trans; [apply (steps_tail p0 (p0 :: M) (x :: X) ltac:(discriminate) F)|].
        apply (steps_dup [] p0 M). }
      destruct (runs_steps _ _ _ Ru r _ _ _ _ _ eq_refl I0) as [(-> & St)|(v & W & C & St)]; cbn [start lr_pt2 app] in St.
      * left. split; [reflexivity|]. eapply steps_trans; eassumption.
      * right. destruct (lr_simplify_steps _ (length r) _ _ _ C (Nat.le_refl _)) as (vs & G & St'). exists vs. split; [exact G|].
        eapply steps_trans; [exact D|]. eapply steps_trans; eassumption.
    + left. destruct (M ++ X) as [|a [|b l]] eqn:EL; [| |cbn in Len; lia].
      * injection E as <-. split; [reflexivity|apply steps_one].
      * injection E as <-. split; [reflexivity|apply steps_two].
Qed.
Lemma edges_shape r r' es es' : same_shape r r' -> linear_ring_edges r = Ok es -> linear_ring_edges r' = Ok es' ->
  exists a b, es = a ++ b /\ es' = b ++ a.
Proof.
  intros Sh E E'. destruct (edges_steps r es E) as [(-> & St)|(vs & G & St)], (edges_steps r' es' E') as [(-> & St')|(vs' & G' & St')].
  - exists [], []. auto.
  - exfalso. destruct G' as (L & _ & _ & T & _). pose proof (ring_normal _ L T) as Nv.
    pose proof (shape_normal _ _ Sh _ _ St nil_normal St' Nv) as Q. apply turned_length in Q. cbn in Q. lia.
  - exfalso. destruct G as (L & _ & _ & T & _). pose proof (ring_normal _ L T) as Nv.
    pose proof (shape_normal _ _ Sh _ _ St Nv St' nil_normal) as Q. apply turned_length in Q. cbn in Q. lia.
  - destruct G as (L & F & _ & T & _), G' as (L' & F' & _ & T' & _).
    destruct (shape_normal _ _ Sh _ _ St (ring_normal _ L T) St' (ring_normal _ L' T')) as (a & b & -> & ->).
    clear - F F'.
    assert (Same : forall ps u w, Forall2 (fun p e => mk_edge (fst p) (snd p) = Ok e) ps u -> Forall2 (fun p e => mk_edge (fst p) (snd p) = Ok e) ps w -> u = w).
    { induction ps as [|x ps IH]; intros u w U W; inversion U; inversion W; subst; [reflexivity|]. f_equal; [congruence|apply IH; assumption]. }
    destruct a as [|p a]; [exists [], es; split; [reflexivity|]; rewrite app_nil_r in *; cbn [app] in *; exact (Same _ _ _ F' F)|].
    destruct b as [|q b]; [exists es, []; split; [rewrite app_nil_r; reflexivity|]; rewrite app_nil_r in *; cbn [app] in *; exact (Same _ _ _ F' F)|].
    unfold cyclic_pairs in F, F'. cbn [app] in F, F'. rewrite <- app_assoc in F, F'. cbn [app] in F, F'.
    change (p :: a ++ q :: b ++ [p]) with ((p :: a) ++ q :: b ++ [p]) in F. change (q :: b ++ p :: a ++ [q]) with ((q :: b) ++ p :: a ++ [q]) in F'.
    rewrite pairs_app in F, F'. destruct (Forall2_app_inv_l _ _ F) as (e1 & e2 & F1 & F2 & ->). destruct (Forall2_app_inv_l _ _ F') as (f1 & f2 & G1 & G2 & ->).
    exists e1, e2. split; [reflexivity|]. rewrite (Same _ _ _ G1 F2), (Same _ _ _ G2 F1). reflexivity.
Qed.

(** ** The ring can be read off its edges *)
Lemma steps_shape l l' : steps l l' -> same_shape l l'.
Proof.
  assert (T : forall l l', turned l l' -> same_shape l l') by (intros ? ? (a & b & -> & ->); apply shape_start).
  induction 1 as [l l' H|l m l' (p & t & A & L & C) _ IH]; [apply T, H|].
  eapply shape_chain; [|exact IH]. eapply shape_chain; [apply T, A|]. eapply shape_chain; [apply shape_drop, L|apply T, C].
Qed.
Lemma mk_edge_same a b a' b' e : mk_edge a b = Ok e -> mk_edge a' b' = Ok e -> a = a' /\ b = b' \/ a = b' /\ b = a'.
Proof.
  intros H H'. destruct (mk_edge_orient _ _ _ H) as (O1 & O2), (mk_edge_orient _ _ _ H') as (P1 & P2).
  destruct (Z.lt_ge_cases (py a) (py b)) as [C|C], (Z.lt_ge_cases (py a') (py b')) as [C'|C'];
    [destruct (O1 C), (P1 C')|destruct (O1 C), (P2 C')|destruct (O2 C), (P1 C')|destruct (O2 C), (P2 C')]; subst; [left|right|right|left]; auto.
Qed.
Notation edges_of ps es := (Forall2 (fun p e => mk_edge (fst p) (snd p) = Ok e) ps es).
Lemma edges_cons p ps es : edges_of (p :: ps) es -> exists e es1, es = e :: es1 /\ mk_edge (fst p) (snd p) = Ok e /\ edges_of ps es1.
Proof. intros H. inversion H as [|? e ? es1 Q H1]; subst. eauto. Qed.
Lemma chain_unique : forall l a x l' es, edges_of (pairs (a :: x :: l)) es -> edges_of (pairs (a :: x :: l')) es ->
  Forall (fun p => fst p <> snd p) (pairs (a :: x :: l)) -> l = l'.
Proof.
  induction l as [|y l IH]; intros a x l' es H H' N.
  - destruct l' as [|y' l']; [reflexivity|]. exfalso. rewrite !pairs_cons in H, H'.
    destruct (edges_cons _ _ _ H) as (e & es1 & -> & _ & H1). destruct (edges_cons _ _ _ H') as (e' & es1' & [= <- <-] & _ & H1').
    inversion H1; subst. inversion H1'.
  - rewrite pairs_cons in H, N. apply Forall_inv_tail in N. rewrite pairs_cons in H'.
    destruct (edges_cons _ _ _ H) as (e & es1 & -> & _ & H1). destruct (edges_cons _ _ _ H') as (e' & es1' & [= <- <-] & _ & H1').
    destruct l' as [|y' l']; [exfalso; rewrite pairs_cons in H1; inversion H1'; subst; inversion H1|].
    assert (y = y').
    { rewrite pairs_cons in H1, H1', N. apply Forall_inv in N. cbn [fst snd] in N.
      destruct (edges_cons _ _ _ H1) as (e1 & es2 & -> & Q & _). destruct (edges_cons _ _ _ H1') as (e1' & es2' & [= <- <-] & Q' & _). cbn [fst snd] in Q, Q'.
      destruct (mk_edge_same _ _ _ _ _ Q Q') as [(_ & E)|(E & E')]; congruence. }
    subst y'. f_equal. exact (IH x y l' es1 H1 H1' N).
Qed.
Lemma ring_unique pts es vs vs' : good_ring pts es vs -> (3 <= length vs')%nat -> edges_of (cyclic_pairs vs') es -> vs = vs'.
Proof.
  intros (L & F & N & T & _) L' F'.
  destruct vs as [|a [|b [|c vs]]]; [cbn in L; lia..|]. destruct vs' as [|a' [|b' [|c' vs']]]; [cbn in L'; lia..|].
  unfold cyclic_pairs in F, F', N. unfold cyclic_triples in T. cbn [app] in *.
  assert (H2 : a = a' /\ b = b').
  { rewrite !pairs_cons in F, F', N. rewrite !triples_cons in T. apply Forall_inv in T. cbn [fst snd] in T.
    destruct (edges_cons _ _ _ F) as (e & es1 & E & Q & F1). destruct (edges_cons _ _ _ F') as (e' & es1' & E' & Q' & F1').
    rewrite E in E'. injection E' as <- <-.
    destruct (edges_cons _ _ _ F1) as (f & es2 & E1 & P & _). destruct (edges_cons _ _ _ F1') as (f' & es2' & E1' & P' & _).
    rewrite E1 in E1'. injection E1' as <- <-.
    cbn [fst snd] in *. destruct (mk_edge_same _ _ _ _ _ Q Q') as [E2|(E2 & E3)]; [exact E2|]. exfalso. subst b' a'.
    destruct (mk_edge_same _ _ _ _ _ P P') as [(E4 & _)|(E4 & E5)].
    - apply Forall_inv in N. apply N. cbn [fst snd]. congruence.
    - apply T. rewrite E5. unfold on_line. ring. }
  destruct H2 as (<- & <-). pose proof (chain_unique _ _ _ _ _ F F' N) as Q. f_equal. f_equal.
  change (c :: vs ++ [a]) with ((c :: vs) ++ [a]) in Q. change (c' :: vs' ++ [a]) with ((c' :: vs') ++ [a]) in Q.
  apply app_inj_tail in Q. apply Q.
Qed.
(** the points from which an edge starts, in the order of the edges *)
Lemma pairs_length a l : length (pairs (l ++ [a])) = length l.
Proof.
  induction l as [|x l IH]; [reflexivity|]. destruct l as [|y l]; [reflexivity|]. cbn [app] in *. rewrite pairs_cons. cbn [length]. rewrite IH. reflexivity.
Qed.
Lemma ring_turn pts e1 e2 vs : good_ring pts (e1 ++ e2) vs -> exists vs', turned vs vs' /\ (3 <= length vs')%nat /\ edges_of (cyclic_pairs vs') (e2 ++ e1).
Proof.
  intros G. destruct e1 as [|f e1]; [exists vs; rewrite app_nil_r; split; [apply turned_refl|split; apply G]|].
  destruct e2 as [|g e2]; [rewrite app_nil_r in G; exists vs; split; [apply turned_refl|split; apply G]|].
  pose proof G as (L & F & N & T & Cs & Ic).
  assert (Len : length vs = (length (f :: e1) + length (g :: e2))%nat).
  { rewrite <- app_length. destruct vs as [|a vs]; [cbn in L; lia|]. unfold cyclic_pairs in F.
    assert (Q : forall ps es, edges_of ps es -> length ps = length es) by (induction 1; cbn; congruence).
    apply Q in F. rewrite pairs_length in F. exact F. }
  destruct (firstn (length (f :: e1)) vs) as [|p x] eqn:Ex.
  { pose proof (firstn_length_le vs (n := length (f :: e1)) ltac:(lia)) as Q. rewrite Ex in Q. discriminate Q. }
  destruct (skipn (length (f :: e1)) vs) as [|q y] eqn:Ey.
  { pose proof (skipn_length (length (f :: e1)) vs) as Q. rewrite Ey in Q. cbn [length] in *. lia. }
  pose proof (firstn_skipn (length (f :: e1)) vs) as Ev. rewrite Ex, Ey in Ev.
  pose proof (firstn_length_le vs (n := length (f :: e1)) ltac:(lia)) as Lx. rewrite Ex in Lx.
  exists ((q :: y) ++ p :: x). split; [rewrite <- Ev; apply turned_app|]. rewrite <- Ev in *. clear Ev Ex Ey.
  split; [rewrite app_length in *; lia|]. unfold cyclic_pairs in *. cbn [app] in *. rewrite <- app_assoc in *. cbn [app] in *.
  change (p :: x ++ q :: y ++ [p]) with ((p :: x) ++ q :: y ++ [p]) in F. change (q :: y ++ p :: x ++ [q]) with ((q :: y) ++ p :: x ++ [q]).
  rewrite pairs_app in F |- *.
  assert (Split : edges_of (pairs ((p :: x) ++ [q])) (f :: e1) /\ edges_of (pairs (q :: y ++ [p])) (g :: e2)).
  { destruct (Forall2_app_inv_l _ _ F) as (u & w & F1 & F2 & E). change (f :: e1 ++ g :: e2) with ((f :: e1) ++ g :: e2) in E.
    assert (Q : forall ps es, edges_of ps es -> length ps = length es) by (induction 1; cbn; congruence).
    pose proof (Q _ _ F1) as L1. rewrite pairs_length in L1. assert (U : f :: e1 = u /\ g :: e2 = w).
    { clear -E L1 Lx. revert u E L1. rewrite Lx. generalize (f :: e1). intros l. induction l as [|a l IH]; intros [|b u] E L1; try discriminate; [auto|].
      cbn [app] in E. injection E as <- E. cbn in L1. destruct (IH u E ltac:(lia)) as (-> & ->). auto. }
    destruct U as (-> & ->). auto. }
  destruct Split as (S1 & S2). change (g :: e2 ++ f :: e1) with ((g :: e2) ++ f :: e1). apply Forall2_app; assumption.
Qed.
Lemma edges_shape_back r r' e1 e2 : linear_ring_edges r = Ok (e1 ++ e2) -> linear_ring_edges r' = Ok (e2 ++ e1) -> same_shape r r'.
Proof.
  intros E E'. destruct (edges_steps r _ E) as [(Z & St)|(vs & G & St)], (edges_steps r' _ E') as [(Z' & St')|(vs' & G' & St')].
  - eapply shape_chain; [apply steps_shape, St|]. apply shape_back, steps_shape, St'.
  - exfalso. apply app_eq_nil in Z. destruct Z as (-> & ->). destruct G' as (L & F & _). cbn [app] in F.
    destruct vs' as [|a [|b vs']]; [cbn in L; lia..|]. unfold cyclic_pairs in F. cbn [app] in F. rewrite pairs_cons in F. inversion F.
  - exfalso. apply app_eq_nil in Z'. destruct Z' as (-> & ->). destruct G as (L & F & _). cbn [app] in F.
    destruct vs as [|a [|b vs]]; [cbn in L; lia..|]. unfold cyclic_pairs in F. cbn [app] in F. rewrite pairs_cons in F. inversion F.
  - destruct (ring_turn _ _ _ _ G) as (ws & Tu & L & F). rewrite <- (ring_unique _ _ _ _ G' L F) in Tu.
    eapply shape_chain; [apply steps_shape, St|]. eapply shape_chain; [apply steps_shape, steps_turn, Tu|]. apply shape_back, steps_shape, St'.
Qed.
