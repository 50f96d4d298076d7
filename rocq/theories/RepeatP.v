(** * Repeated vertices play no role in [LinearRing.edges] *)
From Coq Require Import ZArith List Bool Lia Psatz.
From Verif Require Import Py Monad Utils Geometry LinearRingM SpecRing MiscP ListP ScanP FloatP LinearRingP LinearRing2P.
Import ListNotations.
Open Scope Z_scope.

(** ** What one iteration of the main loop does to the points still to be read *)
Inductive moves (pts : list point) (s : lr_state) (L0 : list point) (l : point) (R T : list point) (vs0 : list point)
  : res (lr_state + (list edge * bool)) -> Prop :=
| mv_end : lr_pt2 s = lr_pt3 s -> R = [] -> moves pts s L0 l R T vs0 (Ok (inr (lr_result s, true)))
| mv_last : lr_pt2 s = lr_pt3 s -> R = [lr_pt2 s] -> vs0 = [] -> moves pts s L0 l R T vs0 (Ok (inr ([], true)))
| mv_skip : forall R' s1, lr_pt2 s = lr_pt3 s -> R = lr_pt2 s :: R' -> (vs0 <> [] \/ R' <> []) ->
    lr_inv pts s1 (L0 ++ [l]) (lr_pt2 s) R' T vs0 -> lr_pt2 s1 = lr_pt2 s -> lr_result s1 = lr_result s ->
    moves pts s L0 l R T vs0 (Ok (inl s1))
| mv_none : forall p X, lr_pt2 s <> lr_pt3 s -> on_line (lr_pt1 s) (lr_pt2 s) (lr_pt3 s) -> vs0 = [] ->
    R = p :: X -> X <> [] -> Forall (eq (lr_pt1 s)) X -> moves pts s L0 l R T vs0 (Ok (inr ([], false)))
| mv_back : forall S X s1, lr_pt2 s <> lr_pt3 s -> on_line (lr_pt1 s) (lr_pt2 s) (lr_pt3 s) -> vs0 = [] ->
    R = S ++ X -> X <> [] -> Forall (eq (lr_pt1 s)) X -> last S l <> lr_pt1 s ->
    lr_inv pts s1 L0 l S (X ++ T) [] -> lr_pt2 s1 = lr_pt1 s -> moves pts s L0 l R T vs0 (Ok (inl s1))
| mv_pop : forall vs1 s1, lr_pt2 s <> lr_pt3 s -> on_line (lr_pt1 s) (lr_pt2 s) (lr_pt3 s) -> vs0 = vs1 ++ [lr_pt1 s] ->
    lr_inv pts s1 L0 l R T vs1 -> lr_pt2 s1 = lr_pt1 s -> moves pts s L0 l R T vs0 (Ok (inl s1))
| mv_raise : lr_pt2 s <> lr_pt3 s -> ~ on_line (lr_pt1 s) (lr_pt2 s) (lr_pt3 s) ->
    mk_edge (lr_pt2 s) (lr_pt3 s) = Raise OverflowError -> moves pts s L0 l R T vs0 (Raise OverflowError)
| mv_close : forall e, lr_pt2 s <> lr_pt3 s -> ~ on_line (lr_pt1 s) (lr_pt2 s) (lr_pt3 s) ->
    mk_edge (lr_pt2 s) (lr_pt3 s) = Ok e -> R = [] -> moves pts s L0 l R T vs0 (Ok (inr (lr_result s ++ [e], true)))
| mv_push : forall e R' s1, lr_pt2 s <> lr_pt3 s -> ~ on_line (lr_pt1 s) (lr_pt2 s) (lr_pt3 s) ->
    mk_edge (lr_pt2 s) (lr_pt3 s) = Ok e -> R = lr_pt3 s :: R' ->
    lr_inv pts s1 (L0 ++ [l]) (lr_pt3 s) R' T (vs0 ++ [lr_pt2 s]) -> lr_pt2 s1 = lr_pt3 s ->
    moves pts s L0 l R T vs0 (Ok (inl s1)).

Lemma lr_moves pts s L0 l R T vs0 : lr_inv pts s L0 l R T vs0 -> moves pts s L0 l R T vs0 (lr_body pts s).
Proof.
  intros I. destruct s as [index ri lri pt1 pt2 pt3 front back result].
  destruct I as [Ep Ei Er El Hl He Hg H1 Hb H3 Hp Hs Hi].
  cbn [lr_index lr_ri lr_lri lr_pt1 lr_pt2 lr_pt3 lr_front lr_back lr_result] in *.
  assert (Lp : (S (length L0) + length R <= length pts)%nat) by (rewrite Ep, app_length; cbn; rewrite app_length; lia).
  assert (R0 : index = lri -> R = []) by (intros Q; destruct R; [reflexivity|cbn in *; lia]).
  assert (R1 : index <> lri -> exists p R', R = p :: R').
  { intros Q. destruct R as [|p R']; [cbn in *; lia|]. eauto. }
  assert (Rn : result = [] -> vs0 = []).
  { intros ->. apply chain_edges_length in He. rewrite app_length in He. cbn in He. destruct vs0; [reflexivity|cbn in He; lia]. }
  assert (Rv : vs0 = [] -> result = []).
  { intros ->. inversion He. reflexivity. }
  unfold lr_body. destruct (point_eqb pt2 pt3) eqn:E23.
  - (* pt2 = pt3 *)
    apply point_eqb_eq in E23. rewrite <- E23 in H3. rename H3 into H3'. subst pt3. rename H3' into H3.
    destruct (Z.eqb_spec index lri) as [Q|Q].
    + apply mv_end; [reflexivity|exact (R0 Q)].
    + destruct (R1 Q) as (p & R' & ER). subst R. cbn [hd] in H3. subst p. clear R0 R1.
      assert (Next : forall q, q = hd (hd pt2 vs0) R' ->
        (vs0 <> [] \/ R' <> []) ->
        moves pts (LR index ri lri pt1 pt2 pt2 front back result) L0 l (pt2 :: R') T vs0 (Ok (inl (LR (index + 1) ri lri pt1 pt2 q front back result)))).
      { intros q Eq NE. eapply mv_skip; cbn [lr_index lr_ri lr_lri lr_pt1 lr_pt2 lr_pt3 lr_front lr_back lr_result]; try reflexivity; [exact NE|].
        constructor; cbn [lr_index lr_ri lr_lri lr_pt1 lr_pt2 lr_pt3 lr_front lr_back lr_result];
          try assumption.
        - rewrite Ep, <- app_assoc. reflexivity.
        - rewrite Ei, app_length. cbn. lia.
        - rewrite Er, app_length. cbn. lia.
        - rewrite (last_step pt2 R' l). exact Hl.
        - intros V. rewrite (H1 V). apply eq_sym, last_step.
        - intros _. left. reflexivity.
        - intros c A. rewrite (Hs c A). apply csum_dup. exact A. }
      unfold lr_next_pt3. destruct (Z.eqb_spec (index + 1) lri) as [Q'|Q'].
      * assert (R' = []) by (destruct R'; [reflexivity|cbn in *; lia]). subst R'.
        destruct result as [|e0 result].
        -- apply mv_last; [reflexivity|reflexivity|exact (Rn eq_refl)].
        -- destruct (list_rev_ind_case vs0) as [V|(vs1 & v & V)]; [discriminate (Rv V)|].
           destruct (Hb _ _ V) as (_ & _ & ->). apply Next; [reflexivity|left; rewrite V; destruct vs1; discriminate].
      * destruct R' as [|q R']; [cbn in *; lia|].
        rewrite (py_nth_eq (L0 ++ [l; pt2]) q (R' ++ T)); cbn [rbind].
        -- apply Next; [reflexivity|right; discriminate].
        -- rewrite Ep, <- app_assoc. reflexivity.
        -- rewrite app_length. cbn. lia.
  - apply point_eqb_neq in E23. destruct (points_slopes_equal pt1 pt2 pt3) eqn:Es.
    + (* collinear: pt2 is dropped *)
      apply slopes_equal_spec in Es.
      assert (Hp' : R <> [] -> l <> pt3).
      { intros N. destruct (Hp N) as [X|X]; [subst l; exact E23|exact X]. }
      destruct (list_rev_ind_case vs0) as [->|(vs1 & v & ->)].
      * (* no edges yet: the start moves back *)
        rewrite (Rv eq_refl) in *. cbn [removelast]. cbn [last_opt rev]. cbn [hd] in *.
        specialize (H1 eq_refl).
        assert (Rne : R <> []) by (intros ->; apply E23; symmetry; exact H3).
        pose proof (skip_back2_spec pt1 L0 l R T (S (2 * length pts))) as Sk. cbv zeta in Sk.
        rewrite <- Ep, <- Ei, <- Er in Sk.
        destruct Sk as [(-> & p & X & ER & Xn & Fx)|(S & X & ER & Fx & Hl' & ->)].
        -- lia.
        -- intros ->. contradiction.
        -- intros ->. cbn in H3. rewrite <- H3. apply Hp'. exact Rne.
        -- eapply mv_none; cbn [lr_index lr_ri lr_lri lr_pt1 lr_pt2 lr_pt3 lr_front lr_back lr_result]; try reflexivity; eassumption.
        -- assert (Xn : X <> []).
           { intros ->. apply Hl'. rewrite app_nil_r in ER. subst S. symmetry. exact H1. }
           assert (E3 : pt3 = hd pt1 S).
           { rewrite ER in H3. destruct S as [|d S]; [|exact H3]. destruct X as [|x X]; [contradiction|].
             apply Forall_inv in Fx. cbn [app hd] in *. congruence. }
           rewrite (py_nth_eq (removelast (L0 ++ l :: S)) (last S l) (X ++ T)).
           ++ eapply (mv_back _ _ _ _ _ _ _ S X); cbn [lr_index lr_ri lr_lri lr_pt1 lr_pt2 lr_pt3 lr_front lr_back lr_result]; try reflexivity; try eassumption.
              ** constructor; cbn [lr_index lr_ri lr_lri lr_pt1 lr_pt2 lr_pt3 lr_front lr_back lr_result hd app]; auto.
                 --- rewrite Ep, ER, <- app_assoc. reflexivity.
                 --- intros vs1 v V. destruct vs1; discriminate.
                 --- intros c A. rewrite (Hs c A). cbn [app]. rewrite ER. apply csum_restart; auto. rewrite <- E3. exact Es.
                 --- intros x [<-|[]]. rewrite H1, Ep. apply in_or_app. right.
                     destruct (last_in R l) as [X1|X1]; [left; exact X1|right; apply in_or_app; left; exact X1].
           ++ rewrite Ep, ER.
              replace (removelast (L0 ++ l :: S) ++ last S l :: X ++ T)
                with ((removelast (L0 ++ l :: S) ++ [last (L0 ++ l :: S) l]) ++ X ++ T).
              ** rewrite <- app_removelast_last by (destruct L0; discriminate). rewrite <- !app_assoc. cbn. rewrite <- ?app_assoc. reflexivity.
              ** rewrite <- app_assoc. cbn. rewrite last_app_ne by discriminate. rewrite <- last_step. reflexivity.
           ++ replace (length (removelast (L0 ++ l :: S))) with (pred (length (L0 ++ l :: S))).
              ** rewrite app_length. cbn. f_equal. lia.
              ** rewrite (app_removelast_last (l := L0 ++ l :: S) l) at 1 by (destruct L0; discriminate).
                 rewrite app_length. cbn. lia.
      * (* the last edge is dropped *)
        destruct (Hb _ _ eq_refl) as (Ev & Hbk & Hfr). subst v. clear Hb H1.
        rewrite <- app_assoc in He, Hg, Hi. cbn [app] in He, Hg, Hi.
        destruct (chain_edges_snoc_inv _ _ _ _ He) as (es' & e & -> & He' & _).
        rewrite removelast_last.
        assert (Hsum : forall c, additive c -> csum c pts = csum c (vs1 ++ pt1 :: R)).
        { intros c A. rewrite (Hs c A), <- app_assoc. cbn [app]. destruct R as [|d R'].
          - destruct vs1 as [|h vs1].
            + cbn [app]. rewrite csum_two, csum_one by exact A. reflexivity.
            + cbn [app hd] in H3. subst pt3.
              rewrite (csum_rot c (h :: vs1) [pt1; pt2]), (csum_rot c (h :: vs1) [pt1]).
              apply (csum_collinear c [] pt1 pt2 h vs1 A Es).
          - cbn [hd] in H3. subst pt3. apply csum_collinear; assumption. }
        assert (Hhd : forall d, hd d (vs1 ++ [pt1]) = hd pt1 vs1) by (intros d; destruct vs1; reflexivity).
        rewrite Hhd in *.
        destruct (list_rev_ind_case vs1) as [->|(vs2 & u & ->)].
        -- assert (es' = []) by (inversion He'; reflexivity). subst es'. cbn [last_opt rev hd app] in *.
           pose proof (skip_back2_spec pt1 L0 l R T (S (2 * length pts))) as Sk. cbv zeta in Sk.
           rewrite <- Ep, <- Ei, <- Er in Sk.
           destruct Sk as [(-> & p & X & ER & Xn & Fx)|(S & X & ER & Fx & Hl' & ->)].
           ++ lia.
           ++ intros ->. exact Hl.
           ++ intros ->. elim Hl. reflexivity.
           ++ elim Hl. rewrite ER. change (p :: X) with ([p] ++ X). rewrite last_app_ne by exact Xn.
              apply last_const; assumption.
           ++ assert (X = []).
              { destruct X as [|x X]; [reflexivity|]. elim Hl. rewrite ER, last_app_ne by discriminate.
                apply last_const; [discriminate|assumption]. }
              subst X. rewrite app_nil_r in ER. subst S.
              rewrite (py_nth_eq (removelast (L0 ++ l :: R)) (last R l) T).
              ** eapply (mv_pop _ _ _ _ _ _ _ []); cbn [lr_index lr_ri lr_lri lr_pt1 lr_pt2 lr_pt3 lr_front lr_back lr_result app]; try reflexivity; try eassumption.
                 --- constructor; cbn [lr_index lr_ri lr_lri lr_pt1 lr_pt2 lr_pt3 lr_front lr_back lr_result hd app]; auto.
                     +++ apply good_chain_one.
                     +++ intros vs1 v V. destruct vs1; discriminate.
                     +++ intros x [<-|[]]. apply Hi. left. reflexivity.
              ** rewrite Ep.
                 replace (removelast (L0 ++ l :: R) ++ last R l :: T)
                   with ((removelast (L0 ++ l :: R) ++ [last (L0 ++ l :: R) l]) ++ T).
                 --- rewrite <- app_removelast_last by (destruct L0; discriminate). rewrite <- !app_assoc. reflexivity.
                 --- rewrite <- app_assoc. cbn. rewrite last_app_ne by discriminate. rewrite <- last_step. reflexivity.
              ** replace (length (removelast (L0 ++ l :: R))) with (pred (length (L0 ++ l :: R))).
                 --- rewrite app_length. cbn. f_equal. lia.
                 --- rewrite (app_removelast_last (l := L0 ++ l :: R) l) at 1 by (destruct L0; discriminate).
                     rewrite app_length. cbn. lia.
        -- rewrite <- app_assoc in He'. cbn [app] in He'.
           destruct (chain_edges_snoc_inv _ _ _ _ He') as (es'' & be & -> & He'' & Hbe).
           rewrite last_opt_app. subst back.
           assert (Nuv : u <> pt1).
           { destruct Hg as (Hg & _). rewrite <- !app_assoc in Hg. cbn [app] in Hg.
             replace (vs2 ++ [u; pt1; pt2]) with (vs2 ++ u :: [pt1; pt2]) in Hg by reflexivity.
             rewrite pairs_app in Hg. apply Forall_app in Hg. destruct Hg as (_ & Hg). inversion Hg; subst. assumption. }
           assert (Eu : (if (px pt1 =? px (etop be)) && (py pt1 =? py (etop be)) then ebot be else etop be) = u).
           { change ((px pt1 =? px (etop be)) && (py pt1 =? py (etop be))) with (point_eqb pt1 (etop be)).
             destruct (mk_edge_orient _ _ _ Hbe) as (O1 & O2).
             destruct (Z.lt_ge_cases (py u) (py pt1)) as [Lu|Lu].
             - destruct (O1 Lu) as (-> & ->). destruct (point_eqb_spec pt1 u); [congruence|reflexivity].
             - destruct (O2 Lu) as (-> & ->). rewrite point_eqb_refl. reflexivity. }
           rewrite Eu. eapply (mv_pop _ _ _ _ _ _ _ (vs2 ++ [u])); cbn [lr_index lr_ri lr_lri lr_pt1 lr_pt2 lr_pt3 lr_front lr_back lr_result app]; try reflexivity; try eassumption.
           ++ constructor; cbn [lr_index lr_ri lr_lri lr_pt1 lr_pt2 lr_pt3 lr_front lr_back lr_result]; auto.
              ** rewrite <- app_assoc. exact He'.
              ** rewrite <- !app_assoc in *. cbn [app] in *. 
                 apply (good_chain_removelast (vs2 ++ [u]) pt1 pt2) in Hg || idtac.
                 --- replace (vs2 ++ [u; pt1]) with ((vs2 ++ [u]) ++ [pt1]) by (rewrite <- app_assoc; reflexivity).
                     apply good_chain_removelast with (b := pt2). rewrite <- app_assoc. exact Hg.
              ** intros V. destruct vs2; discriminate.
              ** intros vs3 v V. apply app_inj_tail in V. destruct V as (_ & ->). split; [reflexivity|]. split; [reflexivity|].
                 rewrite Hfr. f_equal.
              ** intros x Hx. apply Hi. rewrite <- app_assoc in *. cbn [app] in *.
                 apply in_app_or in Hx. apply in_or_app. cbn in *. tauto.
    + (* a new edge *)
      apply slopes_equal_false in Es.
      assert (I3 : In pt3 pts).
      { rewrite H3. destruct R as [|p R']; cbn [hd].
        - apply Hi. destruct vs0; left; reflexivity.
        - rewrite Ep. apply in_or_app. right. right. left. reflexivity. }
      assert (I2 : In pt2 pts) by (apply Hi, in_or_app; right; left; reflexivity).
      destruct (mk_edge_cases pt2 pt3) as [(e & Ee)|Ee]; rewrite Ee.
      2: { apply mv_raise; assumption. }
      assert (Hg' : good_chain (vs0 ++ [pt2; pt3])).
      { destruct (list_rev_ind_case vs0) as [->|(vs1 & v & ->)]; [apply good_chain_two; assumption|].
        destruct (Hb _ _ eq_refl) as (-> & _). rewrite <- app_assoc in *. apply good_chain_snoc; assumption. }
      pose proof (chain_edges_snoc _ _ _ _ _ He Ee) as He'.
      destruct (Z.eqb_spec index lri) as [Q|Q].
      * apply (mv_close pts (LR index ri lri pt1 pt2 pt3 front back result) L0 l R T vs0 e); cbn [lr_pt1 lr_pt2 lr_pt3]; auto.
      * destruct (R1 Q) as (p & R' & ER). subst R. cbn [hd] in H3. subst p.
        assert (Fr : match result with [] => Some pt2 | _ :: _ => front end = Some (hd pt2 vs0)).
        { destruct result as [|e0 result]; [rewrite (Rn eq_refl); reflexivity|].
          destruct (list_rev_ind_case vs0) as [V|(vs1 & v & V)]; [discriminate (Rv V)|].
          destruct (Hb _ _ V) as (_ & _ & ->). reflexivity. }
        rewrite Fr.
        assert (Next : forall q, q = hd (hd pt2 vs0) R' ->
          moves pts (LR index ri lri pt1 pt2 pt3 front back result) L0 l (pt3 :: R') T vs0
            (Ok (inl (LR (index + 1) ri lri pt2 pt3 q (Some (hd pt2 vs0)) (Some pt2) (result ++ [e]))))).
        { intros q Eq. eapply mv_push; cbn [lr_index lr_ri lr_lri lr_pt1 lr_pt2 lr_pt3 lr_front lr_back lr_result]; try reflexivity; try eassumption.
          assert (Hh : hd pt3 (vs0 ++ [pt2]) = hd pt2 vs0) by (destruct vs0; reflexivity).
          constructor; cbn [lr_index lr_ri lr_lri lr_pt1 lr_pt2 lr_pt3 lr_front lr_back lr_result]; rewrite ?Hh;
            try assumption.
          - rewrite Ep, <- app_assoc. reflexivity.
          - rewrite Ei, app_length. cbn. lia.
          - rewrite Er, app_length. cbn. lia.
          - rewrite (last_step pt3 R' l). exact Hl.
          - rewrite <- app_assoc. exact He'.
          - rewrite <- app_assoc. exact Hg'.
          - intros V. destruct vs0; discriminate.
          - intros vs1 v V. apply app_inj_tail in V. destruct V as (_ & ->). auto.
          - intros _. left. reflexivity.
          - intros c A. rewrite (Hs c A), <- app_assoc. reflexivity.
          - intros x Hx. apply in_app_or in Hx. destruct Hx as [Hx|[<-|[]]]; auto. }
        unfold lr_next_pt3. destruct (Z.eqb_spec (index + 1) lri) as [Q'|Q'].
        -- assert (R' = []) by (destruct R'; [reflexivity|cbn in *; lia]). subst R'.
           destruct (result ++ [e]) as [|e0 res'] eqn:Er'; [destruct result; discriminate|]. rewrite <- Er' in *.
           apply Next. reflexivity.
        -- destruct R' as [|q R']; [cbn in *; lia|].
           rewrite (py_nth_eq (L0 ++ [l; pt3]) q (R' ++ T)); cbn [rbind].
           ++ apply Next. reflexivity.
           ++ rewrite Ep, <- app_assoc. reflexivity.
           ++ rewrite app_length. cbn. lia.
Qed.

(** ** Lists without adjacent repetitions *)
Fixpoint dedup (l : list point) : list point :=
  match l with
  | [] => []
  | a :: t => match t with
              | [] => [a]
              | b :: _ => if point_eqb a b then dedup t else a :: dedup t
              end
  end.
Lemma dedup_again p t : dedup (p :: p :: t) = dedup (p :: t).
Proof. cbn [dedup]. rewrite point_eqb_refl. reflexivity. Qed.
Lemma dedup_new p t : hd_error t <> Some p -> dedup (p :: t) = p :: dedup t.
Proof.
  destruct t as [|b t]; [reflexivity|]. intros N. cbn [dedup]. destruct (point_eqb_spec p b) as [->|_]; [elim N; reflexivity|reflexivity].
Qed.
Lemma hd_error_dec (p : point) t : {hd_error t = Some p} + {hd_error t <> Some p}.
Proof. destruct t as [|b t]; [right; discriminate|]. destruct (point_eq_dec b p) as [->|N]; [left; reflexivity|right; cbn; congruence]. Qed.
Lemma dedup_head l : exists t, dedup l = match l with [] => [] | a :: _ => a :: t end.
Proof.
  induction l as [|a l (t & IH)]; [exists []; reflexivity|]. destruct (hd_error_dec a l) as [E|N].
  - destruct l as [|b l]; [discriminate|]. injection E as ->. rewrite dedup_again. exists t. exact IH.
  - rewrite (dedup_new a l N). eauto.
Qed.
Lemma dedup_hd d l : hd d (dedup l) = hd d l.
Proof. destruct (dedup_head l) as (t & ->). destruct l; reflexivity. Qed.
Lemma dedup_nil l : dedup l = [] -> l = [].
Proof. destruct (dedup_head l) as (t & ->). destruct l; [reflexivity|discriminate]. Qed.
Lemma dedup_ne l : l <> [] -> dedup l <> [].
Proof. intros N E. apply N, dedup_nil, E. Qed.
Lemma dedup_last d l : last (dedup l) d = last l d.
Proof.
  induction l as [|a l IH]; [reflexivity|]. destruct (hd_error_dec a l) as [E|N].
  - destruct l as [|b l]; [discriminate|]. injection E as ->. rewrite dedup_again. exact IH.
  - rewrite (dedup_new a l N). destruct l as [|b l]; [reflexivity|].
    pose proof (dedup_ne (b :: l) ltac:(discriminate)) as D. cbn [last]. destruct (dedup (b :: l)); [contradiction|]. exact IH.
Qed.
Lemma dedup_const x X : X <> [] -> Forall (eq x) X -> dedup X = [x].
Proof.
  induction X as [|y X IH]; [contradiction|]. intros _ F. inversion F as [|? ? <- F']; subst. destruct X as [|z X]; [reflexivity|].
  inversion F' as [|? ? <- _]; subst. rewrite dedup_again. apply IH; [discriminate|exact F'].
Qed.
Lemma dedup_tail x X : X <> [] -> Forall (eq x) X -> forall S d, S = [] \/ last S d <> x -> dedup (S ++ X) = dedup S ++ [x].
Proof.
  intros NX F. induction S as [|a S IH]; intros d H; [apply dedup_const; assumption|]. cbn [app].
  destruct (hd_error_dec a S) as [E|N].
  - destruct S as [|b S]; [discriminate|]. injection E as ->. cbn [app]. rewrite !dedup_again. apply (IH d). right.
    destruct H as [H|H]; [discriminate|exact H].
  - rewrite (dedup_new a S N). cbn [app]. rewrite <- (IH d).
    + apply dedup_new. destruct S as [|b S]; [|exact N]. cbn [app]. destruct X as [|z X]; [contradiction|].
      inversion F as [|? ? <- _]; subst. cbn in *. destruct H as [H|H]; [discriminate|]. congruence.
    + destruct S as [|b S]; [left; reflexivity|right]. destruct H as [H|H]; [discriminate|exact H].
Qed.
Lemma dedup_short l : (length (dedup l) <= 1)%nat -> exists p, Forall (eq p) l.
Proof.
  induction l as [|a l IH]; intros H; [exists (Pt 0 0); constructor|]. destruct (hd_error_dec a l) as [E|N].
  - destruct l as [|b l]; [discriminate|]. injection E as ->. rewrite dedup_again in H. destruct (IH H) as (p & F).
    exists p. constructor; [|exact F]. inversion F; subst. reflexivity.
  - rewrite (dedup_new a l N) in H. cbn [length] in H. assert (E : dedup l = []) by (destruct (dedup l); [reflexivity|cbn in H; lia]).
    rewrite (dedup_nil l E). exists a. repeat constructor.
Qed.
Lemma dedup_two p x X : X <> [] -> Forall (eq x) X -> (length (dedup (p :: X)) <= 2)%nat.
Proof.
  intros NX F. destruct (point_eq_dec p x) as [->|N].
  - rewrite (dedup_const x (x :: X)); [cbn; lia|discriminate|constructor; auto].
  - change (p :: X) with ([p] ++ X). rewrite (dedup_tail x X NX F [p] p); [cbn; lia|right; exact N].
Qed.

(** ** Runs of the main loop *)
Inductive runs (pts : list point) : lr_state -> res (list edge) -> Prop :=
| runs_step : forall s s1 o, lr_body pts s = Ok (inl s1) -> runs pts s1 o -> runs pts s o
| runs_done : forall s r c, lr_body pts s = Ok (inr (r, c)) -> runs pts s (Ok r)
| runs_raise : forall s e, lr_body pts s = Raise e -> runs pts s (Raise e).
Lemma runs_unique pts s o o' : runs pts s o -> runs pts s o' -> o = o'.
Proof.
  intros H. revert o'. induction H as [s s1 o E H IH|s r c E|s e E]; intros o' H'; inversion H' as [t t1 q F K|t q d F|t q F]; subst; rewrite E in F; try discriminate.
  - injection F as <-. apply IH, K.
  - injection F as <- <-. reflexivity.
  - injection F as <-. reflexivity.
Qed.
Lemma loop_runs pts fuel s :
  match loopR fuel (lr_body pts) s with
  | Ok (r, _) => runs pts s (Ok r)
  | Raise e => runs pts s (Raise e)
  | NoFuel => True
  end.
Proof.
  revert s. induction fuel as [|fuel IH]; intros s; cbn [loopR]; [exact I|]. destruct (lr_body pts s) as [[s1|[r c]]|e|] eqn:E.
  - specialize (IH s1). destruct (loopR fuel (lr_body pts) s1) as [[r c]|e|]; [| |exact I]; eapply runs_step; eassumption.
  - eapply runs_done, E.
  - apply runs_raise, E.
  - exact I.
Qed.

(** *** Runs that read copies of one point only *)
Lemma idle_end pts s L0 l T : lr_inv pts s L0 l [] T [] -> runs pts s (Ok []).
Proof.
  intros H. pose proof (i_pt3 _ _ _ _ _ _ _ H) as E3. cbn [hd] in E3.
  assert (Er : lr_result s = []) by (pose proof (i_edges _ _ _ _ _ _ _ H) as C; inversion C; reflexivity).
  pose proof (lr_moves _ _ _ _ _ _ _ H) as M. destruct (lr_body pts s) as [[s1|[r c]]|e|] eqn:E.
  - exfalso. inversion M; subst; try congruence; discriminate.
  - assert (r = []) by (inversion M; subst; congruence). subst r. eapply runs_done, E.
  - exfalso. inversion M; subst; congruence.
  - inversion M.
Qed.
Lemma idle_skip pts p R : Forall (eq p) R -> forall s L0 l T, lr_inv pts s L0 l R T [] -> lr_pt2 s = p -> runs pts s (Ok []).
Proof.
  induction R as [|q R IH]; intros F s L0 l T H E2; [eapply idle_end, H|]. pose proof (Forall_inv F) as Eq; cbv beta in Eq; pose proof (Forall_inv_tail F) as F'; subst q.
  pose proof (i_pt3 _ _ _ _ _ _ _ H) as E3. cbn [hd] in E3.
  pose proof (lr_moves _ _ _ _ _ _ _ H) as M. destruct (lr_body pts s) as [[s1|[r c]]|e|] eqn:E.
  - inversion M; subst; try congruence. match goal with X : _ :: _ = _ :: _ |- _ => injection X as <- end.
    eapply runs_step; [exact E|]. eapply IH; [exact F'|eassumption|assumption].
  - assert (r = []) by (inversion M; subst; try congruence; try discriminate). subst r. eapply runs_done, E.
  - exfalso. inversion M; subst; congruence.
  - inversion M.
Qed.
Lemma idle pts p R : Forall (eq p) R -> forall s L0 l T, lr_inv pts s L0 l R T [] -> runs pts s (Ok []).
Proof.
  intros F s L0 l T H. destruct R as [|q R]; [eapply idle_end, H|]. pose proof (Forall_inv F) as Eq; cbv beta in Eq; pose proof (Forall_inv_tail F) as F'; subst q.
  destruct (point_eq_dec (lr_pt2 s) p) as [E2|N2]; [exact (idle_skip pts p (p :: R) F s L0 l T H E2)|].
  pose proof (i_pt3 _ _ _ _ _ _ _ H) as E3. cbn [hd] in E3. pose proof (i_pt1 _ _ _ _ _ _ _ H eq_refl) as E1.
  rewrite (last_const p l (p :: R) ltac:(discriminate) F) in E1.
  assert (OL : on_line (lr_pt1 s) (lr_pt2 s) (lr_pt3 s)) by (rewrite E1, E3; unfold on_line; ring).
  pose proof (lr_moves _ _ _ _ _ _ _ H) as M. destruct (lr_body pts s) as [[s1|[r c]]|e|] eqn:E.
  - inversion M; subst; try congruence; try contradiction.
    + eapply runs_step; [exact E|]. assert (ES : S = []).
      { destruct S as [|a S]; [reflexivity|]. exfalso.
        match goal with X : last (a :: S) l <> _ |- _ => apply X end. rewrite E1. apply last_const; [discriminate|].
        match goal with X : _ :: _ = (a :: S) ++ _ |- _ => rewrite X in F end. apply Forall_app in F. apply F. }
      subst S. eapply idle_end. eassumption.
    + match goal with X : [] = ?a ++ [_] |- _ => destruct a; discriminate end.
  - assert (r = []) by (inversion M; subst; try congruence; try contradiction). subst r. eapply runs_done, E.
  - exfalso. inversion M; subst; try congruence; contradiction.
  - inversion M.
Qed.
Lemma idle_short pts R s L0 l T : lr_inv pts s L0 l R T [] -> lr_pt2 s <> lr_pt3 s -> on_line (lr_pt1 s) (lr_pt2 s) (lr_pt3 s) ->
  (length (dedup R) <= 2)%nat -> runs pts s (Ok []).
Proof.
  intros H N OL Sh. pose proof (lr_moves _ _ _ _ _ _ _ H) as M. destruct (lr_body pts s) as [[s1|[r c]]|e|] eqn:E.
  - inversion M as [| | |? ?|S X s2 ? ? ? ER NX FX LS I1 E2|vs1 ? ? ? V| | |]; subst; try congruence; try contradiction.
    + eapply runs_step; [exact E|]. rewrite (dedup_tail _ _ NX FX S l) in Sh by (right; exact LS).
      rewrite app_length in Sh. cbn [length] in Sh. destruct (dedup_short S ltac:(lia)) as (p & F). eapply idle; eassumption.
    + destruct vs1; discriminate.
  - assert (r = []) by (inversion M; subst; try congruence; try contradiction). subst r. eapply runs_done, E.
  - exfalso. inversion M; subst; try congruence; contradiction.
  - inversion M.
Qed.

(** ** Skipping copies on one side *)
Lemma dedup_idem l : dedup (dedup l) = dedup l.
Proof.
  induction l as [|a l IH]; [reflexivity|]. destruct (hd_error_dec a l) as [E|N].
  - destruct l as [|b l]; [discriminate|]. injection E as ->. rewrite dedup_again. exact IH.
  - rewrite (dedup_new a l N), dedup_new, IH; [reflexivity|]. destruct (dedup_head l) as (t & ->). destruct l; [discriminate|]. exact N.
Qed.
Lemma chain_edges_fun l : forall es es', chain_edges l es -> chain_edges l es' -> es = es'.
Proof.
  unfold chain_edges. generalize (pairs l). intros ps. induction ps as [|[a b] ps IH]; intros es es' H H'; inversion H; inversion H'; subst; [reflexivity|].
  f_equal; [congruence|]. apply IH; assumption.
Qed.
Definition copies (q : point) (R R' : list point) : Prop := dedup R = R' \/ dedup (q :: R) = q :: R'.
Lemma same_run pts pts' s o : runs pts s o -> forall s' L0 l R T vs0 L0' l' R' T',
  lr_inv pts s L0 l R T vs0 -> lr_inv pts' s' L0' l' R' T' vs0 -> lr_pt2 s' = lr_pt2 s ->
  copies (lr_pt2 s) R R' -> runs pts' s' o.
Proof.
  intros Rn. induction Rn as [s s1 o E Rn IH|s r c E|s e E]; intros s' L0 l R T vs0 L0' l' R' T' H H' E2 CP.
  - pose proof (lr_moves _ _ _ _ _ _ _ H) as M. rewrite E in M.
    destruct (hd_error_dec (lr_pt2 s) R) as [HR|NR].
    + (* the next point is a copy of the last one *)
      destruct R as [|q R]; [discriminate|]. injection HR as ->.
      pose proof (i_pt3 _ _ _ _ _ _ _ H) as E3. cbn [hd] in E3.
      inversion M as [| |R1 s2 ? ER NE I1 F2| | | | | |]; subst; try congruence. injection ER as <-.
      destruct CP as [CP|CP].
      * destruct (hd_error_dec (lr_pt2 s) R) as [HR|NR].
        -- destruct R as [|q R]; [discriminate|]. injection HR as ->. rewrite dedup_again in CP.
           apply (IH s' _ _ _ _ _ _ _ _ _ I1 H'); [congruence|]. left. exact CP.
        -- rewrite (dedup_new _ _ NR) in CP. subst R'.
           pose proof (i_pt3 _ _ _ _ _ _ _ H') as E3'. cbn [hd] in E3'.
           pose proof (lr_moves _ _ _ _ _ _ _ H') as M'. destruct (lr_body pts' s') as [[s2'|[r c]]|e|] eqn:E'.
           ++ inversion M' as [| |R1 s3 ? ER' NE' I1' F2'| | | | | |]; subst; try congruence. injection ER' as _ <-.
              eapply runs_step; [exact E'|]. rewrite E2 in I1'.
              apply (IH s2' _ _ _ _ _ _ _ _ _ I1 I1'); [congruence|]. left. reflexivity.
           ++ exfalso. inversion M' as [? X|? X V| | | | | | |]; subst; try congruence.
              injection X as _ X. apply dedup_nil in X. destruct NE; congruence.
           ++ exfalso. inversion M'; subst; congruence.
           ++ inversion M'.
      * rewrite dedup_again in CP. apply (IH s' _ _ _ _ _ _ _ _ _ I1 H'); [congruence|]. right. rewrite F2. exact CP.
    + assert (CP' : dedup R = R').
      { destruct CP as [CP|CP]; [exact CP|]. rewrite (dedup_new _ _ NR) in CP. injection CP as CP. exact CP. }
      clear CP. subst R'.
      assert (E3 : lr_pt3 s' = lr_pt3 s).
      { rewrite (i_pt3 _ _ _ _ _ _ _ H), (i_pt3 _ _ _ _ _ _ _ H'), dedup_hd, E2. reflexivity. }
      assert (E1 : vs0 <> [] \/ R <> [] -> lr_pt1 s' = lr_pt1 s).
      { destruct (list_rev_ind_case vs0) as [->|(vs1 & v & ->)].
        - intros [X|X]; [contradiction|]. rewrite (i_pt1 _ _ _ _ _ _ _ H eq_refl), (i_pt1 _ _ _ _ _ _ _ H' eq_refl), dedup_last.
          clear - X. destruct R as [|a R]; [contradiction|]. apply last_cons_any.
        - intros _. destruct (i_back _ _ _ _ _ _ _ H _ _ eq_refl) as (-> & _). destruct (i_back _ _ _ _ _ _ _ H' _ _ eq_refl) as (-> & _). reflexivity. }
      pose proof (lr_moves _ _ _ _ _ _ _ H') as M'.
      inversion M as [| |R1 s2 ? ER|?|S X s2 N23 OL V ER NX FX LS I1 F2|vs1 s2 N23 OL V I1 F2| | |e R1 s2 N23 NL Ee ER I1 F2]; subst.
      * cbn in NR. congruence.
      * (* the start moves back *)
        assert (SN : S ++ X <> []) by (intros Q; apply app_eq_nil in Q; destruct Q; contradiction).
        specialize (E1 (or_intror SN)).
        pose proof (dedup_tail _ _ NX FX S l (or_intror LS)) as DT.
        destruct (Nat.le_gt_cases (length (dedup S)) 1) as [Sh|Lg].
        -- destruct (dedup_short S Sh) as (p & FS). rewrite (runs_unique _ _ _ _ Rn (idle pts p S FS _ _ _ _ I1)).
           eapply (idle_short pts' _ s'); [exact H'|congruence|congruence|].
           rewrite dedup_idem, DT, app_length. cbn [length]. lia.
        -- rewrite DT in H', M'.
           assert (LD : forall d, last (dedup S) d <> lr_pt1 s).
           { intros d Q. destruct S as [|a S]; [cbn in Lg; lia|]. rewrite dedup_last in Q. apply LS. rewrite <- Q. apply last_cons_any. }
           assert (CUT : forall S' X' d, dedup S ++ [lr_pt1 s] = S' ++ X' -> X' <> [] -> Forall (eq (lr_pt1 s')) X' -> last S' d <> lr_pt1 s' -> S' = dedup S).
           { intros S' X' d Q NX' FX' LS'. destruct (list_rev_ind_case X') as [->|(X2 & x & ->)]; [contradiction|].
             rewrite app_assoc in Q. apply app_inj_tail in Q. destruct Q as (Q & _). destruct X2 as [|y X2]; [rewrite app_nil_r in Q; congruence|].
             exfalso. apply (LD d). rewrite Q, last_app_ne by discriminate. rewrite <- E1. apply last_const; [discriminate|]. apply Forall_app in FX'. apply FX'. }
           destruct (lr_body pts' s') as [[s2'|[r c]]|e|] eqn:E'.
           ++ inversion M' as [| |R1 s3 ? ER'|?|S' X' s3 N23' OL' V' ER' NX' FX' LS' I1' F2'|vs1' s3 N23' OL' V'| | |]; subst; try congruence.
              ** rewrite (CUT S' X' l' ER' NX' FX' LS') in I1'. eapply runs_step; [exact E'|].
                 apply (IH s2' _ _ _ _ _ _ _ _ _ I1 I1'); [congruence|]. left. reflexivity.
              ** destruct vs1'; discriminate.
           ++ exfalso. inversion M' as [? Q|? Q|?|p X' N23' OL' V' ER' NX' FX'| | | | |]; subst; try congruence.
              apply (LD l'). destruct (list_rev_ind_case X') as [->|(X2 & x & ->)]; [contradiction|].
              rewrite app_comm_cons in ER'. apply app_inj_tail in ER'. destruct ER' as (ER' & _). rewrite ER'.
              destruct X2 as [|y X2]; [rewrite ER' in Lg; cbn in Lg; lia|]. change (p :: y :: X2) with ([p] ++ y :: X2). rewrite last_app_ne by discriminate.
              rewrite <- E1. apply last_const; [discriminate|]. apply Forall_app in FX'. apply FX'.
           ++ exfalso. inversion M'; subst; congruence.
           ++ inversion M'.
      * (* the last edge is dropped *)
        assert (SN : vs1 ++ [lr_pt1 s] <> []) by (intros Q; destruct vs1; discriminate).
        specialize (E1 (or_introl SN)).
        destruct (lr_body pts' s') as [[s2'|[r c]]|e|] eqn:E'.
        -- inversion M' as [| |R1 s3 ? ER'|?|S' X' s3 N23' OL' V'|vs1' s3 N23' OL' V' I1' F2'| | |]; subst; try congruence.
           apply app_inj_tail in V'. destruct V' as (<- & _). eapply runs_step; [exact E'|].
              apply (IH s2' _ _ _ _ _ _ _ _ _ I1 I1'); [congruence|]. left. reflexivity.
        -- exfalso. inversion M'; subst; congruence.
        -- exfalso. inversion M'; subst; congruence.
        -- inversion M'.
      * (* a new edge *)
        assert (SN : lr_pt3 s :: R1 <> []) by discriminate.
        specialize (E1 (or_intror SN)).
        destruct (dedup_head (lr_pt3 s :: R1)) as (t & DH). rewrite DH in H', M'.
        destruct (lr_body pts' s') as [[s2'|[r c]]|e'|] eqn:E'.
        -- inversion M' as [| |R1' s3 ? ER'|?|S' X' s3 N23' OL' V'|vs1' s3 N23' OL' V'| | |e' R1' s3 N23' NL' Ee' ER' I1' F2']; subst; try congruence.
           injection ER' as _ <-. rewrite E3, E2 in I1'. eapply runs_step; [exact E'|].
           apply (IH s2' _ _ _ _ _ _ _ _ _ I1 I1'); [congruence|]. right. rewrite F2. exact DH.
        -- exfalso. inversion M'; subst; congruence.
        -- exfalso. inversion M'; subst; congruence.
        -- inversion M'.
  - pose proof (lr_moves _ _ _ _ _ _ _ H) as M. rewrite E in M.
    assert (ES : lr_result s' = lr_result s).
    { pose proof (i_edges _ _ _ _ _ _ _ H') as C'. rewrite E2 in C'. eapply chain_edges_fun; [exact C'|]. apply (i_edges _ _ _ _ _ _ _ H). }
    inversion M as [E23 ER|E23 ER V| |p X N23 OL V ER NX FX| | | |e N23 NL Ee ER|]; subst.
    + assert (R' = []) by (destruct CP as [<-|CP]; [reflexivity|injection CP as <-; reflexivity]). subst R'.
      pose proof (i_pt3 _ _ _ _ _ _ _ H) as E3. pose proof (i_pt3 _ _ _ _ _ _ _ H') as E3'. cbn [hd] in E3, E3'. rewrite E2 in E3'.
      pose proof (lr_moves _ _ _ _ _ _ _ H') as M'. destruct (lr_body pts' s') as [[s2'|[r c']]|e|] eqn:E'.
      * exfalso. inversion M'; subst; try congruence.
      * assert (r = lr_result s) by (inversion M'; subst; congruence). subst r. eapply runs_done, E'.
      * exfalso. inversion M'; subst; congruence.
      * inversion M'.
    + assert (F : Forall (eq (lr_pt2 s)) R').
      { destruct CP as [<-|CP]; [repeat constructor|]. rewrite dedup_again in CP. injection CP as <-. constructor. }
      eapply idle; [exact F|exact H'].
    + destruct (point_eq_dec (lr_pt2 s) p) as [Q|Nq].
      { exfalso. apply N23. rewrite (i_pt3 _ _ _ _ _ _ _ H). exact Q. }
      assert (CP' : dedup (p :: X) = R').
      { destruct CP as [CP|CP]; [exact CP|]. rewrite dedup_new in CP by (cbn; congruence). injection CP as CP. exact CP. }
      subst R'. pose proof (dedup_two p _ X NX FX) as D2.
      assert (E3 : lr_pt3 s' = lr_pt3 s) by (rewrite (i_pt3 _ _ _ _ _ _ _ H), (i_pt3 _ _ _ _ _ _ _ H'), dedup_hd; reflexivity).
      assert (E1 : lr_pt1 s' = lr_pt1 s).
      { rewrite (i_pt1 _ _ _ _ _ _ _ H eq_refl), (i_pt1 _ _ _ _ _ _ _ H' eq_refl), dedup_last. apply last_cons_any. }
      eapply (idle_short pts' _ s'); [exact H'|congruence|congruence|].
      rewrite dedup_idem. exact D2.
    + assert (R' = []) by (destruct CP as [<-|CP]; [reflexivity|injection CP as <-; reflexivity]). subst R'.
      pose proof (i_pt3 _ _ _ _ _ _ _ H) as E3. pose proof (i_pt3 _ _ _ _ _ _ _ H') as E3'. cbn [hd] in E3, E3'. rewrite E2 in E3'.
      assert (E1 : lr_pt1 s' = lr_pt1 s).
      { destruct (list_rev_ind_case vs0) as [->|(vs1 & v & ->)]; [cbn in E3; congruence|].
        destruct (i_back _ _ _ _ _ _ _ H _ _ eq_refl) as (-> & _). destruct (i_back _ _ _ _ _ _ _ H' _ _ eq_refl) as (-> & _). reflexivity. }
      pose proof (lr_moves _ _ _ _ _ _ _ H') as M'. destruct (lr_body pts' s') as [[s2'|[r c']]|e'|] eqn:E'.
      * exfalso. inversion M' as [| | | |S' X' s3 ? ? ? ER'| | | |]; subst; try congruence.
      * assert (r = lr_result s ++ [e]) by (inversion M'; subst; congruence). subst r. eapply runs_done, E'.
      * exfalso. inversion M'; subst; congruence.
      * inversion M'.
  - pose proof (lr_moves _ _ _ _ _ _ _ H) as M. rewrite E in M.
    inversion M as [| | | | | |N23 NL Ee| |]; subst.
    assert (CP' : dedup R = R').
    { destruct CP as [CP|CP]; [exact CP|]. destruct (hd_error_dec (lr_pt2 s) R) as [HR|NR].
      - destruct R as [|q R]; [discriminate|]. injection HR as ->. exfalso. apply N23. rewrite (i_pt3 _ _ _ _ _ _ _ H). reflexivity.
      - rewrite (dedup_new _ _ NR) in CP. injection CP as CP. exact CP. }
    subst R'.
    assert (E3 : lr_pt3 s' = lr_pt3 s) by (rewrite (i_pt3 _ _ _ _ _ _ _ H), (i_pt3 _ _ _ _ _ _ _ H'), dedup_hd, E2; reflexivity).
    assert (E1 : lr_pt1 s' = lr_pt1 s).
    { destruct (list_rev_ind_case vs0) as [->|(vs1 & v & ->)].
      - rewrite (i_pt1 _ _ _ _ _ _ _ H eq_refl), (i_pt1 _ _ _ _ _ _ _ H' eq_refl), dedup_last.
        destruct R as [|a R]; [exfalso; apply N23; rewrite (i_pt3 _ _ _ _ _ _ _ H); reflexivity|]. apply last_cons_any.
      - destruct (i_back _ _ _ _ _ _ _ H _ _ eq_refl) as (-> & _). destruct (i_back _ _ _ _ _ _ _ H' _ _ eq_refl) as (-> & _). reflexivity. }
    pose proof (lr_moves _ _ _ _ _ _ _ H') as M'. destruct (lr_body pts' s') as [[s2'|[r c']]|e'|] eqn:E'.
    + exfalso. inversion M'; subst; congruence.
    + exfalso. inversion M'; subst; congruence.
    + assert (e' = OverflowError) by (inversion M'; subst; congruence). subst e'. apply runs_raise, E'.
    + inversion M'.
Qed.

(** ** The whole of [LinearRing.edges] *)
Definition start (p0 : point) (M X : list point) : lr_state :=
  LR 1 (Z.of_nat (length M)) (Z.of_nat (length M) + 1) (last M p0) p0 (hd p0 (M ++ X)) None None [].
Lemma start_inv p0 M X : last M p0 <> p0 -> Forall (eq p0) X -> lr_inv (p0 :: M ++ X) (start p0 M X) [] p0 M X [].
Proof.
  intros N F. assert (Mn : M <> []) by (intros ->; apply N; reflexivity).
  constructor; cbn [start lr_index lr_ri lr_lri lr_pt1 lr_pt2 lr_pt3 lr_front lr_back lr_result hd app length]; auto.
  - constructor.
  - apply good_chain_one.
  - intros vs1 v V. destruct vs1; discriminate.
  - destruct M; [contradiction|reflexivity].
  - intros c A. apply csum_drop_tail; assumption.
  - intros x [<-|[]]. left. reflexivity.
Qed.
Definition simp (o : res (list edge)) : res (list edge) :=
  match o with Ok r => Ok (lr_simplify (length r) r) | Raise e => Raise e | NoFuel => NoFuel end.
Lemma edges_runs p0 M X : last M p0 <> p0 -> Forall (eq p0) X ->
  exists o, runs (p0 :: M ++ X) (start p0 M X) o /\ ((2 <= length (M ++ X))%nat -> linear_ring_edges (p0 :: M ++ X) = simp o).
Proof.
  intros N F. pose proof (lr_loop p0 M X N F) as Lp. fold (start p0 M X) in Lp.
  pose proof (loop_runs (p0 :: M ++ X) (lr_fuel (p0 :: M ++ X)) (start p0 M X)) as LR.
  destruct (loopR _ _ _) as [[r c]|e|] eqn:EL; cbn [lr_run] in Lp; [| |contradiction]; eexists; (split; [exact LR|]); intros Len.
  all: remember (M ++ X) as L eqn:EqL; destruct L as [|p1 [|p2 l]]; try (cbn in Len; lia).
  all: unfold linear_ring_edges; set (L := p1 :: p2 :: l) in *.
  all: assert (Hl : py_nth (p0 :: L) (Z.of_nat (length (p0 :: L)) - 1) = Ok (last L p0))
    by (pose proof (py_nth_last p0 L [] []) as H; rewrite !app_nil_r in H; rewrite <- H; f_equal; cbn [length]; lia).
  all: rewrite Hl; cbn [rbind].
  all: replace (Z.of_nat (length (p0 :: L)) - 1) with (Z.of_nat (length L)) by (cbn [length]; lia).
  all: pose proof (skip_back_spec p0 X M [] (S (2 * length (p0 :: L))) N F) as Sb.
  all: rewrite !app_nil_r, <- EqL in Sb; replace (length M + length X)%nat with (length L) in Sb by (rewrite EqL, app_length; reflexivity).
  all: rewrite Sb by (cbn [length]; rewrite EqL, app_length; lia); cbn [rbind].
  all: unfold start in EL; rewrite <- EqL in EL; change (hd p0 L) with p1 in EL; rewrite EL; cbn [rbind simp].
  2: reflexivity.
  destruct c; [reflexivity|]. destruct Lp as [(E1 & _)|(E1 & _)]; cbn [fst snd] in E1; [subst r; reflexivity|discriminate].
Qed.
Lemma edges_const p0 l : Forall (eq p0) l -> linear_ring_edges (p0 :: l) = Ok [].
Proof.
  intros F. destruct l as [|p1 [|p2 l]]; [reflexivity|reflexivity|]. unfold linear_ring_edges. set (L := p1 :: p2 :: l) in *.
  assert (Hl : py_nth (p0 :: L) (Z.of_nat (length (p0 :: L)) - 1) = Ok (last L p0)).
  { pose proof (py_nth_last p0 L [] []) as H. rewrite !app_nil_r in H. rewrite <- H. f_equal. cbn [length]. lia. }
  rewrite Hl. cbn [rbind]. rewrite (last_const p0 p0 L ltac:(discriminate) F). rewrite skip_back_all; [reflexivity| | |].
  - constructor; [reflexivity|exact F].
  - cbn [length]. lia.
  - cbn [length]. lia.
Qed.
(** the ring without repetitions *)
Definition squeeze (l : list point) : list point :=
  match dedup l with
  | [] => []
  | p :: t => p :: (if point_eqb (last t p) p then removelast t else t)
  end.
Lemma edges_squeeze l : linear_ring_edges l = linear_ring_edges (squeeze l).
Proof.
  destruct l as [|p0 L]; [reflexivity|]. destruct (split_tail p0 L) as [F|(M & X & -> & F & N)].
  - rewrite (edges_const p0 L F). unfold squeeze. rewrite (dedup_const p0 (p0 :: L)); [symmetry; cbn [last]; rewrite point_eqb_refl; reflexivity|discriminate|constructor; auto].
  - assert (Mn : M <> []) by (intros ->; apply N; reflexivity).
    destruct (dedup_head (p0 :: M)) as (M' & DM). cbv iota in DM.
    assert (LM : last M' p0 = last M p0).
    { pose proof (dedup_last p0 (p0 :: M)) as Q. rewrite DM in Q. destruct M as [|a M]; [contradiction|]. change (last (p0 :: a :: M) p0) with (last (a :: M) p0) in Q.
      rewrite <- Q. destruct M'; [cbn in Q; elim N; symmetry; exact Q|reflexivity]. }
    assert (Nd : last M' p0 <> p0) by congruence.
    assert (SQ : squeeze (p0 :: M ++ X) = p0 :: M').
    { unfold squeeze. rewrite app_comm_cons. destruct X as [|x X].
      - rewrite app_nil_r, DM. rewrite (proj2 (point_eqb_neq _ _) Nd). reflexivity.
      - rewrite (dedup_tail p0 (x :: X) ltac:(discriminate) F (p0 :: M) p0).
        + rewrite DM. cbn [app]. rewrite last_last, point_eqb_refl, removelast_last. reflexivity.
        + right. destruct M as [|a M]; [contradiction|exact N]. }
    rewrite SQ. destruct (edges_runs p0 M X N F) as (o & R1 & E1). destruct (edges_runs p0 M' [] Nd ltac:(constructor)) as (o' & R2 & E2).
    rewrite app_nil_r in *.
    pose proof (start_inv p0 M X N F) as I1. pose proof (start_inv p0 M' [] Nd ltac:(constructor)) as I2. rewrite app_nil_r in I2.
    assert (R3 : runs (p0 :: M') (start p0 M' []) o) by (eapply (same_run _ _ _ _ R1); [exact I1|exact I2|reflexivity|right; exact DM]).
    rewrite (runs_unique _ _ _ _ R2 R3) in E2. clear R2 o'.
    destruct (Nat.le_gt_cases 2 (length (M ++ X))) as [L2|L2], (Nat.le_gt_cases 2 (length M')) as [L3|L3].
    + rewrite E1, E2 by assumption. reflexivity.
    + rewrite E1 by assumption. destruct M' as [|b [|b2 M']]; [contradiction| |cbn in L3; lia].
      assert (o = Ok []) as -> by (eapply runs_unique; [exact R3|]; eapply (idle _ b [b]); [repeat constructor|exact I2]). reflexivity.
    + exfalso. assert (LE : (length (dedup (p0 :: M)) <= length (p0 :: M))%nat).
      { clear. induction (p0 :: M) as [|a l IH]; [cbn; lia|]. destruct (hd_error_dec a l) as [E|N].
        - destruct l as [|b l]; [discriminate|]. injection E as ->. rewrite dedup_again. cbn [length] in *. lia.
        - rewrite (dedup_new a l N). cbn [length]. lia. }
      rewrite DM in LE. rewrite app_length in L2. cbn [length] in LE. lia.
    + destruct (M ++ X) as [|a [|a2 l]]; [| |cbn in L2; lia]; destruct M' as [|b [|b2 M']]; try reflexivity; cbn in L3; lia.
Qed.
