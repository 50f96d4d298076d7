(** * Chains of touching rings: what is found is a tour, and what is recorded of
    the touching vertices stays right *)
From Coq Require Import ZArith List Bool Lia FMapPositive Permutation.
From RecordUpdate Require Import RecordSet.
From Verif Require Import Py Monad Utils Geometry LinearRingM BoundM LocalMinimumM
     StateM PointNodeM RingM SweepM TopologyM WagyuM HoareP SpecRing SpecHeap SpecRings SpecTree SpecTour SweepFrameP CalmP OrderP VatP
     CircleP HeapOpsP StatsP SplitP NodeFrameP RingedP RingedTopP TreeP
     NestP NestTreeP FitP KeepOrderP TourP ReconnectP SpecNest.
Import ListNotations RecordSetNotations.
Open Scope Z_scope.

(** ** The recorded pairs *)
Definition pairs_at (s : st) (q : rid) : list (nid * nid) := hget [] (s_conn s) q.
Definition tied (s : st) (q : rid) (p : nid * nid) : Prop :=
  ring_of s (fst p) = Some q /\ (exists q2, ring_of s (snd p) = Some q2 /\ q2 <> q) /\ npos (node_at s (fst p)) = npos (node_at s (snd p)).
Definition loose (s : st) (p : nid * nid) : Prop :=
  ring_of s (fst p) <> None /\ ring_of s (snd p) <> None /\ npos (node_at s (fst p)) = npos (node_at s (snd p)).
Definition tied_all (s : st) : Prop := forall q p, In p (pairs_at s q) -> tied s q p.
Lemma tied_same s s' q p : (forall i, node_at s' i = node_at s i) -> tied s q p -> tied s' q p.
Proof. intros H (A & (q2 & B & C) & D). unfold tied, ring_of in *. rewrite !H. split; [exact A|]. split; [exists q2; auto|exact D]. Qed.
Lemma loose_same s s' p : (forall i, node_at s' i = node_at s i) -> loose s p -> loose s' p.
Proof. intros H K. unfold loose, ring_of in *. rewrite !H. exact K. Qed.

(** ** Programs that leave the recorded pairs alone *)
Definition conn_kept (s s' : st) : Prop := s_conn s' = s_conn s.
#[export] Instance conn_kept_pre : PreOrd conn_kept.
Proof. split; [reflexivity|]. unfold conn_kept. congruence. Qed.
#[export] Instance conn_kept_rel : NodeRel conn_kept.
Proof. split; [typeclasses eauto|]. intros s s' H. apply H. Qed.
#[export] Hint Resolve conn_kept_pre conn_kept_rel : pres.
Lemma ck_upd_ring r f : pres conn_kept (upd_ring r f). Proof. apply pres_modify. reflexivity. Qed.
Lemma ck_upd_node i f : pres conn_kept (upd_node i f). Proof. apply pres_modify. reflexivity. Qed.
#[export] Hint Resolve ck_upd_ring ck_upd_node : pres.
Lemma ck_set_next i o : pres conn_kept (set_next i o). Proof. unfold set_next. apply ck_upd_node. Qed.
Lemma ck_set_prev i o : pres conn_kept (set_prev i o). Proof. unfold set_prev. apply ck_upd_node. Qed.
#[export] Hint Resolve ck_set_next ck_set_prev : pres.
Lemma ck_switch a b : pres conn_kept (switch_nexts a b). Proof. unfold switch_nexts. nf_auto. Qed.
Lemma ck_create : pres conn_kept create_ring. Proof. intros s r s' E. rewrite create_ring_run in E. injection E as _ <-. reflexivity. Qed.
Lemma ck_update fuel r : pres conn_kept (update_points fuel r). Proof. unfold update_points, iter_nodes. nf_auto. Qed.
#[export] Hint Resolve ck_switch ck_create ck_update : pres.
Lemma ck_go fuel keep hole it : pres conn_kept (go_body fuel keep hole it).
Proof. unfold go_body, replace_ring, iter_children, reset_stats. nf_auto. Qed.
#[export] Hint Resolve ck_go : pres.
Lemma ck_tree fuel parent keep new hole : pres conn_kept (rc_tree fuel parent keep new hole).
Proof. unfold rc_tree. nf_auto. Qed.
#[export] Hint Resolve ck_tree : pres.
Lemma ck_label fuel keep new a b hole : pres conn_kept (label_rest fuel keep new a b hole).
Proof. unfold label_rest, set_stats. nf_auto. Qed.
(** ** The pairs after a reconnection *)
Lemma conn_get_run s q : conn_get q s = Ok (pairs_at s q, s). Proof. reflexivity. Qed.
Definition with_pairs (s : st) (q : rid) (l : list (nid * nid)) : st := s <| s_conn := hset (s_conn s) q l |>.
Lemma conn_set_run s q l : conn_set q l s = Ok (tt, with_pairs s q l). Proof. reflexivity. Qed.
Lemma pairs_with s q l p : pairs_at (with_pairs s q l) p = if Pos.eqb q p then l else pairs_at s p.
Proof. unfold pairs_at, with_pairs. cbn [s_conn]. apply hget_hset. Qed.
Lemma conn_add_run s q p : conn_add q p s = Ok (tt, with_pairs s q (pairs_at s q ++ [p])). Proof. reflexivity. Qed.
Lemma node_with s q l i : node_at (with_pairs s q l) i = node_at s i. Proof. reflexivity. Qed.
Lemma sr_hole fuel r : pres same_ringed (ring_is_hole fuel r). Proof. nf_auto. Qed.
Lemma moved_spec fuel l : forall s m s', moved_pairs fuel l s = Ok (m, s') -> (forall p, In p l -> loose s p) ->
  same_ringed s s' /\ forall it, In it m -> tied s (fst it) (snd it).
Proof.
  induction l as [|(a & b) l IH]; intros s m s' E L; cbn [moved_pairs] in E; [injection E as <- <-; split; [apply R_refl|intros ? []]|].
  rewrite (bind_run _ _ _ _ _ (nd_run s a)), (bind_run _ _ _ _ _ (nd_run s b)) in E.
  destruct (L (a, b) (or_introl eq_refl)) as (La & Lb & Lp). cbn [fst snd] in *.
  inv_bind E here s1 E1.
  assert (H : same_ringed s s1 /\ forall it, In it here -> tied s (fst it) (snd it)).
  { change (n_ring (node_at s a)) with (ring_of s a) in E1. change (n_ring (node_at s b)) with (ring_of s b) in E1.
    destruct (ring_of s a) as [r1|] eqn:Ra; [|congruence]. destruct (ring_of s b) as [r2|] eqn:Rb; [|congruence].
    destruct (Pos.eqb_spec r1 r2) as [->|NE]; [injection E1 as <- <-; split; [apply R_refl|intros ? []]|].
    inv_bind E1 h1 t1 F1. pose proof (sr_hole _ _ _ _ _ F1) as S1. inv_bind E1 h2 t2 F2.
    assert (S2 : same_ringed t1 t2) by (destruct h1; [injection F2 as _ <-; apply R_refl|exact (sr_hole _ _ _ _ _ F2)]).
    injection E1 as <- <-. split; [eapply R_trans; eassumption|]. intros it Hi. destruct h2; [|contradiction]. destruct Hi as [<-|[]].
    split; [exact Ra|]. split; [exists r2; auto|exact Lp]. }
  destruct H as (S1 & H1). inv_bind E rest s2 E2. injection E as <- <-.
  destruct (IH _ _ _ E2) as (S2 & H2). { intros p Hp. apply (loose_same s); [apply S1|]. apply L. right. exact Hp. }
  split; [eapply R_trans; eassumption|]. intros it Hi. apply in_app_iff in Hi as [Hi|Hi]; [auto|].
  apply (tied_same s1); [intros i; symmetry; apply S1|auto].
Qed.
Lemma origin_spec fuel o l : forall s m s', origin_pairs fuel o l s = Ok (m, s') -> (forall p, In p l -> loose s p) ->
  same_ringed s s' /\ (forall it, In it (fst m) -> tied s (fst it) (snd it)) /\ (forall p, In p (snd m) -> tied s o p).
Proof.
  induction l as [|(a & b) l IH]; intros s m s' E L; cbn [origin_pairs] in E; [injection E as <- <-; split; [apply R_refl|split; intros ? []]|].
  rewrite (bind_run _ _ _ _ _ (nd_run s a)), (bind_run _ _ _ _ _ (nd_run s b)) in E.
  destruct (L (a, b) (or_introl eq_refl)) as (La & Lb & Lp). cbn [fst snd] in *.
  inv_bind E here s1 E1.
  assert (H : same_ringed s s1 /\ (forall it, In it (fst here) -> tied s (fst it) (snd it)) /\ (forall p, In p (snd here) -> tied s o p)).
  { change (n_ring (node_at s a)) with (ring_of s a) in E1. change (n_ring (node_at s b)) with (ring_of s b) in E1.
    destruct (ring_of s a) as [r1|] eqn:Ra; [|congruence]. destruct (ring_of s b) as [r2|] eqn:Rb; [|congruence].
    destruct (Pos.eqb_spec r1 r2) as [->|NE]; [injection E1 as <- <-; split; [apply R_refl|split; intros ? []]|].
    inv_bind E1 h1 t1 F1. pose proof (sr_hole _ _ _ _ _ F1) as S1. inv_bind E1 h2 t2 F2.
    assert (S2 : same_ringed t1 t2) by (destruct h1; [injection F2 as _ <-; apply R_refl|exact (sr_hole _ _ _ _ _ F2)]).
    injection E1 as <- <-. split; [eapply R_trans; eassumption|].
    assert (TT : tied s r1 (a, b)) by (split; [exact Ra|]; split; [exists r2; auto|exact Lp]).
    destruct (Pos.eqb_spec r1 o) as [->|NO]; cbn [negb fst snd]; destruct h2; split; intros x Hx; try contradiction; destruct Hx as [<-|[]]; exact TT. }
  destruct H as (S1 & H1 & H1'). inv_bind E rest s2 E2. injection E as <- <-.
  destruct (IH _ _ _ E2) as (S2 & H2 & H2'). { intros p Hp. apply (loose_same s); [apply S1|]. apply L. right. exact Hp. }
  split; [eapply R_trans; eassumption|].
  assert (B : forall i, node_at s i = node_at s1 i) by (intros i; symmetry; apply S1).
  split; intros it Hi; apply in_app_iff in Hi as [Hi|Hi]; auto; apply (tied_same s1); auto.
Qed.
(** the pairs of the rings of the tour are looked at again *)
Definition regrouped (s s' : st) : Prop := later s s'.
Lemma adds_tied l : forall s u s', forM l (fun it : inter => conn_add (fst it) (snd it)) s = Ok (u, s') -> tied_all s ->
  (forall it, In it l -> tied s (fst it) (snd it)) -> tied_all s'.
Proof.
  induction l as [|it l IH]; intros s u s' E T H; cbn [forM] in E; [injection E as _ <-; exact T|].
  rewrite (bind_run _ _ _ _ _ (conn_add_run s _ _)) in E.
  apply (IH _ _ _ E).
  - intros q p Hp. rewrite pairs_with in Hp. apply (tied_same s); [reflexivity|].
    destruct (Pos.eqb_spec (fst it) q) as [<-|_]; [|apply T, Hp]. apply in_app_iff in Hp as [Hp|[<-|[]]]; [apply T, Hp|apply H; left; reflexivity].
  - intros x Hx. apply (tied_same s); [reflexivity|]. apply H. right. exact Hx.
Qed.
Lemma moves_spec fuel l2 : forall s acc m s',
  forM_acc l2 (fun it acc => bind (conn_get (fst it)) (fun l => bind (moved_pairs fuel l) (fun m => bind (conn_set (fst it) []) (fun _ => ret (acc ++ m))))) acc s = Ok (m, s') ->
  (forall q p, In q (map fst l2) -> In p (pairs_at s q) -> loose s p) -> (forall it, In it acc -> tied s (fst it) (snd it)) ->
  (forall i, node_at s' i = node_at s i) /\ (forall it, In it m -> tied s (fst it) (snd it)) /\
  (forall q, pairs_at s' q = if in_dec Pos.eq_dec q (map (@fst rid (nid * nid)) l2) then [] else pairs_at s q).
Proof.
  induction l2 as [|it l2 IH]; intros s acc m s' E L A; unfold forM_acc in E.
  - injection E as <- <-. split; [reflexivity|]. split; [exact A|]. intros q. destruct (in_dec Pos.eq_dec q []) as [[]|_]. reflexivity.
  - unfold bind at 1 in E.
    match type of E with match ?x with _ => _ end = _ => destruct x as [[acc1 s1]| |] eqn:E1 end; try discriminate. cbv iota beta in E.
    rewrite (bind_run _ _ _ _ _ (conn_get_run s _)) in E1.
    inv_bind E1 mm t1 E2. destruct (moved_spec fuel _ _ _ _ E2) as (S1 & T1). { intros p Hp. apply (L (fst it)); [left; reflexivity|exact Hp]. }
    rewrite (bind_run _ _ _ _ _ (conn_set_run t1 _ _)) in E1. injection E1 as <- <-.
    assert (N1 : forall i, node_at (with_pairs t1 (fst it) []) i = node_at s i) by (intros i; rewrite node_with; apply S1).
    assert (N1' : forall i, node_at s i = node_at (with_pairs t1 (fst it) []) i) by (intros i; symmetry; apply N1).
    assert (P1 : forall q, pairs_at (with_pairs t1 (fst it) []) q = if Pos.eqb (fst it) q then [] else pairs_at s q).
    { intros q. rewrite pairs_with. destruct (Pos.eqb (fst it) q); [reflexivity|]. unfold pairs_at. f_equal. apply S1. }
    destruct (IH _ _ _ _ E) as (N2 & T2 & P2).
    + intros q p Hq Hp. rewrite P1 in Hp. destruct (Pos.eqb (fst it) q); [contradiction|]. apply (loose_same s); [exact N1|]. apply (L q); [right; exact Hq|exact Hp].
    + intros x Hx. apply (tied_same s); [exact N1|]. apply in_app_iff in Hx as [Hx|Hx]; auto.
    + split; [intros i; rewrite N2; apply N1|]. split; [intros x Hx; apply (tied_same (with_pairs t1 (fst it) []) s); [exact N1'|]; auto|].
      intros q. rewrite P2, P1. cbn [map]. destruct (in_dec Pos.eq_dec q (map fst l2)) as [H|H]; destruct (in_dec Pos.eq_dec q (fst it :: map fst l2)) as [K|K].
      * reflexivity.
      * destruct K. right. exact H.
      * destruct K as [<-|K]; [rewrite Pos.eqb_refl; reflexivity|contradiction].
      * destruct (Pos.eqb_spec (fst it) q) as [X|_]; [destruct K; left; exact X|reflexivity].
Qed.
Lemma conns_tied fuel keep l2 s u s' : rc_conn fuel keep l2 s = Ok (u, s') ->
  (forall q p, In p (pairs_at s q) -> (q = keep \/ In q (map fst l2)) -> loose s p) ->
  (forall q p, In p (pairs_at s q) -> q <> keep -> ~ In q (map fst l2) -> tied s q p) -> ~ In keep (map fst l2) -> tied_all s'.
Proof.
  intros E L T NK. unfold rc_conn in E. inv_bind E m s1 E1.
  destruct (moves_spec fuel l2 s [] m s1 E1) as (N1 & T1 & P1); [intros q p Hq Hp; apply (L q); auto|intros ? []|]. clear E1.
  rewrite (bind_run _ _ _ _ _ (conn_get_run s1 _)) in E.
  assert (PK : pairs_at s1 keep = pairs_at s keep) by (rewrite P1; destruct (in_dec _ _ _); [contradiction|reflexivity]).
  inv_bind E op s2 E2. destruct (origin_spec fuel keep _ _ _ _ E2) as (S2 & T2 & T2').
  { intros p Hp. rewrite PK in Hp. apply (loose_same s); [exact N1|]. apply (L keep); auto. }
  rewrite (bind_run _ _ _ _ _ (conn_set_run s2 _ _)) in E.
  assert (P2 : forall q, pairs_at s2 q = pairs_at s1 q) by (intros q; unfold pairs_at; f_equal; apply S2).
  assert (N2 : forall i, node_at s2 i = node_at s i) by (intros i; rewrite (proj1 S2); apply N1).
  apply (adds_tied _ _ _ _ E).
  - intros q p Hp. rewrite pairs_with in Hp. destruct (Pos.eqb_spec keep q) as [<-|NE].
    + apply (tied_same s1); [apply S2|]. auto.
    + rewrite P2, P1 in Hp. destruct (in_dec _ _ _) as [|NI]; [contradiction|]. apply (tied_same s); [exact N2|]. apply T; auto.
  - intros it Hi. apply in_app_iff in Hi as [Hi|Hi]; [apply (tied_same s); [exact N2|]; auto|apply (tied_same s1); [apply S2|]; auto].
Qed.
Lemma swap_names fuel ro o1 o2 l s l2 ro' p1 p2 c s' : origin_swap fuel ro o1 o2 l s = Ok ((l2, ro', p1, p2, c), s') ->
  conn_kept s s' /\ Permutation (map fst ((ro', (p1, p2)) :: l2)) (map fst ((ro, (o1, o2)) :: l)).
Proof.
  intros E. destruct (swap_spec _ _ _ _ _ _ _ _ _ _ _ _ E) as (C & H). split; [apply C|]. destruct H as [(-> & -> & -> & ->)|(l1 & l3 & -> & ->)]; [apply Permutation_refl|].
  apply Permutation_map. etransitivity; [apply perm_skip; symmetry; apply Permutation_middle|].
  etransitivity; [apply perm_swap|]. apply perm_skip. apply Permutation_middle.
Qed.
Lemma reconnect_conn fuel rp ro o1 o2 l s u s' : NoDup (map fst ((ro, (o1, o2)) :: l)) -> reconnect fuel rp ro o1 o2 l s = Ok (u, s') ->
  exists keep l2 s0, rc_conn fuel keep l2 s0 = Ok (u, s') /\ s_conn s0 = s_conn s /\ ~ In keep (map fst l2) /\
    forall q, q = keep \/ In q (map fst l2) <-> In q (map fst ((ro, (o1, o2)) :: l)).
Proof.
  intros ND E. rewrite reconnect_parts in E. inv_bind E h sh Eh.
  assert (K1 : conn_kept s sh) by (revert Eh; apply (ltac:(nf_auto) : pres conn_kept (ring_is_hole fuel ro))). clear Eh.
  inv_bind E sw ss Es. destruct sw as [[[[l2 keep] a] b] ch].
  assert (H : conn_kept sh ss /\ Permutation (map fst ((keep, (a, b)) :: l2)) (map fst ((ro, (o1, o2)) :: l))).
  { destruct h; [exact (swap_names _ _ _ _ _ _ _ _ _ _ _ _ Es)|]. injection Es as <- <- <- <- <- <-. split; [reflexivity|apply Permutation_refl]. }
  clear Es h. destruct H as (K2 & PM). cbn [map fst] in PM.
  unfold rc_rest in E. set (parent := if ch then Some keep else rp) in E. clearbody parent. clear ch rp.
  inv_bind E hl sA Eh. assert (K3 : conn_kept ss sA) by (revert Eh; apply (ltac:(nf_auto) : pres conn_kept (ring_is_hole fuel keep))). clear Eh.
  inv_bind E v1 s1 E1. pose proof (ck_switch _ _ _ _ _ E1) as K4. clear E1.
  inv_bind E v2 s2 E2. assert (K5 : conn_kept s1 s2) by (revert E2; apply (ltac:(nf_auto) : pres conn_kept (forM l2 (fun it => switch_nexts (fst (snd it)) (snd (snd it)))))). clear E2.
  inv_bind E new s3 E3. pose proof (ck_create _ _ _ E3) as K6. clear E3.
  destruct (label_then _ _ _ _ _ _ _ _ _ _ E) as (v & sm & EL & EA). clear E.
  pose proof (ck_label _ _ _ _ _ _ _ _ _ EL) as K7. clear EL.
  unfold rc_after in EA. inv_bind EA v4 s4 E4. pose proof (ck_upd_ring _ _ _ _ _ E4) as K8. clear E4.
  inv_bind EA v5 s5 E5. assert (K9 : conn_kept s4 s5) by (revert E5; apply (ltac:(nf_auto) : pres conn_kept (forM l2 (go_body fuel keep hl)))). clear E5.
  inv_bind EA v6 s6 E6. pose proof (ck_tree _ _ _ _ _ _ _ _ E6) as K10. clear E6.
  exists keep, l2, s6. split; [exact EA|]. split; [|split].
  - unfold conn_kept in *. change (s_conn (rput s3 keep (fun x => x <| r_corrected := false |>))) with (s_conn s3) in K7. congruence.
  - apply (Permutation_NoDup (Permutation_sym PM)) in ND. inversion ND. assumption.
  - intros q. cbn [map fst]. split; intros H.
    + apply (Permutation_in _ PM). destruct H as [->|H]; [left; reflexivity|right; exact H].
    + apply (Permutation_in _ (Permutation_sym PM)) in H. destruct H as [H|H]; [left; congruence|right; exact H].
Qed.
Lemma reconnect_tied fuel rp ro o1 o2 l s u s' : in_order s -> l <> [] -> tour s ((ro, (o1, o2)) :: l) ->
  reconnect fuel rp ro o1 o2 l s = Ok (u, s') -> tied_all s -> tied_all s'.
Proof.
  intros I NE T E TA. destruct (reconnected _ _ _ _ _ _ _ _ _ I NE T E) as (_ & keep & Hk & MM & OFF & PO & _).
  destruct (reconnect_conn _ _ _ _ _ _ _ _ _ (proj1 T) E) as (k2 & l2 & s0 & EC & CN & NK & NM).
  pose proof (later_conns _ _ _ _ _ _ EC) as (LN & _).
  assert (PA : forall q, pairs_at s0 q = pairs_at s q) by (intros q; unfold pairs_at; rewrite CN; reflexivity).
  assert (LN' : forall i, node_at s0 i = node_at s' i) by (intros i; symmetry; apply LN).
  assert (ON : forall i q, ring_of s i = Some q -> on_tour s ((ro, (o1, o2)) :: l) i <-> In q (map fst ((ro, (o1, o2)) :: l))).
  { intros i q Hi. split; [intros (p & Hp & Rp); congruence|intros H; exists q; auto]. }
  assert (LV : forall i q, ring_of s i = Some q -> exists q', ring_of s' i = Some q' /\
     (In q (map fst ((ro, (o1, o2)) :: l)) /\ (q' = keep \/ q' = s_rnext s) \/ ~ In q (map fst ((ro, (o1, o2)) :: l)) /\ q' = q)).
  { intros i q Hi. destruct (in_dec Pos.eq_dec q (map fst ((ro, (o1, o2)) :: l))) as [Y|N].
    - destruct (proj2 (MM i) (proj2 (ON i q Hi) Y)) as [X|X]; eexists; (split; [exact X|]); left; auto.
    - exists q. split; [|right; auto]. unfold ring_of. rewrite (OFF i); [exact Hi|]. intros X. apply (ON i q Hi) in X. contradiction. }
  apply (conns_tied _ _ _ _ _ _ EC); [| |exact NK].
  - intros q p Hp Hq. apply (loose_same s'); [exact LN'|]. rewrite PA in Hp. destruct (TA q p Hp) as (A & (q2 & B & _) & D).
    destruct (LV _ _ A) as (x & X & _), (LV _ _ B) as (y & Y & _). split; [congruence|]. split; [congruence|]. rewrite !PO. exact D.
  - intros q p Hp N1 N2. apply (tied_same s'); [exact LN'|]. rewrite PA in Hp. destruct (TA q p Hp) as (A & (q2 & B & C) & D).
    assert (NT : ~ In q (map fst ((ro, (o1, o2)) :: l))) by (intros X; apply NM in X as [X|X]; contradiction).
    pose proof (wr_known s (proj1 I) _ _ A) as (_ & KN).
    destruct (LV _ _ A) as (x & X & [(Y & _)|(_ & ->)]); [contradiction|]. destruct (LV _ _ B) as (y & Y & YY).
    split; [exact X|]. split; [|rewrite !PO; exact D]. exists y. split; [exact Y|].
    destruct YY as [(_ & [-> | ->])|(_ & ->)]; [intros ->; contradiction|lia|exact C].
Qed.
(** ** Looking for a chain *)
Definition thin (s s' : st) : Prop :=
  later s s' /\ (forall q, incl (pairs_at s' q) (pairs_at s q)) /\ (forall q, parent_of s' q = parent_of s q).
#[export] Instance thin_pre : PreOrd thin.
Proof.
  split; [intros s; split; [apply R_refl|split; [intros q; apply incl_refl|auto]]|]. intros a b c (A1 & A2 & A3) (B1 & B2 & B3).
  split; [eapply R_trans; eassumption|]. split; [intros q; eapply incl_tran; [apply B2|apply A2]|]. intros q. rewrite B3. apply A3.
Qed.
#[export] Hint Resolve thin_pre : pres.
Lemma thin_calc s s' : calc s s' -> thin s s'.
Proof.
  intros (A & (_ & _ & B) & _ & D). split; [apply later_same; assumption|]. split; [|intros q; apply B].
  intros q. unfold pairs_at. replace (s_conn s') with (s_conn s) by (symmetry; apply A). apply incl_refl.
Qed.
Lemma thin_node s s' i : thin s s' -> node_at s' i = node_at s i. Proof. intros (A & _). apply A. Qed.
Lemma thin_ring s s' i : thin s s' -> ring_of s' i = ring_of s i. Proof. intros H. unfold ring_of. rewrite (thin_node s s' i H). reflexivity. Qed.
Lemma thin_tied s s' : thin s s' -> tied_all s -> tied_all s'.
Proof. intros T H q p Hp. apply (tied_same s); [intros i; apply thin_node; exact T|]. apply H. apply T. exact Hp. Qed.
Lemma thin_order s s' : thin s s' -> in_order s -> in_order s'. Proof. intros (A & _). apply A. Qed.
Lemma thin_set s q l : incl l (pairs_at s q) -> thin s (with_pairs s q l).
Proof.
  intros H. split; [exact (later_conn_set q l s tt _ (conn_set_run s q l))|]. split; [|reflexivity].
  intros p. rewrite pairs_with. destruct (Pos.eqb_spec q p) as [<-|_]; [exact H|apply incl_refl].
Qed.
Lemma point_eqb_neq a b : point_eqb a b = false -> a <> b.
Proof. intros H E. apply MiscP.point_eqb_eq in E. congruence. Qed.
Section Scan.
  Variable fuel : nat.
  Variables (rp : option rid) (origin : rid) (orig : nid).
  Definition may_close (s : st) : bool := is_some rp || opt_is rp (parent_of s origin).
  Lemma loop_scan_spec search prev l : forall s sc s', loop_scan fuel rp origin search orig prev l s = Ok (sc, s') -> calc s s' /\
    (forall p, fst sc = Some p -> In p l /\ ring_of s (fst p) = Some search /\ ring_of s (snd p) = Some origin /\
        npos (node_at s (snd p)) <> npos (node_at s prev) /\ npos (node_at s (snd p)) <> npos (node_at s orig)) /\
    incl (snd sc) l /\
    (fst sc = None -> forall p, In p (snd sc) -> ring_of s (fst p) = Some search /\
        (ring_of s (snd p) = Some origin -> may_close s = true -> npos (node_at s (snd p)) = npos (node_at s prev) \/ npos (node_at s (snd p)) = npos (node_at s orig))).
  Proof.
    induction l as [|(a & b) l IH]; intros s sc s' E; cbn [loop_scan] in E.
    { injection E as <- <-. split; [apply R_refl|]. split; [discriminate|]. split; [apply incl_refl|intros _ ? []]. }
    rewrite (bind_run _ _ _ _ _ (nd_run s a)), (bind_run _ _ _ _ _ (nd_run s b)) in E.
    change (n_ring (node_at s a)) with (ring_of s a) in E. change (n_ring (node_at s b)) with (ring_of s b) in E.
    inv_bind E drop s1 E1.
    assert (H : calc s s1 /\ (drop = false -> ring_of s a = Some search)).
    { destruct (ring_of s a) as [r1|] eqn:Ra; [|injection E1 as <- <-; split; [apply R_refl|discriminate]].
      destruct (ring_of s b) as [r2|] eqn:Rb; [|injection E1 as <- <-; split; [apply R_refl|discriminate]].
      destruct (Pos.eqb_spec r1 search) as [->|NE]; cbn [negb] in E1; [|injection E1 as <- <-; split; [apply R_refl|discriminate]].
      split; [|reflexivity]. inv_bind E1 h1 t1 F1. pose proof (calc_hole _ _ _ _ _ F1) as C1.
      destruct h1; [injection E1 as <- <-; exact C1|]. inv_bind E1 h2 t2 F2. injection E1 as <- <-. eapply R_trans; [exact C1|]. exact (calc_hole _ _ _ _ _ F2). }
    destruct H as (C1 & D1). destruct drop.
    - destruct (IH _ _ _ E) as (C2 & H1 & H2 & H3).
      assert (N : forall i, node_at s1 i = node_at s i) by (intros i; apply C1). assert (PP : parent_of s1 origin = parent_of s origin) by apply C1.
      split; [eapply R_trans; eassumption|]. split; [|split; [apply incl_tl; exact H2|]].
      + intros p Hp. destruct (H1 p Hp) as (A1 & A2). unfold ring_of in *. rewrite !N in A2. split; [right; exact A1|exact A2].
      + intros F p Hp. specialize (H3 F p Hp). unfold ring_of, may_close in *. rewrite !N, PP in H3. exact H3.
    - specialize (D1 eq_refl). inv_bind E hit s2 E2.
      assert (N : forall i, node_at s1 i = node_at s i) by (intros i; apply C1). assert (PP : parent_of s1 origin = parent_of s origin) by apply C1.
      assert (H : s2 = s1 /\ (hit = true -> ring_of s b = Some origin /\ npos (node_at s b) <> npos (node_at s prev) /\ npos (node_at s b) <> npos (node_at s orig)) /\
          (hit = false -> ring_of s b = Some origin -> may_close s = true -> npos (node_at s b) = npos (node_at s prev) \/ npos (node_at s b) = npos (node_at s orig))).
      { destruct (ring_of s b) as [r2|] eqn:Rb; [|injection E2 as <- <-; split; [reflexivity|split; discriminate]].
        destruct (Pos.eqb_spec r2 origin) as [->|NE]; [|injection E2 as <- <-; split; [reflexivity|split; [discriminate|intros _ X; congruence]]].
        rewrite (bind_run _ _ _ _ _ (rg_run s1 origin)) in E2. change (r_parent (ring_at s1 origin)) with (parent_of s1 origin) in E2. rewrite PP in E2.
        fold (may_close s) in E2. destruct (may_close s); [|injection E2 as <- <-; split; [reflexivity|split; discriminate]].
        rewrite (bind_run _ _ _ _ _ (node_eq_run s1 prev b)), (bind_run _ _ _ _ _ (node_eq_run s1 orig b)) in E2. rewrite !N in E2. injection E2 as <- <-.
        split; [reflexivity|]. split.
        - intros T. apply andb_true_iff in T as (T1 & T2). apply negb_true_iff in T1, T2. apply point_eqb_neq in T1, T2. split; [reflexivity|]. split; congruence.
        - intros T _ _. apply andb_false_iff in T as [T|T]; apply negb_false_iff in T; apply MiscP.point_eqb_eq in T; auto. }
      destruct H as (-> & HT & HF). clear E2. destruct hit.
      + injection E as <- <-. destruct (HT eq_refl) as (T1 & T2 & T3). split; [exact C1|]. split; [|split; [intros ? []|discriminate]].
        intros p [= <-]. split; [left; reflexivity|]. auto.
      + inv_bind E r s2 E2. injection E as <- <-. destruct (IH _ _ _ E2) as (C2 & H1 & H2 & H3). cbn [fst snd].
        split; [eapply R_trans; eassumption|]. split; [|split; [apply incl_cons; [left; reflexivity|apply incl_tl; exact H2]|]].
        * intros p Hp. destruct (H1 p Hp) as (A1 & A2). unfold ring_of in *. rewrite !N in A2. split; [right; exact A1|exact A2].
        * intros F p [<-|Hp]; [split; [exact D1|exact (HF eq_refl)]|]. specialize (H3 F p Hp). unfold ring_of, may_close in *. rewrite !N, PP in H3. exact H3.
  Qed.
End Scan.
Lemma two_same s s' : (forall i, node_at s' i = node_at s i) -> two_at_most s -> two_at_most s'.
Proof. intros N H i j k. unfold ring_of. rewrite !N. apply H. Qed.
Lemma leads_same s s' l : (forall i, node_at s' i = node_at s i) -> forall e x, leads s e l x -> leads s' e l x.
Proof.
  intros N. induction l as [|(r & a & b) l IH]; intros e x; cbn [leads]; [auto|]. intros (A & B & C & D). unfold ring_of in *. rewrite !N. auto.
Qed.
(** what a search of ring [search], entered at [prev], may find *)
Definition chain (s : st) (origin : rid) (orig : nid) (search : rid) (visited : list rid) (prev : nid) (items : list inter) : Prop :=
  exists a b tail, items = (search, (a, b)) :: tail /\ NoDup (map fst tail) /\
    (forall q, In q (map fst tail) -> q <> origin /\ q <> search /\ ~ In q visited) /\
    exists e, leads s prev items e /\ ring_of s e = Some origin /\ npos (node_at s e) <> npos (node_at s orig).
Lemma chain_same s s' origin orig search visited prev items : (forall i, node_at s' i = node_at s i) -> chain s origin orig search visited prev items -> chain s' origin orig search visited prev items.
Proof.
  intros N (a & b & tail & A & B & C & e & D & F & G). exists a, b, tail. do 3 (split; [assumption|]). exists e.
  split; [exact (leads_same s s' _ N _ _ D)|]. unfold ring_of. rewrite !N. auto.
Qed.
Section Chain.
  Variable fuel : nat.
  Variables (rp : option rid) (origin home : rid) (orig first : nid).
  Definition fil_go (depth' : nat) (search : rid) (prev_pt : nid) :=
    fix go (l : list (nid * nid)) (visited : list rid) : prog (option (list inter) * list rid) :=
               match l with
               | [] => ret (None, visited)
               | (op1, op2) :: l' =>
                   (n2 <- nd op2 ;;
                    match n_ring n2 with
                    | None => go l' visited
                    | Some r =>
                        if existsb (Pos.eqb r) visited then go l' visited
                        else
                          (x <- rg r ;;
                           if negb (opt_is rp (Some r))
                              && negb (opt_is rp (r_parent x))
                           then go l' visited
                           else
                             (a <- ring_area fuel r ;;
                              z <- lift (almost_zero (NF a)) ;;
                              if (z : bool) then go l' visited
                              else
                                (e <- node_eq prev_pt op2 ;;
                                 if (e : bool) then go l' visited
                                 else
                                   (f <- find_intersect_loop fuel depth' rp
                                           origin r visited orig op2 ;;
                                    match fst f with
                                    | Some items =>
                                        ret (Some ((search, (op1, op2)) :: items),
                                             snd f)
                                    | None => go l' (snd f)
                                    end))))
                    end)%M
               end.
  Lemma fil_step depth' search visited prev : find_intersect_loop fuel (S depth') rp origin search visited orig prev =
    bind (conn_get search) (fun pairs => bind (loop_scan fuel rp origin search orig prev pairs) (fun sc =>
       match fst sc with
       | Some p => ret (Some [(search, p)], visited)
       | None => bind (conn_set search (snd sc)) (fun _ => fil_go depth' search prev (snd sc) (search :: visited))
       end)).
  Proof. reflexivity. Qed.
  (** the situation in which a search starts *)
  Definition ready (s : st) : Prop :=
    tied_all s /\ two_at_most s /\ ring_of s first = Some origin /\ ring_of s orig = Some home /\ home <> origin /\ npos (node_at s first) = npos (node_at s orig).
  Lemma ready_thin s s' : thin s s' -> ready s -> ready s'.
  Proof.
    intros T (A & B & C & D & F & G). split; [exact (thin_tied s s' T A)|]. split; [apply (two_same s); [intros i; apply thin_node; exact T|exact B]|].
    unfold ring_of. rewrite !(thin_node _ _ _ T). auto.
  Qed.
  Definition fil_ok (depth : nat) : Prop := forall search visited prev s res s',
    find_intersect_loop fuel depth rp origin search visited orig prev s = Ok (res, s') ->
    ready s -> search <> origin -> search <> home -> In home visited -> ring_of s prev = Some search ->
    thin s s' /\ incl visited (snd res) /\ forall items, fst res = Some items -> chain s origin orig search visited prev items.
  Lemma go_ok depth search prev vis0 s0 : fil_ok depth -> search <> origin -> search <> home -> ring_of s0 prev = Some search -> forall l visited s res s',
    fil_go depth search prev l visited s = Ok (res, s') -> ready s -> thin s0 s -> In home visited -> In search visited -> incl vis0 visited ->
    (forall p, In p l -> tied s search p /\
        (ring_of s (snd p) = Some origin -> may_close rp origin s = true -> npos (node_at s (snd p)) = npos (node_at s prev) \/ npos (node_at s (snd p)) = npos (node_at s orig))) ->
    thin s s' /\ incl visited (snd res) /\ forall items, fst res = Some items -> chain s origin orig search vis0 prev items.
  Proof.
    intros HD NO NH. intros Rp. induction l as [|(a & b) l IH]; intros visited s res s' E RD T0 HV SV IV HL.
    { cbn in E. injection E as <- <-. split; [apply R_refl|]. split; [apply incl_refl|discriminate]. }
    cbn [fil_go] in E. rewrite (bind_run _ _ _ _ _ (nd_run s b)) in E. change (n_ring (node_at s b)) with (ring_of s b) in E.
    assert (HL' : forall p, In p l -> tied s search p /\
        (ring_of s (snd p) = Some origin -> may_close rp origin s = true -> npos (node_at s (snd p)) = npos (node_at s prev) \/ npos (node_at s (snd p)) = npos (node_at s orig))).
    { intros p Hp. apply HL. right. exact Hp. }
    assert (SKIP : forall t visited', thin s t -> incl visited visited' -> fil_go depth search prev l visited' t = Ok (res, s') ->
       thin s s' /\ incl visited (snd res) /\ forall items, fst res = Some items -> chain s origin orig search vis0 prev items).
    { intros t vv TT IC ET. destruct (IH vv t res s' ET) as (X1 & X2 & X3).
      - exact (ready_thin _ _ TT RD).
      - eapply R_trans; eassumption.
      - apply IC, HV.
      - apply IC, SV.
      - eapply incl_tran; eassumption.
      - intros p Hp. destruct (HL' p Hp) as (Y1 & Y2). split; [apply (tied_same s); [intros i; apply thin_node; exact TT|exact Y1]|].
        unfold may_close, ring_of. rewrite !(thin_node _ _ _ TT), (proj2 (proj2 TT)). exact Y2.
      - split; [eapply R_trans; eassumption|]. split; [eapply incl_tran; eassumption|]. intros items Hi. apply (chain_same t s); [intros i; symmetry; apply thin_node; exact TT|]. auto. }
    destruct (ring_of s b) as [r|] eqn:Rb; [|apply (SKIP s visited (R_refl s) (incl_refl _) E)].
    destruct (existsb (Pos.eqb r) visited) eqn:EX; [apply (SKIP s visited (R_refl s) (incl_refl _) E)|].
    assert (NV : ~ In r visited).
    { intros X. assert (Y : existsb (Pos.eqb r) visited = true) by (apply existsb_exists; exists r; split; [exact X|apply Pos.eqb_refl]). congruence. }
    rewrite (bind_run _ _ _ _ _ (rg_run s r)) in E. change (r_parent (ring_at s r)) with (parent_of s r) in E.
    destruct (negb (opt_is rp (Some r)) && negb (opt_is rp (parent_of s r))) eqn:PP; [apply (SKIP s visited (R_refl s) (incl_refl _) E)|].
    inv_bind E ar s1 E1. pose proof (thin_calc _ _ (calc_area _ _ _ _ _ E1)) as T1. clear E1.
    inv_bind E z s2 E2. assert (s2 = s1) by (destruct (almost_zero (NF ar)); cbn in E2; try discriminate; injection E2 as _ <-; reflexivity). subst s2. clear E2.
    destruct z; [apply (SKIP s1 visited T1 (incl_refl _) E)|].
    rewrite (bind_run _ _ _ _ _ (node_eq_run s1 prev b)) in E. rewrite !(thin_node _ _ _ T1) in E.
    destruct (point_eqb (npos (node_at s prev)) (npos (node_at s b))) eqn:PE; [apply (SKIP s1 visited T1 (incl_refl _) E)|].
    apply point_eqb_neq in PE. inv_bind E f s2 E2.
    destruct (HL (a, b) (or_introl eq_refl)) as (TD & CL). cbn [fst snd] in TD, CL. pose proof TD as (Ra & (r' & Rb' & Nr) & Pab). cbn [fst snd] in Ra, Rb', Pab.
    assert (r' = r) by congruence. subst r'.
    destruct RD as (RD1 & RD2 & RD3 & RD4 & RD5 & RD6).
    assert (RO : r <> origin).
    { intros ->. assert (MC : may_close rp origin s = true).
      { unfold may_close. apply andb_false_iff in PP as [PP|PP]; apply negb_false_iff in PP; [|rewrite PP; apply orb_true_r].
        destruct rp; [reflexivity|discriminate]. }
      destruct (CL Rb MC) as [X|X]; [congruence|].
      destruct (RD2 a orig b) as [Y|[Y|Y]]; try congruence. }
    destruct (HD _ _ _ _ _ _ E2) as (T2 & I2 & C2).
    { apply (ready_thin _ _ T1). unfold ready. auto 10. }
    { exact RO. } { intros ->. contradiction. } { exact HV. } { rewrite (thin_ring _ _ _ T1). exact Rb. }
    destruct (fst f) as [items|] eqn:FF.
    - injection E as <- <-. cbn [fst snd]. split; [eapply R_trans; eassumption|]. split; [exact I2|]. intros its [= <-].
      specialize (C2 items eq_refl). apply (chain_same s1 s) in C2; [|intros i; symmetry; apply thin_node; exact T1].
      destruct C2 as (a2 & b2 & tl & -> & ND & NN & e & LD & Re & Pe). exists a, b, ((r, (a2, b2)) :: tl). split; [reflexivity|].
      split; [cbn [map fst]; constructor; [intros X; apply NN in X as (_ & X & _); congruence|exact ND]|].
      split.
      + intros q Hq. cbn [map fst] in Hq. destruct Hq as [<-|Hq].
        * split; [exact RO|]. split; [intros ->; contradiction|]. intros X. apply NV, IV, X.
        * destruct (NN q Hq) as (X1 & X2 & X3). split; [exact X1|]. split; [intros ->; contradiction|]. intros X. apply X3, IV, X.
      + exists e. split; [|split; [exact Re|exact Pe]]. cbn [leads]. rewrite <- (thin_ring _ _ prev T0) in Rp. split; [exact Rp|]. split; [exact Ra|]. split; [intros ->; congruence|]. exact LD.
    - apply (SKIP s2 (snd f)); [eapply R_trans; eassumption|exact I2|exact E].
  Qed.
  Lemma fil_all depth : fil_ok depth.
  Proof.
    induction depth as [|depth IH]; intros search visited prev s res s' E RD NO NH HV Rp; [discriminate|].
    rewrite fil_step in E. rewrite (bind_run _ _ _ _ _ (conn_get_run s search)) in E.
    inv_bind E sc s1 E1. destruct (loop_scan_spec fuel rp origin orig _ _ _ _ _ _ E1) as (C1 & H1 & H2 & H3). clear E1.
    pose proof (thin_calc _ _ C1) as T1.
    destruct (fst sc) as [p|].
    - injection E as <- <-. split; [exact T1|]. split; [apply incl_refl|]. intros items [= <-]. destruct (H1 p eq_refl) as (A1 & A2 & A3 & A4 & A5).
      destruct p as (a & b). cbn [fst snd] in *. destruct (proj1 RD search (a, b) A1) as (_ & _ & Pab). cbn [fst snd] in Pab.
      exists a, b, []. split; [reflexivity|]. split; [constructor|]. split; [intros ? []|]. exists b. split; [|auto]. cbn [leads].
      split; [exact Rp|]. split; [exact A2|]. split; [intros ->; congruence|reflexivity].
    - rewrite (bind_run _ _ _ _ _ (conn_set_run s1 search (snd sc))) in E.
      assert (PI : incl (snd sc) (pairs_at s1 search)).
      { unfold pairs_at. replace (s_conn s1) with (s_conn s) by (symmetry; apply C1). exact H2. }
      pose proof (R_trans _ _ _ T1 (thin_set s1 search _ PI)) as T2. set (s2 := with_pairs s1 search (snd sc)) in *. clearbody s2.
      destruct (go_ok depth search prev visited s IH NO NH Rp (snd sc) (search :: visited) s2 res s' E (ready_thin _ _ T2 RD) T2) as (X1 & X2 & X3).
      + right. exact HV.
      + left. reflexivity.
      + apply incl_tl, incl_refl.
      + intros p Hp. destruct (H3 eq_refl p Hp) as (Y1 & Y2). split.
        * apply (tied_same s); [intros i; apply thin_node; exact T2|]. apply (proj1 RD). apply H2. exact Hp.
        * unfold may_close, ring_of. rewrite !(thin_node _ _ _ T2), (proj2 (proj2 T2)). exact Y2.
      + split; [eapply R_trans; eassumption|]. split; [eapply incl_tran; [apply incl_tl, incl_refl|exact X2]|].
        intros items Hi. apply (chain_same s2 s); [intros i; symmetry; apply thin_node; exact T2|]. auto.
  Qed.
End Chain.
Lemma direct_spec origin o1 l : forall s r s', direct_scan origin o1 l s = Ok (r, s') -> let '(f, it, kept) := r in
  s' = s /\ incl kept l /\
  (forall p, it = Some p -> In p l /\ ring_of s (snd p) = Some origin /\ npos (node_at s (snd p)) <> npos (node_at s o1)) /\
  (it = None -> forall p, In p kept -> ring_of s (snd p) = Some origin -> npos (node_at s (snd p)) = npos (node_at s o1)).
Proof.
  induction l as [|(a & b) l IH]; intros s r s' E; cbn [direct_scan] in E.
  { injection E as <- <-. split; [reflexivity|]. split; [apply incl_refl|]. split; [discriminate|intros _ ? []]. }
  rewrite (bind_run _ _ _ _ _ (nd_run s a)), (bind_run _ _ _ _ _ (nd_run s b)) in E.
  change (n_ring (node_at s a)) with (ring_of s a) in E. change (n_ring (node_at s b)) with (ring_of s b) in E.
  assert (SK : forall r s', direct_scan origin o1 l s = Ok (r, s') -> let '(f, it, kept) := r in
    s' = s /\ incl kept ((a, b) :: l) /\
    (forall p, it = Some p -> In p ((a, b) :: l) /\ ring_of s (snd p) = Some origin /\ npos (node_at s (snd p)) <> npos (node_at s o1)) /\
    (it = None -> forall p, In p kept -> ring_of s (snd p) = Some origin -> npos (node_at s (snd p)) = npos (node_at s o1))).
  { intros r0 s0 E0. specialize (IH s r0 s0 E0). destruct r0 as [[f it] kept]. destruct IH as (A & B & C & D). split; [exact A|]. split; [apply incl_tl; exact B|].
    split; [|exact D]. intros p Hp. destruct (C p Hp) as (X & Y). split; [right; exact X|exact Y]. }
  assert (AD : forall f it kept s0, direct_scan origin o1 l s = Ok ((f, it, kept), s0) -> (ring_of s b = Some origin -> npos (node_at s b) = npos (node_at s o1)) ->
    s0 = s /\ incl ((a, b) :: kept) ((a, b) :: l) /\
    (forall p, it = Some p -> In p ((a, b) :: l) /\ ring_of s (snd p) = Some origin /\ npos (node_at s (snd p)) <> npos (node_at s o1)) /\
    (it = None -> forall p, In p ((a, b) :: kept) -> ring_of s (snd p) = Some origin -> npos (node_at s (snd p)) = npos (node_at s o1))).
  { intros f it kept s0 E0 Hb. destruct (IH _ _ _ E0) as (A & B & C & D). split; [exact A|]. split; [apply incl_cons; [left; reflexivity|apply incl_tl; exact B]|]. split.
    - intros p Hp. destruct (C p Hp) as (X & Y). split; [right; exact X|exact Y].
    - intros F p [<-|Hp]; [exact Hb|exact (D F p Hp)]. }
  destruct (is_none (ring_of s a) || is_none (ring_of s b)); [exact (SK _ _ E)|].
  destruct (opt_is (ring_of s b) (Some origin)) eqn:O.
  - apply opt_is_Some in O. rewrite (bind_run _ _ _ _ _ (node_eq_run s o1 b)) in E. destruct (point_eqb _ _) eqn:PE.
    + apply MiscP.point_eqb_eq in PE. inv_bind E rr s1 E1. destruct rr as [[f it] kept]. injection E as <- <-. apply (AD _ _ _ _ E1). intros _. symmetry. exact PE.
    + apply point_eqb_neq in PE. injection E as <- <-. split; [reflexivity|]. split; [apply incl_refl|]. split; [|discriminate].
      intros p [= <-]. split; [left; reflexivity|]. split; [exact O|]. cbn [snd]. intros X. apply PE. symmetry. exact X.
  - inv_bind E rr s1 E1. destruct rr as [[f it] kept]. injection E as <- <-. apply (AD _ _ _ _ E1). intros X. rewrite X in O. cbn in O. rewrite Pos.eqb_refl in O. discriminate.
Qed.
Section Chains.
  Variable fuel : nat.
  Variables (rp : option rid) (origin home : rid) (orig first : nid).
  Notation ready := (ready origin home orig first).
  Lemma chain_scan_spec l : forall visited s r s', chain_scan fuel rp origin home orig l visited s = Ok (r, s') ->
    ready s -> In home visited ->
    (forall p, In p l -> tied s home p /\ (ring_of s (snd p) = Some origin -> npos (node_at s (snd p)) = npos (node_at s first))) ->
    thin s s' /\ forall items, r = Some items -> items <> [] /\ tour s ((origin, (first, orig)) :: items).
  Proof.
    induction l as [|(a & b) l IH]; intros visited s r s' E RD HV HL; cbn [chain_scan] in E.
    { injection E as <- <-. split; [apply R_refl|discriminate]. }
    rewrite (bind_run _ _ _ _ _ (nd_run s b)) in E. change (n_ring (node_at s b)) with (ring_of s b) in E.
    assert (SKIP : forall t visited', thin s t -> incl visited visited' -> chain_scan fuel rp origin home orig l visited' t = Ok (r, s') ->
       thin s s' /\ forall items, r = Some items -> items <> [] /\ tour s ((origin, (first, orig)) :: items)).
    { intros t vv TT IC ET. destruct (IH vv t r s' ET) as (X1 & X2).
      - exact (ready_thin _ _ _ _ _ _ TT RD).
      - apply IC, HV.
      - intros p Hp. destruct (HL p (or_intror Hp)) as (Y1 & Y2). split; [apply (tied_same s); [intros i; apply thin_node; exact TT|exact Y1]|].
        unfold ring_of. rewrite !(thin_node _ _ _ TT). exact Y2.
      - split; [eapply R_trans; eassumption|]. intros items Hi. destruct (X2 items Hi) as (Z1 & Z2 & e & Z3). split; [exact Z1|]. split; [exact Z2|].
        exists e. apply (leads_same t s); [intros i; symmetry; apply thin_node; exact TT|exact Z3]. }
    destruct (ring_of s b) as [q|] eqn:Rb; [|apply (SKIP s visited (R_refl s) (incl_refl _) E)].
    destruct (Pos.eqb_spec q home) as [->|NH]; [apply (SKIP s visited (R_refl s) (incl_refl _) E)|].
    rewrite (bind_run _ _ _ _ _ (node_eq_run s orig b)), (bind_run _ _ _ _ _ (rg_run s q)) in E.
    destruct (point_eqb (npos (node_at s orig)) (npos (node_at s b))) eqn:PE; cbn [orb] in E; [apply (SKIP s visited (R_refl s) (incl_refl _) E)|].
    apply point_eqb_neq in PE.
    destruct (negb (opt_is rp (Some q) || opt_is rp (r_parent (ring_at s q)))) eqn:PP; [apply (SKIP s visited (R_refl s) (incl_refl _) E)|].
    inv_bind E ar s1 E1. pose proof (thin_calc _ _ (calc_area _ _ _ _ _ E1)) as T1. clear E1.
    inv_bind E z s2 E2. assert (s2 = s1) by (destruct (almost_zero (NF ar)); cbn in E2; try discriminate; injection E2 as _ <-; reflexivity). subst s2. clear E2.
    destruct z; [apply (SKIP s1 visited T1 (incl_refl _) E)|].
    inv_bind E f s2 E2.
    destruct (HL (a, b) (or_introl eq_refl)) as (TD & CL). cbn [fst snd] in TD, CL. pose proof TD as (Ra & _ & Pab). cbn [fst snd] in Ra, Pab.
    pose proof RD as (RD1 & RD2 & RD3 & RD4 & RD5 & RD6).
    assert (RO : q <> origin) by (intros ->; specialize (CL Rb); congruence).
    destruct (fil_all fuel rp origin home orig first fuel _ _ _ _ _ _ E2) as (T2 & I2 & C2).
    { exact (ready_thin _ _ _ _ _ _ T1 RD). } { exact RO. } { exact NH. } { exact HV. } { rewrite (thin_ring _ _ _ T1). exact Rb. }
    destruct (fst f) as [items|] eqn:FF.
    - injection E as <- <-. split; [eapply R_trans; eassumption|]. intros its [= <-]. split; [discriminate|].
      specialize (C2 items eq_refl). apply (chain_same s1 s) in C2; [|intros i; symmetry; apply thin_node; exact T1].
      destruct C2 as (a2 & b2 & tl & -> & ND & NN & e & LD & Re & Pe). split.
      + cbn [map fst]. constructor; [|constructor; [|constructor; [|exact ND]]].
        * intros [X|[X|X]]; [congruence|congruence|]. apply NN in X. tauto.
        * intros [X|X]; [congruence|]. apply NN in X as (_ & _ & X). contradiction.
        * intros X. apply NN in X. tauto.
      + exists e. cbn [leads] in *. split; [exact Re|]. split; [exact RD3|]. split; [intros ->; congruence|].
        split; [exact RD4|]. split; [exact Ra|]. split; [intros ->; congruence|]. exact LD.
    - apply (SKIP s2 (snd f)); [eapply R_trans; eassumption|exact I2|exact E].
  Qed.
End Chains.
(** ** One pair of touching vertices *)
Definition fewer (s s' : st) : Prop := unmoved s s' /\ forall i, ring_of s' i <> None <-> ring_of s i <> None.
#[export] Instance fewer_pre : PreOrd fewer.
Proof. split; [intros s; split; [apply R_refl|reflexivity]|]. intros a b c (A1 & A2) (B1 & B2). split; [eapply R_trans; eassumption|]. intros i. rewrite B2. apply A2. Qed.
Lemma fewer_same s s' : (forall i, node_at s' i = node_at s i) -> fewer s s'.
Proof. intros N. split; [intros i; rewrite N; reflexivity|]. intros i. unfold ring_of. rewrite N. reflexivity. Qed.
Lemma fewer_two s s' : unmoved s s' -> (forall i, ring_of s' i <> None -> ring_of s i <> None) -> two_at_most s -> two_at_most s'.
Proof. intros U L H i j k A B C. rewrite !U. apply H; apply L; assumption. Qed.
Definition chained_up (s : st) : Prop := in_order s /\ tied_all s /\ two_at_most s.
Lemma thin_chained s s' : thin s s' -> chained_up s -> chained_up s'.
Proof.
  intros T (A & B & C). split; [exact (thin_order _ _ T A)|]. split; [exact (thin_tied _ _ T B)|]. apply (two_same s); [intros i; apply thin_node; exact T|exact C].
Qed.
Lemma add_chained s q p : chained_up s -> tied s q p -> chained_up (with_pairs s q (pairs_at s q ++ [p])).
Proof.
  intros (A & B & C) T. split; [apply (later_conn_set q _ s tt _ (conn_set_run s q _)); exact A|]. split; [|apply (two_same s); [reflexivity|exact C]].
  intros x y Hy. rewrite pairs_with in Hy. apply (tied_same s); [reflexivity|].
  destruct (Pos.eqb_spec q x) as [<-|_]; [|apply B, Hy]. apply in_app_iff in Hy as [Hy|[<-|[]]]; [apply B, Hy|exact T].
Qed.
(** either nothing moved, or a tour was reconnected *)
Definition reworked (s s' : st) : Prop :=
  ((forall i, node_at s' i = node_at s i) /\ forall q, first_of s' q = first_of s q) \/
  exists s2 fuel rp ro o1 o2 l u, thin s s2 /\ in_order s2 /\ l <> [] /\ tour s2 ((ro, (o1, o2)) :: l) /\ reconnect fuel rp ro o1 o2 l s2 = Ok (u, s').
Lemma thin_firsts s s' : thin s s' -> forall q, first_of s' q = first_of s q.
Proof. intros ((_ & A & _) & _). exact A. Qed.
Lemma reworked_thin s s1 s' : thin s s1 -> reworked s1 s' -> reworked s s'.
Proof.
  intros T [(A & B)|(s2 & f & rp & ro & a & b & l & u & C & D)]; [left|right].
  - split; [intros i; rewrite A; apply thin_node; exact T|intros q; rewrite B; apply thin_firsts; exact T].
  - exists s2, f, rp, ro, a, b, l, u. split; [eapply R_trans; eassumption|exact D].
Qed.
Lemma reworked_set s q l : reworked s (with_pairs s q l).
Proof. left. split; reflexivity. Qed.
Definition single_rest (fuel : nat) (parent : option rid) (origin search : rid) (o1 o2 : nid) : prog unit :=
  (pairs <- conn_get search ;;
   ds <- direct_scan origin o1 pairs ;;
   let '(found, item, kept) := (ds : bool * option (nid * nid) * list (nid * nid)) in
   conn_set search kept ;;
   fi <- match item with
         | Some p => ret (true, [(search, p)])
         | None =>
             (c <- chain_scan fuel parent origin search o2 kept [search] ;;
              match c with
              | Some items => ret (true, items)
              | None => ret (found, [])
              end)
         end ;;
   let '(found, ilist) := (fi : bool * list inter) in
   if negb found then
     (conn_add origin (o1, o2) ;; conn_add search (o2, o1))
   else
     match ilist with
     | [] =>
         (l <- conn_get origin ;;
          s <- get ;;
          let missing := negb (existsb (fun p =>
            opt_is (n_ring (hget dummy_node (s_nodes s) (snd p))) (Some search)) l) in
          if missing then conn_add origin (o1, o2) else ret tt)
     | _ => reconnect fuel parent origin o1 o2 ilist
     end)%M.
Definition single_mid (fuel : nat) (op_j op_k : nid) (rj rk : rid) : prog unit :=
  (hj <- ring_is_hole fuel rj ;;
   hk <- ring_is_hole fuel rk ;;
   if negb hj && negb hk then ret tt
   else
     (xj <- rg rj ;;
      let '(origin, parent, search, o1, o2) :=
        if negb hj then (rj, Some rj, rk, op_j, op_k)
        else if negb hk then (rk, Some rk, rj, op_k, op_j)
        else (rj, r_parent xj, rk, op_j, op_k) in
      xs <- rg search ;;
      if negb (opt_is parent (r_parent xs)) then ret tt
      else single_rest fuel parent origin search o1 o2))%M.
Lemma single_eq fuel j k : process_single_intersection fuel j k =
  bind (nd j) (fun nj => bind (nd k) (fun nk => if opt_is (n_ring nj) (n_ring nk) then ret tt
    else bind (deref (n_ring nj)) (fun rj => bind (deref (n_ring nk)) (fun rk => single_mid fuel j k rj rk)))).
Proof. reflexivity. Qed.
Lemma single_rest_order fuel parent origin search o1 o2 s u s' : chained_up s -> search <> origin -> ring_of s o1 = Some origin -> ring_of s o2 = Some search ->
  npos (node_at s o1) = npos (node_at s o2) -> single_rest fuel parent origin search o1 o2 s = Ok (u, s') -> chained_up s' /\ fewer s s' /\ reworked s s'.
Proof.
  intros CU NE R1 R2 P E. unfold single_rest in E. rewrite (bind_run _ _ _ _ _ (conn_get_run s search)) in E.
  inv_bind E ds s1 E1. pose proof (direct_spec _ _ _ _ _ _ E1) as D. destruct ds as [[found item] kept]. destruct D as (-> & KI & DI & DN). clear E1.
  rewrite (bind_run _ _ _ _ _ (conn_set_run s search kept)) in E.
  pose proof (thin_set s search kept KI) as T1.
  assert (P1 : pairs_at (with_pairs s search kept) search = kept) by (rewrite pairs_with, Pos.eqb_refl; reflexivity).
  set (s1 := with_pairs s search kept) in *. clearbody s1.
  inv_bind E fi s2 E2. destruct fi as (found2 & ilist).
  assert (H : thin s s2 /\ (ilist = [] \/ ilist <> [] /\ tour s ((origin, (o1, o2)) :: ilist))).
  { destruct item as [p|].
    - injection E2 as <- <- <-. split; [exact T1|]. right. split; [discriminate|]. destruct (DI p eq_refl) as (A & B & C). destruct p as (a & b). cbn [snd] in *.
      destruct (proj1 (proj2 CU) search (a, b) A) as (Ra & _ & Pab). cbn [fst snd] in *.
      split; [cbn [map fst]; constructor; [intros [X|[]]; congruence|constructor; [intros []|constructor]]|].
      exists b. cbn [leads]. split; [exact B|]. split; [exact R1|]. split; [intros ->; congruence|]. split; [exact R2|]. split; [exact Ra|]. split; [intros ->; congruence|reflexivity].
    - inv_bind E2 c s3 E3.
      destruct (chain_scan_spec fuel parent origin search o2 o1 kept [search] s1 c s3 E3) as (T2 & C2).
      + apply (ready_thin _ _ _ _ s s1 T1). destruct CU as (_ & A & B). unfold ready. repeat (split; [assumption|]). exact P.
      + left. reflexivity.
      + intros p Hp. split.
        * apply (tied_same s); [intros i; apply thin_node; exact T1|]. apply (proj1 (proj2 CU)). apply KI. exact Hp.
        * unfold ring_of. rewrite !(thin_node _ _ _ T1). apply DN; auto.
      + pose proof (R_trans _ _ _ T1 T2) as T3. destruct c as [items|]; injection E2 as <- <- <-; (split; [exact T3|]); [|left; reflexivity].
        right. destruct (C2 items eq_refl) as (X & Y & e & Z). split; [exact X|]. split; [exact Y|]. exists e. apply (leads_same s1 s); [intros i; symmetry; apply thin_node; exact T1|exact Z]. }
  clear E2. destruct H as (T2 & HI). pose proof (thin_chained _ _ T2 CU) as CU2.
  assert (F2 : fewer s s2) by (apply fewer_same; intros i; apply thin_node; exact T2).
  assert (TD1 : tied s2 origin (o1, o2)).
  { apply (tied_same s); [intros i; apply thin_node; exact T2|]. split; [exact R1|]. split; [exists search; auto|exact P]. }
  assert (TD2 : tied s2 search (o2, o1)).
  { apply (tied_same s); [intros i; apply thin_node; exact T2|]. split; [exact R2|]. split; [exists origin; auto|symmetry; exact P]. }
  destruct found2; cbn [negb] in E.
  - destruct ilist as [|it il].
    + rewrite (bind_run _ _ _ _ _ (conn_get_run s2 origin)) in E. unfold bind, get in E. cbv zeta in E. destruct (negb _) in E.
      * rewrite conn_add_run in E. injection E as _ <-. split; [apply add_chained; assumption|]. split; [eapply R_trans; [exact F2|apply fewer_same; reflexivity]|]. eapply reworked_thin; [exact T2|apply reworked_set].
      * injection E as _ <-. split; [exact CU2|]. split; [exact F2|]. eapply reworked_thin; [exact T2|left; split; reflexivity].
    + destruct HI as [HI|(NN & TR)]; [discriminate|].
      assert (TR2 : tour s2 ((origin, (o1, o2)) :: it :: il)).
      { destruct TR as (ND & e & L). split; [exact ND|]. exists e. apply (leads_same s s2); [intros i; apply thin_node; exact T2|exact L]. }
      destruct CU2 as (I2 & A2 & B2).
      destruct (reconnected _ _ _ _ _ _ _ _ _ I2 NN TR2 E) as (I3 & keep & Hk & MM & OFF & PO & _).
      assert (F3 : fewer s2 s').
      { split; [exact PO|]. intros i. destruct (ring_of s2 i) as [q|] eqn:Ri.
        - split; [discriminate|]. intros _. destruct (in_dec Pos.eq_dec q (map fst ((origin, (o1, o2)) :: it :: il))) as [Y|N].
          + destruct (proj2 (MM i)) as [X|X]; [exists q; auto|rewrite X; discriminate|rewrite X; discriminate].
          + unfold ring_of. rewrite OFF; [change (ring_of s2 i <> None); rewrite Ri; discriminate|]. intros (x & Hx & Rx). apply N. replace q with x by congruence. exact Hx.
        - split; [|congruence]. intros X Y. apply X. unfold ring_of. rewrite OFF; [exact Ri|]. intros (x & _ & Rx). congruence. }
      split; [|split; [eapply R_trans; eassumption|]; right; exists s2, fuel, parent, origin, o1, o2, (it :: il), u; repeat (split; [assumption|]); exact E].
      split; [exact I3|]. split; [exact (reconnect_tied _ _ _ _ _ _ _ _ _ I2 NN TR2 E A2)|].
      apply (fewer_two s2); [apply F3|intros i; apply F3|exact B2].
  - rewrite (bind_run _ _ _ _ _ (conn_add_run s2 _ _)) in E. rewrite conn_add_run in E. injection E as _ <-.
    split; [|split; [eapply R_trans; [exact F2|apply fewer_same; reflexivity]|eapply reworked_thin; [exact T2|left; split; reflexivity]]]. apply add_chained; [apply add_chained; assumption|]. exact TD2.
Qed.
Lemma single_order fuel j k s u s' : chained_up s -> npos (node_at s j) = npos (node_at s k) -> process_single_intersection fuel j k s = Ok (u, s') -> chained_up s' /\ fewer s s' /\ reworked s s'.
Proof.
  intros CU P E. rewrite single_eq in E. rewrite (bind_run _ _ _ _ _ (nd_run s j)), (bind_run _ _ _ _ _ (nd_run s k)) in E.
  change (n_ring (node_at s j)) with (ring_of s j) in E. change (n_ring (node_at s k)) with (ring_of s k) in E.
  destruct (opt_is (ring_of s j) (ring_of s k)) eqn:O; [injection E as _ <-; split; [exact CU|split; [apply R_refl|left; split; reflexivity]]|].
  destruct (ring_of s j) as [rj|] eqn:Rj; [|discriminate]. destruct (ring_of s k) as [rk|] eqn:Rk; [|discriminate].
  cbn [deref] in E. rewrite (bind_run _ _ _ rj s) in E by reflexivity. rewrite (bind_run _ _ _ rk s) in E by reflexivity.
  assert (NE : rj <> rk) by (intros ->; cbn in O; rewrite Pos.eqb_refl in O; discriminate).
  unfold single_mid in E. inv_bind E hj s1 E1. pose proof (calc_hole _ _ _ _ _ E1) as C1. clear E1. inv_bind E hk s2 E2. pose proof (R_trans _ _ _ C1 (calc_hole _ _ _ _ _ E2)) as C2. clear E2.
  apply thin_calc in C2. clear C1. pose proof (thin_chained _ _ C2 CU) as CU2.
  assert (F2 : fewer s s2) by (apply fewer_same; intros i; apply thin_node; exact C2).
  assert (N2 : forall i, node_at s2 i = node_at s i) by (intros i; apply thin_node; exact C2).
  assert (Rj2 : ring_of s2 j = Some rj) by (unfold ring_of in *; rewrite N2; exact Rj).
  assert (Rk2 : ring_of s2 k = Some rk) by (unfold ring_of in *; rewrite N2; exact Rk).
  assert (P2 : npos (node_at s2 j) = npos (node_at s2 k)) by (rewrite !N2; exact P).
  assert (SM : reworked s s2) by (eapply reworked_thin; [exact C2|left; split; reflexivity]).
  destruct (negb hj && negb hk); [injection E as _ <-; auto|].
  rewrite (bind_run _ _ _ _ _ (rg_run s2 rj)) in E.
  assert (G : forall parent o q o1 o2, ring_of s2 o1 = Some o -> ring_of s2 o2 = Some q -> q <> o -> npos (node_at s2 o1) = npos (node_at s2 o2) ->
     bind (rg q) (fun xs => if negb (opt_is parent (r_parent xs)) then ret tt else single_rest fuel parent o q o1 o2) s2 = Ok (u, s') -> chained_up s' /\ fewer s s' /\ reworked s s').
  { intros parent o q o1 o2 A B C D F. rewrite (bind_run _ _ _ _ _ (rg_run s2 q)) in F. destruct (opt_is parent (r_parent (ring_at s2 q))); cbn [negb] in F; [|injection F as _ <-; auto].
    destruct (single_rest_order _ _ _ _ _ _ _ _ _ CU2 C A B D F) as (X & Y & Z). split; [exact X|]. split; [eapply R_trans; eassumption|exact (reworked_thin _ _ _ C2 Z)]. }
  destruct (negb hj); [|destruct (negb hk)]; eapply G; try exact E; auto.
Qed.
(** ** All of them *)
Lemma chained_repeats fuel nodes a b s0 : one_place s0 nodes a b ->
  tri (fun s => chained_up s /\ fewer s0 s) (correct_chained_repeats fuel nodes a b) (fun _ s => chained_up s /\ fewer s0 s).
Proof.
  intros OP. unfold correct_chained_repeats. set (J := fun s => chained_up s /\ fewer s0 s).
  apply (tri_for _ _ J). intros k Ik. unfold range in Ik. apply in_seq in Ik.
  eapply tri_bind with (Q := fun i s => nth_res nodes k = Ok i /\ J s); [apply tri_lift; auto|]. intros i. apply tri_fact. intros Hi. apply nth_res_error in Hi.
  eapply tri_bind; [apply tri_nd|]. intros n. cbv beta. destruct (is_none (n_ring n)); [apply tri_ret; tauto|].
  eapply tri_pre with (I' := J); [|tauto]. apply (tri_for _ _ J). intros k' Ik'. unfold range in Ik'. apply in_seq in Ik'.
  eapply tri_bind with (Q := fun i s => nth_res nodes k' = Ok i /\ J s); [apply tri_lift; auto|]. intros j. apply tri_fact. intros Hj. apply nth_res_error in Hj.
  eapply tri_bind; [apply tri_nd|]. intros m. cbv beta. destruct (is_none (n_ring m)); [apply tri_ret; tauto|].
  intros s u s' (_ & CU & F) E. destruct (single_order fuel i j s u s' CU) as (X & Y & _); [|exact E|split; [exact X|eapply R_trans; eassumption]].
  rewrite !(proj1 F). apply (OP k k'); auto; lia.
Qed.
Lemma chained_start s : in_order s -> two_at_most s -> chained_up (s <| s_conn := PositiveMap.empty _ |>).
Proof.
  intros IO TW. split; [|split].
  + pose proof (later_conn_set 1%positive [] s tt _ (conn_set_run s 1%positive [])) as L.
    destruct IO as (W & U). set (s1 := s <| s_conn := PositiveMap.empty _ |>). assert (ND : forall i, node_at s1 i = node_at s i) by reflexivity. split.
    * destruct W as [A B C]. split; [|exact B|exact C]. intros q. destruct (A q) as (m & M & K). exists m. split; [exact M|].
      destruct K as [K|K]; [left; exact K|right]. apply (circle_same s); [intros; apply ND|exact K].
    * apply settled_up. intros q n F. change (first_of s q = Some n) in F. destruct (f_is_nan (r_area (ring_at s q))) eqn:NN; [left; exact NN|right].
      pose proof (up_settled s q n U F NN) as S. revert S. apply settled_carry; [intros i; rewrite ND; repeat split|reflexivity|repeat split].
  + intros q p Hp. unfold pairs_at, hget in Hp. cbn [s_conn] in Hp. destruct q; cbn in Hp; contradiction.
  + apply (two_same s); [reflexivity|exact TW].
Qed.
Lemma chained_order fuel s u s' : in_order s -> two_at_most s -> correct_chained_rings fuel s = Ok (u, s') -> in_order s' /\ two_at_most s' /\ fewer s s'.
Proof.
  intros IO TW E. set (J := fun t => chained_up t /\ fewer s t).
  assert (G : tri (fun t => t = s) (correct_chained_rings fuel) (fun _ t => in_order t /\ two_at_most t /\ fewer s t)).
  { unfold correct_chained_rings. eapply tri_bind with (Q := fun _ t => t = s); [intros t a t' -> Et; injection Et as <- <-; reflexivity|]. intros nodes.
    destruct (_ <? _)%nat; [apply tri_ret; intros t ->; split; [exact IO|split; [exact TW|apply R_refl]]|].
    eapply tri_bind with (Q := fun _ => J).
    - intros t a t' -> Et. injection Et as <- <-. split; [apply chained_start; assumption|apply fewer_same; reflexivity].
    - intros ?. eapply tri_weak with (Q' := fun _ => J); [|intros t H; exact H|intros ? t ((A & _ & B) & C); auto].
      apply (tri_repeats s); [intros t K; apply K|]. intros x y OP _. apply (chained_repeats fuel nodes x y s OP). }
  exact (G s u s' eq_refl E).
Qed.
