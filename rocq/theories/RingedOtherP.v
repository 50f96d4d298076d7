(** * The heap stays well ringed: collinear edges of two rings *)
From Coq Require Import ZArith List Bool Lia FMapPositive Permutation.
From Coq Require Import Floats.SpecFloat.
From RecordUpdate Require Import RecordSet.
From Verif Require Import Py Monad Utils Geometry LinearRingM BoundM LocalMinimumM
     StateM PointNodeM RingM SweepM TopologyM WagyuM HoareP SpecRing SpecHeap SpecRings SweepFrameP OrderP VatP FuelP PipP SortP
     CircleP HeapOpsP StatsP SplitP NodeFrameP RingedP RingedTopP RingedCutP RingedPathP RingedFixP RingedArcP RingedSameP.
Import ListNotations RecordSetNotations.
Open Scope Z_scope.

(** ** the ends of the paths stay on their rings *)
Section Labels.
Context (s0 : st) (r1 r2 : rid) (W : well_ringed s0).
Definition on (r : rid) (i : nid) : Prop := ring_of s0 i = Some r.
Definition stays (dir : node -> option nid) : Prop := forall r i k, on r i -> dir (node_at s0 i) = Some k -> on r k.
Lemma stays_next : stays n_next. Proof. intros r i k H E. apply (well_next s0 i k r W H E). Qed.
Lemma stays_prev : stays n_prev. Proof. intros r i k H E. apply (well_prev s0 i k r W H E). Qed.
Lemma slide_on dir r fuel x other stop : stays dir -> on r x -> tri (eq s0) (slide fuel dir x other stop) (fun b s => s0 = s /\ on r b).
Proof.
  intros D H. unfold slide.
  eapply tri_weak; [apply (tri_loop fuel _ (fun b s => s0 = s /\ on r b))| |intros ? ? X; exact X]; [|intros s X; split; [exact X|exact H]].
  intros b s res s' (<- & B) E. change (slide_body dir other stop b s0 = Ok (res, s')) in E. rewrite slide_body_run in E.
  destruct (dir (node_at s0 b)) as [k|] eqn:Ek; [|injection E as <- <-; auto].
  destruct (_ && _); [|injection E as <- <-; auto]. pose proof (D r b k B Ek). destruct (Pos.eqb k stop); injection E as <- <-; auto.
Qed.
Lemma tri_next_on r i : on r i -> tri (eq s0) (next_of i) (fun k s => s0 = s /\ on r k).
Proof. intros H s k s' <- E. apply next_of_Ok in E as (E & ->). split; [reflexivity|]. eapply stays_next; eassumption. Qed.
Lemma tri_prev_on r i : on r i -> tri (eq s0) (prev_of i) (fun k s => s0 = s /\ on r k).
Proof. intros H s k s' <- E. apply prev_of_Ok in E as (E & ->). split; [reflexivity|]. eapply stays_prev; eassumption. Qed.
Lemma tri_eq {A} (F : Prop) (m : prog A) (Q : A -> st -> Prop) : (F -> tri (eq s0) m Q) -> tri (fun s => s0 = s /\ F) m Q.
Proof. intros H s a s' (E1 & X) E. exact (H X s a s' E1 E). Qed.
Lemma search_on r q fuel x y : on r x -> on q y -> tri (eq s0) (collinear_search fuel x y) (fun p s => s0 = s /\ on r (fst p) /\ on q (snd p)).
Proof.
  intros Hx Hy. unfold collinear_search.
  eapply tri_weak; [apply (tri_loop fuel _ (fun p s => s0 = s /\ on r (fst (fst p)) /\ on q (snd (fst p))))| |intros ? ? X; exact X];
    [|intros s X; split; [exact X|split; assumption]].
  intros ((b & f) & first). cbn [fst snd]. apply tri_eq. intros (B & F).
  eapply tri_bind; [apply (slide_on n_prev r); [apply stays_prev|exact B]|]. intros b'. cbv beta. apply tri_eq. intros B'.
  destruct (Pos.eqb b' f).
  { eapply tri_bind; [apply (tri_prev_on r); exact B'|]. intros p. apply tri_eq. intros P.
    eapply tri_bind; [apply (tri_next_on q); exact F|]. intros n. apply tri_eq. intros N. apply tri_ret. cbn. auto. }
  eapply tri_bind; [apply (slide_on n_next q); [apply stays_next|exact F]|]. intros f'. cbv beta. apply tri_eq. intros F'.
  destruct (_ && _); [apply tri_ret; cbn; auto|].
  eapply tri_bind; [apply (tri_prev_on r); exact B'|]. intros p. apply tri_eq. intros P.
  eapply tri_bind; [apply (tri_next_on q); exact F'|]. intros n. apply tri_eq. intros N.
  destruct (Pos.eqb b' f'); [apply tri_ret; cbn; auto|].
  eapply tri_bind with (Q := fun _ s => s0 = s); [intros s a s' <- E; injection E as _ <-; reflexivity|]. intros e. apply tri_ret. destruct e; cbn; auto.
Qed.
Lemma skip_on dir r fuel b x y : stays dir -> on r x -> tri (eq s0) (skip_repeats fuel dir b x y) (fun k s => s0 = s /\ on r k).
Proof.
  intros D H. unfold skip_repeats.
  eapply tri_weak; [apply (tri_loop fuel _ (fun k s => s0 = s /\ on r k))| |intros ? ? X; exact X]; [|intros s X; split; [exact X|exact H]].
  intros k. apply tri_eq. intros K. eapply tri_bind; [apply (tri_nd k)|]. intros n. cbv beta.
  intros s res s' (-> & <-) E. unfold bind at 1 in E. destruct (dir (node_at s0 k)) as [j|] eqn:Ej; cbn [node_eq_opt] in E.
  - rewrite node_eq_run in E. destruct (_ && _); [|injection E as <- <-; auto]. cbn [deref] in E. injection E as <- <-. split; [reflexivity|]. eapply D; eassumption.
  - cbn [ret] in E. rewrite andb_false_r in E. injection E as <- <-. auto.
Qed.
Lemma path_on fuel i j s1 e1 s2 e2 s' : on r1 i -> on r2 j -> collinear_path fuel i j s0 = Ok ((s1, e1, s2, e2), s') ->
  s0 = s' /\ on r1 s1 /\ on r1 e1 /\ on r2 s2 /\ on r2 e2.
Proof.
  intros Hi Hj. enough (G : tri (eq s0) (collinear_path fuel i j) (fun x s => let '(s1, e1, s2, e2) := x in s0 = s /\ on r1 s1 /\ on r1 e1 /\ on r2 s2 /\ on r2 e2)).
  { intros E. apply (G s0 _ s' eq_refl E). }
  unfold collinear_path. eapply tri_bind with (Q := fun _ => eq s0); [intros s a s2' <- E; injection E as _ <-; reflexivity|]. intros a.
  eapply tri_bind with (Q := fun _ => eq s0); [intros s x s2' <- E; injection E as _ <-; reflexivity|]. intros b. cbv zeta.
  eapply tri_bind; [apply (search_on r1 r2); assumption|]. intros bf1. apply tri_eq. intros (P1 & N1).
  eapply tri_bind; [apply (tri_next_on r1); exact P1|]. intros sa. apply tri_eq. intros SA.
  eapply tri_bind; [apply (skip_on n_next r1); [apply stays_next|exact SA]|]. intros start_a. apply tri_eq. intros SA'.
  eapply tri_bind; [apply (tri_prev_on r2); exact N1|]. intros eb. apply tri_eq. intros EB.
  eapply tri_bind; [apply (skip_on n_prev r2); [apply stays_prev|exact EB]|]. intros end_b. apply tri_eq. intros EB'.
  eapply tri_bind; [apply (search_on r2 r1); assumption|]. intros bf2. apply tri_eq. intros (P2 & N2).
  eapply tri_bind; [apply (tri_next_on r2); exact P2|]. intros sb. apply tri_eq. intros SB.
  eapply tri_bind; [apply (skip_on n_next r2); [apply stays_next|exact SB]|]. intros start_b. apply tri_eq. intros SB'.
  eapply tri_bind; [apply (tri_prev_on r1); exact N2|]. intros ea. apply tri_eq. intros EA.
  eapply tri_bind; [apply (skip_on n_prev r1); [apply stays_prev|exact EA]|]. intros end_a. apply tri_eq. intros EA'.
  apply tri_ret. auto.
Qed.
End Labels.

(** ** the paths are cut out of two circles *)
Lemma one_path s x K e fuel t : circle s (x :: K) -> In e (x :: K) -> detach_do fuel x e s = Ok (tt, t) ->
  exists m c, (forall j, In j (x :: K) <-> In j m \/ In j c) /\ (forall j, In j m -> ~ In j c) /\ detached (List.last K x) m s t /\
    (e = x /\ c = [] \/ e <> x /\ exists C z, c = e :: C /\ chained s e (C ++ [z]) /\ NoDup (e :: C) /\ List.last C e = List.last K x).
Proof.
  intros C I E. destruct I as [<-|I].
  - exists (x :: K), []. split; [intros j; cbn; tauto|]. split; [intros j _ []|]. split; [apply (do_whole s x K fuel tt t C E)|left; auto].
  - apply in_split in I as (B & D & ->). exists (x :: B), (e :: D). pose proof (do_part s x B e D fuel tt t C E) as DT.
    destruct (circle_chain s x B e D C) as (CH & ND & A). rewrite last_last_app.
    split; [intros j; change (x :: B ++ e :: D) with ((x :: B) ++ e :: D); rewrite in_app_iff; tauto|]. split; [exact A|]. split; [exact DT|].
    right. split; [intros ->; apply (A x); left; reflexivity|]. exists D, x. auto.
Qed.
Lemma fix_other s s1 K1 e1 s2 K2 e2 fuel f s' : circle s (s1 :: K1) -> circle s (s2 :: K2) ->
  (forall j, In j (s1 :: K1) -> ~ In j (s2 :: K2)) -> In e1 (s1 :: K1) -> In e2 (s2 :: K2) -> paths_prog fuel s1 e1 s2 e2 s = Ok (f, s') ->
  exists m l, (forall j, In j m -> In j ((s1 :: K1) ++ s2 :: K2)) /\ killed m s s' /\ outside ((s1 :: K1) ++ s2 :: K2) s s' /\ same_but_nodes s s' /\
    (forall j, In j l <-> In j ((s1 :: K1) ++ s2 :: K2) /\ ~ In j m) /\ (l = [] \/ circle s' l) /\
    match fst f with None => l = [] | Some p => In p l end.
Proof.
  intros C1 C2 DJ I1 I2 E. destruct (circle_whole s s1 K1 C1) as (P1 & _). destruct (circle_whole s s2 K2 C2) as (P2 & _).
  destruct (paths_run fuel s1 e1 s2 e2 _ _ s f s' P1 P2 E) as (t1 & t2 & E1 & E2 & EF).
  set (p1 := List.last K1 s1) in *. set (p2 := List.last K2 s2) in *.
  assert (IP1 : In p1 (s1 :: K1)) by apply CircleP.last_in. assert (IP2 : In p2 (s2 :: K2)) by apply CircleP.last_in.
  destruct (one_path s s1 K1 e1 fuel t1 C1 I1 E1) as (m1 & c1 & X1 & Y1 & DT1 & Z1).
  assert (OUT1 : outside (s1 :: K1) s t1) by (apply (dt_outside _ _ _ _ _ DT1 IP1); intros j J; apply X1; auto).
  assert (C2' : circle t1 (s2 :: K2)).
  { apply (outside_circle (s1 :: K1) s t1); auto. intros i J J'. exact (DJ i J' J). }
  destruct (one_path t1 s2 K2 e2 fuel t2 C2' I2 E2) as (m2 & c2 & X2 & Y2 & DT2 & Z2). fold p1 in DT1, Z1. fold p2 in DT2, Z2.
  assert (OUT2 : outside (s2 :: K2) t1 t2) by (apply (dt_outside _ _ _ _ _ DT2 IP2); intros j J; apply X2; auto).
  set (L := (s1 :: K1) ++ s2 :: K2).
  assert (IN : forall j, In j L <-> (In j m1 \/ In j c1) \/ In j m2 \/ In j c2) by (intros j; unfold L; rewrite in_app_iff, (X1 j), (X2 j); tauto).
  assert (SEP : forall j, In j m1 \/ In j c1 -> In j m2 \/ In j c2 -> False) by (intros j A B; apply (DJ j); [apply X1|apply X2]; assumption).
  assert (KL : killed (m1 ++ m2) s t2) by (apply killed_app with (s2 := t1); [apply (dt_killed _ _ _ _ DT1)|apply (dt_killed _ _ _ _ DT2)]).
  assert (OUT : outside L s t2).
  { intros j J. unfold L in J. rewrite in_app_iff in J. destruct (OUT1 j) as (A1 & A2); [tauto|]. destruct (OUT2 j) as (A3 & A4); [tauto|]. split; congruence. }
  assert (SBN : same_but_nodes s t2) by (eapply same_but_nodes_trans; [apply DT1|apply DT2]).
  assert (SUB : forall j, In j (m1 ++ m2) -> In j L) by (intros j; rewrite in_app_iff, IN; tauto).
  assert (REST : forall j, In j (c1 ++ c2) <-> In j L /\ ~ In j (m1 ++ m2)).
  { intros j. rewrite IN, !in_app_iff. specialize (Y1 j). specialize (Y2 j). specialize (SEP j). tauto. }
  (* the vertices of each ring that stay keep their links *)
  assert (KP1 : forall j, In j c1 -> n_prev (node_at t2 j) = n_prev (node_at s j) /\ (j <> p1 -> n_next (node_at t2 j) = n_next (node_at s j))).
  { intros j J. destruct (OUT2 j) as (A & B); [intros K; apply (SEP j); [auto|apply X2; exact K]|].
    assert (NM : ~ In j m1) by (intros K; exact (Y1 j K J)).
    split; [rewrite B; apply (dt_out _ _ _ _ j DT1 NM)|]. intros N. rewrite A. apply (dt_next_out _ _ _ _ j DT1 N NM). }
  assert (KP2 : forall j, In j c2 -> n_prev (node_at t2 j) = n_prev (node_at t1 j) /\ (j <> p2 -> n_next (node_at t2 j) = n_next (node_at t1 j))).
  { intros j J. assert (NM : ~ In j m2) by (intros K; exact (Y2 j K J)).
    split; [apply (dt_out _ _ _ _ j DT2 NM)|]. intros N. apply (dt_next_out _ _ _ _ j DT2 N NM). }
  assert (S12 : forall a b, In a (s1 :: K1) -> In b (s2 :: K2) -> a <> b) by (intros a b A B ->; exact (DJ b A B)).
  exists (m1 ++ m2), (c1 ++ c2). split; [exact SUB|].
  destruct Z1 as [(-> & ->)|(NE1 & D & z & -> & CH1 & N1 & LA1)], Z2 as [(-> & ->)|(NE2 & H & w & -> & CH2 & N2 & LA2)].
  - rewrite !Pos.eqb_refl in EF. cbn [andb] in EF. injection EF as -> ->.
    split; [exact KL|]. split; [exact OUT|]. split; [exact SBN|]. split; [exact REST|]. split; [left; reflexivity|reflexivity].
  - rewrite Pos.eqb_refl, (eqb_no s2 e2) in EF by congruence. cbn [andb] in EF. injection EF as -> ->.
    split; [apply killed_slink; exact KL|]. split; [|split; [|split; [exact REST|split; [right|left; reflexivity]]]].
    + eapply outside_trans; [exact OUT|]. apply outside_slink; unfold L; apply in_app_iff; auto.
    + eapply same_but_nodes_trans; [exact SBN|apply sbn_slink].
    + cbn [app]. apply (close_circle t1 _ e2 H w CH2 N2); rewrite ?LA2.
      * intros j J. rewrite prev_slink, eqb_no by (intros ->; inversion N2; contradiction). apply KP2. right. exact J.
      * intros j J N. rewrite next_slink, eqb_no by exact N. apply KP2; assumption.
      * split; [rewrite next_slink, Pos.eqb_refl; reflexivity|rewrite prev_slink, Pos.eqb_refl; reflexivity].
  - rewrite Pos.eqb_refl, (eqb_no s1 e1) in EF by congruence. cbn [andb] in EF. injection EF as -> ->.
    split; [apply killed_slink; exact KL|]. split; [|split; [|split; [exact REST|split; [right|left; reflexivity]]]].
    + eapply outside_trans; [exact OUT|]. apply outside_slink; unfold L; apply in_app_iff; auto.
    + eapply same_but_nodes_trans; [exact SBN|apply sbn_slink].
    + rewrite app_nil_r. apply (close_circle s _ e1 D z CH1 N1); rewrite ?LA1.
      * intros j J. rewrite prev_slink, eqb_no by (intros ->; inversion N1; contradiction). apply KP1. right. exact J.
      * intros j J N. rewrite next_slink, eqb_no by exact N. apply KP1; assumption.
      * split; [rewrite next_slink, Pos.eqb_refl; reflexivity|rewrite prev_slink, Pos.eqb_refl; reflexivity].
  - rewrite (eqb_no s1 e1), (eqb_no s2 e2) in EF by congruence. cbn [andb] in EF. injection EF as -> ->.
    assert (NP : p2 <> p1) by (intros X; exact (S12 p1 p2 IP1 IP2 (eq_sym X))). assert (NE : e2 <> e1) by (intros X; exact (S12 e1 e2 I1 I2 (eq_sym X))).
    split; [do 2 apply killed_slink; exact KL|]. split; [|split; [|split; [exact REST|split; [right|left; reflexivity]]]].
    + eapply outside_trans; [exact OUT|]. eapply outside_trans; apply outside_slink; unfold L; apply in_app_iff; auto.
    + eapply same_but_nodes_trans; [exact SBN|]. eapply same_but_nodes_trans; apply sbn_slink.
    + set (s' := slink (slink t2 p1 e2) p2 e1).
      assert (PV : forall j, j <> e1 -> j <> e2 -> n_prev (node_at s' j) = n_prev (node_at t2 j)) by (intros j A B; unfold s'; rewrite !prev_slink, !eqb_no by assumption; reflexivity).
      assert (NX : forall j, j <> p1 -> j <> p2 -> n_next (node_at s' j) = n_next (node_at t2 j)) by (intros j A B; unfold s'; rewrite !next_slink, !eqb_no by assumption; reflexivity).
      assert (IC1 : forall j, In j (e1 :: D) -> In j (s1 :: K1)) by (intros j J; apply X1; auto).
      assert (IC2 : forall j, In j (e2 :: H) -> In j (s2 :: K2)) by (intros j J; apply X2; auto).
      assert (G1 : chained s' e1 (D ++ [e2])).
      { apply (chain_redirect s s' e1 D z e2 CH1 N1); rewrite ?LA1.
        - intros j J. rewrite PV; [apply KP1; right; exact J|intros ->; inversion N1; contradiction|]. apply (S12 j e2); [apply IC1; right; exact J|exact I2].
        - intros j J N. rewrite NX; [apply KP1; assumption|exact N|]. apply (S12 j p2); [apply IC1; exact J|exact IP2].
        - unfold s'. split; [rewrite next_slink, eqb_no, next_slink, Pos.eqb_refl by congruence; reflexivity|].
          rewrite prev_slink, eqb_no, prev_slink, Pos.eqb_refl by congruence. reflexivity. }
      assert (G2 : chained s' e2 (H ++ [e1])).
      { apply (chain_redirect t1 s' e2 H w e1 CH2 N2); rewrite ?LA2.
        - intros j J. rewrite PV; [apply KP2; right; exact J| |intros ->; inversion N2; contradiction]. apply not_eq_sym. apply (S12 e1 j); [exact I1|apply IC2; right; exact J].
        - intros j J N. rewrite NX; [apply KP2; assumption| |exact N]. apply not_eq_sym. apply (S12 p1 j); [exact IP1|apply IC2; exact J].
        - unfold s'. split; [rewrite next_slink, Pos.eqb_refl; reflexivity|rewrite prev_slink, Pos.eqb_refl; reflexivity]. }
      split.
      * change (NoDup ((e1 :: D) ++ e2 :: H)). apply nodup_app. split; [exact N1|]. split; [exact N2|]. intros j A B. apply (DJ j); [apply IC1|apply IC2]; assumption.
      * rewrite <- app_assoc. cbn [app]. apply chained_app. split; [|exact G2]. exact G1.
Qed.

Definition union_rest (fuel : nat) (union outsider : rid) (p : nid) : prog unit :=
  (upd_ring union (fun x => x <| r_node := Some p |>) ;;
   update_points fuel union ;;
   recalculate_stats fuel union ;;
   size <- ring_size fuel union ;;
   (if (size <? 3)%nat then remove_ring_and_points fuel fuel union false true
    else ret tt) ;;
   remove_ring fuel fuel outsider false true)%M.
Lemma union_well fuel u o p l : tri (fun s => pooled u o l s /\ In p l) (union_rest fuel u o p) (fun _ => well_ringed).
Proof.
  unfold union_rest.
  eapply tri_bind with (Q := fun _ s => pooled u o l s /\ In p l /\ first_of s u = Some p).
  { intros s x s' (P & I) E. rewrite upd_ring_rput in E. injection E as <- <-. split; [apply pooled_rput; exact P|]. split; [exact I|]. rewrite first_rput, Pos.eqb_refl. reflexivity. }
  intros ?. eapply tri_bind with (Q := fun _ s => u <> o /\ well_but (eq o) s).
  { intros s x s' (P & I & F) E. split; [apply (po_neq _ _ _ _ P)|]. apply (pooled_relabel u o p l s fuel x s' P I F E). }
  intros ?. eapply tri_bind with (Q := fun _ s => u <> o /\ well_but (eq o) s).
  { apply tri_same; [nf_auto|]. intros s s' S (N & W). split; [exact N|]. apply (but_same _ s); assumption. }
  intros ?. eapply tri_bind with (Q := fun _ s => u <> o /\ well_but (eq o) s).
  { apply tri_same; [nf_auto|]. intros s s' S (N & W). split; [exact N|]. apply (but_same _ s); assumption. }
  intros size. eapply tri_bind with (Q := fun _ s => well_but (fun q => False \/ q = o) s).
  { destruct (_ <? _)%nat.
    - intros s x s' (N & W) E. pose proof (tri_remove_points (eq o) s fuel fuel u true) as T.
      destruct (T (fun e => N (eq_sym e)) s x s') as (B & _); [auto|exact E|]. revert B. apply but_mono. intros q <-. auto.
    - apply tri_ret. intros s (N & W). revert W. apply but_mono. intros q <-. auto. }
  intros ?. eapply tri_post; [apply (tri_remove_one (fun _ => False))|]. cbv beta. intros ? s. apply but_none.
Qed.
Definition other_rest (fuel : nat) (larger : bool) (r1 r2 : rid) (f : option nid * option nid) : prog unit :=
  (match fst f with
   | None => (remove_ring fuel fuel r1 false true ;; remove_ring fuel fuel r2 false true)
   | Some p =>
       let '(union, outsider) := if larger then (r1, r2) else (r2, r1) in
       (upd_ring union (fun x => x <| r_node := Some p |>) ;;
        update_points fuel union ;;
        recalculate_stats fuel union ;;
        size <- ring_size fuel union ;;
        (if (size <? 3)%nat then remove_ring_and_points fuel fuel union false true
         else ret tt) ;;
        remove_ring fuel fuel outsider false true)
   end)%M.
Lemma other_rest_well fuel larger r1 r2 f l :
  tri (fun s => pooled r1 r2 l s /\ match fst f with None => l = [] | Some p => In p l end) (other_rest fuel larger r1 r2 f) (fun _ => well_ringed).
Proof.
  unfold other_rest. destruct (fst f) as [p|].
  - destruct larger.
    + exact (union_well fuel r1 r2 p l).
    + eapply tri_pre; [exact (union_well fuel r2 r1 p l)|]. intros s (P & I). split; [apply pooled_sym; exact P|exact I].
  - eapply tri_bind with (Q := fun _ s => well_but (fun q => False \/ q = r2) s).
    + eapply tri_pre; [apply (tri_remove_one (fun q => False \/ q = r2))|]. intros s (P & ->). apply pooled_nil in P. revert P. apply but_mono. tauto.
    + intros ?. eapply tri_post; [apply (tri_remove_one (fun _ => False))|]. cbv beta. intros ? s. apply but_none.
Qed.
Lemma well_different_rings fuel i j :
  tri (fun s => well_ringed s /\ exists r1 r2, r1 <> r2 /\ ring_of s i = Some r1 /\ ring_of s j = Some r2) (collinear_different_rings fuel i j) (fun _ => well_ringed).
Proof.
  intros s u s' (W & r1 & r2 & N & R1 & R2) E. unfold collinear_different_rings in E.
  rewrite (bind_run _ _ _ _ _ (nd_run s i)), (bind_run _ _ _ _ _ (nd_run s j)) in E.
  change (n_ring (node_at s i)) with (ring_of s i) in E. change (n_ring (node_at s j)) with (ring_of s j) in E. rewrite R1, R2 in E.
  cbn [deref] in E. rewrite (bind_run _ _ _ r1 s), (bind_run _ _ _ r2 s) in E by reflexivity.
  unfold bind at 1 in E. destruct (ring_area fuel r1 s) as [[a1 t]| |] eqn:E1; try discriminate. cbv iota beta in E.
  assert (H1 : same_ringed s t) by (revert E1; apply (ltac:(nf_auto) : pres same_ringed (ring_area fuel r1))).
  unfold bind at 1 in E. destruct (ring_area fuel r2 t) as [[a2 t']| |] eqn:E2; try discriminate. cbv iota beta in E.
  assert (H2 : same_ringed t t') by (revert E2; apply (ltac:(nf_auto) : pres same_ringed (ring_area fuel r2))).
  cbv zeta in E. pose proof (well_same _ _ H2 (well_same _ _ H1 W)) as W'.
  assert (R1' : ring_of t' i = Some r1) by (rewrite (same_ring_of _ _ _ H2), (same_ring_of _ _ _ H1); exact R1).
  assert (R2' : ring_of t' j = Some r2) by (rewrite (same_ring_of _ _ _ H2), (same_ring_of _ _ _ H1); exact R2).
  clear s t E1 E2 H1 H2 W R1 R2. rename t' into s. 
  unfold bind at 1 in E. destruct (collinear_path fuel i j s) as [[[[[s1 e1] s2] e2] t]| |] eqn:E1; try discriminate. cbv iota beta in E.
  destruct (path_on s r1 r2 W' fuel i j s1 e1 s2 e2 t R1' R2' E1) as (<- & O1 & O2 & O3 & O4). unfold on in *.
  unfold bind at 1 in E. destruct (fix_collinear_path fuel (s1, e1, s2, e2) s) as [[f t]| |] eqn:E2; try discriminate. cbv iota beta in E.
  assert (EP : paths_prog fuel s1 e1 s2 e2 s = Ok (f, t)).
  { unfold fix_collinear_path in E2. rewrite (eqb_no s1 e2), (eqb_no s2 e1) in E2 by congruence. exact E2. }
  destruct (well_at s s1 r1 W' O1) as (K1 & C1 & M1). destruct (well_at s s2 r2 W' O3) as (K2 & C2 & M2).
  destruct (fix_other s s1 K1 e1 s2 K2 e2 fuel f t C1 C2) as (m & l & A1 & A2 & A3 & A4 & A5 & A6 & A7).
  { intros k I J. apply M1 in I. apply M2 in J. congruence. }
  { apply M1. exact O2. } { apply M2. exact O4. } { exact EP. }
  assert (PO : pooled r1 r2 l t).
  { apply (pooled_shrunk s t r1 r2 (s1 :: K1) (s2 :: K2) m l); auto; discriminate. }
  exact (other_rest_well fuel _ r1 r2 f l t u s' (conj PO A7) E).
Qed.
