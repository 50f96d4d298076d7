(** * What [execute] depends on

    Two objects that recorded the same rings, possibly after other histories,
    compute the same answer. *)
From Coq Require Import ZArith List Bool Lia FMapPositive.
From RecordUpdate Require Import RecordSet.
From Verif Require Import Py Monad Utils Geometry LinearRingM BoundM LocalMinimumM StateM
     PointNodeM RingM SweepM TopologyM WagyuM BlindP SweepFrameP RelP
     SpecRing SpecBounds MiscP ListP ScanP LinearRingP LinearRing2P RingEdgesP MinimaP AddRingP ApiP HistoryP.
Import ListNotations RecordSetNotations.
Local Open Scope m_scope.

Definition none : world := World (fun _ => False) (fun _ => False).
(** the choices of operation, fill kinds and polygon kinds in two runs that make the
    same decisions; [zo]: the first run has subject rings only *)
Record same_decisions (km : polygon_kind -> polygon_kind) (zo : bool) (op op' : operation_kind) (sfk cfk sfk' cfk' : fill_kind) : Prop := {
  sd_km : forall a b, kind_eqb (km a) (km b) = kind_eqb a b;
  sd_eo : forall k, (zo = true -> k = SUBJECT) -> even_odd_fill sfk' cfk' (km k) = even_odd_fill sfk cfk k;
  sd_eoa : zo = false -> forall k, even_odd_alt_fill sfk' cfk' (km k) = even_odd_alt_fill sfk cfk k;
  sd_co : forall k wc owc, (zo = true -> k = SUBJECT /\ owc = 0%Z) ->
    is_contributing op' sfk' cfk' (km k) wc owc = is_contributing op sfk cfk k wc owc;
  sd_cr : forall c1 c2 k1 k2 a b c d, (zo = true -> (k1 = SUBJECT /\ b = 0%Z) /\ k2 = SUBJECT /\ d = 0%Z) ->
    crossing op' sfk' cfk' c1 c2 (km k1) (km k2) a b c d = crossing op sfk cfk c1 c2 k1 k2 a b c d
}.
Definition idk (k : polygon_kind) : polygon_kind := k.
Lemma same_same op sfk cfk : same_decisions idk false op op sfk cfk sfk cfk.
Proof. constructor; reflexivity. Qed.

Section Run.
Context (be : bid -> bid) (Inj : forall i j, be i = be j -> i = j) (P : bid -> Prop) (km : polygon_kind -> polygon_kind) (zo : bool).
Lemma Rw_again w s t : Rw be P false km zo w s t -> Rw be P true km zo none (s <| s_abl := [] |>) (t <| s_abl := [] |>).
Proof.
  intros [H1 H2 H3 H4 H5 H6 H7 H8 H9]. constructor; cbn; auto; try contradiction.
  rewrite H1. reflexivity.
Qed.
Lemma Rw_init B B' : (forall i, P i -> stat be km zo (bget B i) (bget B' (be i))) -> Rw be P false km zo none (init_st B) (init_st B').
Proof. intros H. constructor; cbn; auto; try contradiction; try discriminate. Qed.
Lemma vatti_any_abl f op sfk cfk ms s : execute_vatti f op sfk cfk ms s = execute_vatti f op sfk cfk ms (s <| s_abl := [] |>).
Proof. reflexivity. Qed.
Lemma run_rel f op op' sfk cfk sfk' cfk' rv ms ms' B B' : same_decisions km zo op op' sfk cfk sfk' cfk' ->
  (forall i, P i -> stat be km zo (bget B i) (bget B' (be i))) -> Forall2 (lmr be P) ms ms' ->
  orel (fun a _ a' _ => a' = a) (run f op sfk cfk rv ms (init_st B)) (run f op' sfk' cfk' rv ms' (init_st B')).
Proof.
  intros [D1 D2 D3 D4 D5] Hs F. unfold run.
  pose proof (rl_build_hot_pixels be Inj P false km zo f none ms ms' eq_refl F _ _ (Rw_init B B' Hs)) as G1.
  unfold bind at 1 4. unfold orel in G1.
  destruct (build_hot_pixels f ms (init_st B)) as [[u s1]|e|], (build_hot_pixels f ms' (init_st B')) as [[u' t1]|e'|]; try contradiction; auto.
  destruct G1 as (w1 & _ & _ & K1). apply Rw_again in K1.
  pose proof (rl_execute_vatti be Inj P true km zo eq_refl op op' sfk cfk sfk' cfk' D1 D2 D3 D4 D5 f none ms ms' F _ _ K1) as G2. rewrite <- !vatti_any_abl in G2. unfold orel in G2.
  unfold bind at 1 3.
  destruct (execute_vatti f op sfk cfk ms s1) as [[u1 s2]|e|], (execute_vatti f op' sfk' cfk' ms' t1) as [[u1' t2]|e'|]; try contradiction; auto.
  destruct G2 as (w2 & _ & _ & K2).
  assert (Bl : blind (correct_topology f ;; build_result f rv)).
  { apply blind_bind; [apply bl_correct_topology|intros; apply bl_build_result]. }
  pose proof (rl_blind be P true km zo w2 _ Bl s2 t2 K2) as G3. eapply orel_imp; [|exact G3].
  cbv beta. intros a x a' y (_ & _ & E & _). exact E.
Qed.
End Run.

(** ** Shifting identities *)
Definition sh (d : nat) (i : bid) : bid := Pos.of_nat (Pos.to_nat i + d).
Lemma sh_inj d i j : sh d i = sh d j -> i = j.
Proof. unfold sh. intros H. apply Pos2Nat.inj. pose proof (Pos2Nat.is_pos i). pose proof (Pos2Nat.is_pos j). apply Nat2Pos.inj in H; lia. Qed.
Lemma sh_succ d i : sh d (Pos.succ i) = Pos.succ (sh d i).
Proof. unfold sh. rewrite Pos2Nat.inj_succ. cbn [Nat.add]. pose proof (Pos2Nat.is_pos i). rewrite Nat2Pos.inj_succ by lia. reflexivity. Qed.
Lemma sh_start n : exists d, sh d 1%positive = n.
Proof. exists (Nat.pred (Pos.to_nat n)). unfold sh. pose proof (Pos2Nat.is_pos n). replace (Pos.to_nat 1%positive + Nat.pred (Pos.to_nat n))%nat with (Pos.to_nat n) by lia. apply Pos2Nat.id. Qed.

Section Kinds.
Context (km : polygon_kind -> polygon_kind).
Definition agree (d : nat) (b b' : bound) : Prop :=
  b_edges b' = b_edges b /\ b_wd b' = b_wd b /\ b_kind b' = km (b_kind b) /\ b_max b' = option_map (sh d) (b_max b).
Definition lsh (d : nat) (m : local_minimum) : local_minimum := LM (sh d (lm_left m)) (sh d (lm_right m)) (lm_y m) (lm_hor m).
Record sim (d : nat) (L L' : lm_list) : Prop := {
  sim_values : lml_values L' = map (lsh d) (lml_values L);
  sim_next : lml_next L' = sh d (lml_next L);
  sim_bounds : forall i, (i < lml_next L)%positive -> agree d (bget (lml_bounds L) i) (bget (lml_bounds L') (sh d i))
}.
Lemma bget_sh d B i b j : bget (hset B (sh d i) b) (sh d j) = if Pos.eqb i j then b else bget B (sh d j).
Proof.
  rewrite bget_hset. destruct (Pos.eqb_spec i j) as [->|N]; [rewrite Pos.eqb_refl; reflexivity|].
  destruct (Pos.eqb_spec (sh d i) (sh d j)) as [Q|_]; [apply sh_inj in Q; contradiction|reflexivity].
Qed.
Lemma sim_empty n d bs bs' : sh d 1%positive = n -> sim d (LML [] bs 1%positive) (LML [] bs' n).
Proof. intros H. constructor; cbn; auto. intros i Hi. lia. Qed.

Definition brel (d : nat) (x x' : list edge * option bid * option bid * lm_list) : Prop :=
  let '(es, f, l, L) := x in let '(es', f', l', L') := x' in
  es' = es /\ f' = option_map (sh d) f /\ l' = option_map (sh d) l /\ sim d L L' /\
  (forall j, f = Some j -> (j < lml_next L)%positive) /\ (forall j, l = Some j -> (j < lml_next L)%positive).
Definition rrel {A A'} (V : A -> A' -> Prop) (r : res A) (r' : res A') : Prop :=
  match r, r' with Ok a, Ok a' => V a a' | Raise e, Raise e' => e = e' | NoFuel, NoFuel => True | _, _ => False end.
Lemma body_rel d kind x x' : brel d x x' ->
  rrel (fun r r' => match r, r' with
        | inl y, inl y' => brel d y y'
        | inr (f, l, L), inr (f', l', L') => brel d ([], f, l, L) ([], f', l', L')
        | _, _ => False end) (add_minima_body kind x) (add_minima_body (km kind) x').
Proof.
  destruct x as [[[es f] l] L], x' as [[[es' f'] l'] L']. intros (-> & -> & -> & Si & Hf & Hl). pose proof Si as [S1 S2 S3].
  unfold add_minima_body. destruct es as [|e es]; [cbn; repeat (split; [auto; fail|]); auto|]. destruct (one_minimum _) as [[m rest]| |]; cbn; auto.
  set (imin := lml_next L) in *. rewrite S2, S1. fold imin.
  split; [reflexivity|]. split; [destruct l; reflexivity|]. split; [rewrite sh_succ; reflexivity|]. split.
  - constructor; cbn [lml_values lml_next lml_bounds].
    + rewrite map_app. cbn. f_equal. destruct (ms_min_left m); unfold lsh; cbn; rewrite sh_succ; reflexivity.
    + rewrite !sh_succ. reflexivity.
    + rewrite <- sh_succ. intros i Hi.
      assert (G : forall i, (i < Pos.succ (Pos.succ imin))%positive ->
        agree d (bget (hset (hset (lml_bounds L) imin (min_bound m kind l)) (Pos.succ imin) (max_bound m kind)) i)
                (bget (hset (hset (lml_bounds L') (sh d imin) (min_bound m (km kind) (option_map (sh d) l))) (sh d (Pos.succ imin)) (max_bound m (km kind))) (sh d i))).
      { clear i Hi. intros i Hi. rewrite !bget_sh, !bget_hset. destruct (Pos.eqb_spec (Pos.succ imin) i) as [Q1|N1]; [repeat split|].
        destruct (Pos.eqb_spec imin i) as [Q2|N2]; [repeat split|]. apply S3. lia. }
      destruct l as [j|]; cbn [option_map]; [|apply G; exact Hi].
      rewrite bget_sh, (bget_hset _ j). destruct (Pos.eqb_spec j i) as [->|N]; [|apply G; exact Hi].
      destruct (G i Hi) as (G1 & G2 & G3 & G4). unfold agree. cbn. auto.
  - cbn. split.
    + intros j Hj. destruct l as [k|]; [specialize (Hf j Hj); lia|]. injection Hj as <-. lia.
    + intros j [= <-]. lia.
Qed.
Lemma loop_rel d kind n : forall x x', brel d x x' ->
  rrel (fun r r' => let '(f, l, L) := r in let '(f', l', L') := r' in brel d ([], f, l, L) ([], f', l', L'))
       (loopR n (add_minima_body kind) x) (loopR n (add_minima_body (km kind)) x').
Proof.
  induction n as [|n IH]; intros x x' H; [exact I|]. cbn [loopR]. pose proof (body_rel d kind x x' H) as G. unfold rrel in *.
  destruct (add_minima_body kind x) as [[y|[[f l] L]]|e|], (add_minima_body (km kind) x') as [[y'|[[f' l'] L']]|e'|]; try contradiction; cbn; auto.
  exact (IH y y' G).
Qed.
Lemma add_rel d L L' pts kind : sim d L L' ->
  rrel (fun r r' => fst r' = fst r /\ sim d (snd r) (snd r')) (add_linear_ring L pts kind) (add_linear_ring L' pts (km kind)).
Proof.
  intros Si. unfold add_linear_ring. destruct (linear_ring_edges pts) as [es| |]; cbn [rbind]; [|reflexivity|exact I]. destruct es as [|e es]; [cbn; auto|]. cbv zeta.
  set (n := S (length (start_on_local_maximum (e :: es)))).
  pose proof (loop_rel d kind n (start_on_local_maximum (e :: es), None, None, L) (start_on_local_maximum (e :: es), None, None, L')) as G.
  assert (B0 : brel d (start_on_local_maximum (e :: es), None, None, L) (start_on_local_maximum (e :: es), None, None, L')).
  { cbn. repeat (split; [reflexivity|]). split; [exact Si|]. split; discriminate. }
  specialize (G B0). unfold rrel in G.
  destruct (loopR n (add_minima_body kind) (_, None, None, L)) as [[[f l] L1]|x|], (loopR n (add_minima_body (km kind)) (_, None, None, L')) as [[[f' l'] L1']|x'|]; try contradiction; cbn [rbind]; [|exact G|exact I].
  destruct G as (_ & -> & -> & S1 & Hf & Hl). destruct f as [f|], l as [l|]; cbn [option_map]; try reflexivity. split; [reflexivity|].
  pose proof S1 as [V1 V2 V3]. constructor; cbn; auto.
  assert (G : forall i, (i < lml_next L1)%positive ->
     agree d (bget (hset (lml_bounds L1) l (bget (lml_bounds L1) l <| b_max := Some f |>)) i)
             (bget (hset (lml_bounds L1') (sh d l) (bget (lml_bounds L1') (sh d l) <| b_max := Some (sh d f) |>)) (sh d i))).
  { intros i Hi. rewrite bget_sh, bget_hset. destruct (Pos.eqb_spec l i) as [->|N]; [|apply V3, Hi].
    destruct (V3 i Hi) as (G1 & G2 & G3 & G4). unfold agree. cbn. auto. }
  intros i Hi. rewrite (bget_sh d _ f), (bget_hset _ f). destruct (Pos.eqb_spec f i) as [->|N]; [|apply G, Hi].
  destruct (G i Hi) as (G1 & G2 & G3 & G4). unfold agree. cbn. auto.
Qed.

End Kinds.
(** ** Histories *)
Open Scope Z_scope.
Fixpoint plain (L : lm_list) (rs : list (linear_ring * polygon_kind)) : res lm_list :=
  match rs with
  | [] => Ok L
  | (pts, kind) :: rs' => ('(_, L') <- add_linear_ring L pts kind ;; plain L' rs')%res
  end.
Lemma plain_app L rs rs' : plain L (rs ++ rs') = (L1 <- plain L rs ;; plain L1 rs')%res.
Proof.
  revert L. induction rs as [|[pts kind] rs IH]; intros L; cbn [plain app]; [reflexivity|].
  destruct (add_linear_ring L pts kind) as [[b L1]| |]; cbn [rbind]; [apply IH|reflexivity|reflexivity].
Qed.
Definition tracks (w : wagyu) (rs : list (linear_ring * polygon_kind)) : Prop :=
  exists d L, plain empty_lm_list rs = Ok L /\ sim idk d L (w_minimums w).
Lemma tracks_ring w rs pts kind b w' : tracks w rs -> w_add_linear_ring w pts kind = Ok (b, w') -> tracks w' (rs ++ [(pts, kind)]).
Proof.
  intros (d & L & Hp & Si) E. pose proof (add_rel idk d L (w_minimums w) pts kind Si) as G. unfold w_add_linear_ring in E. unfold rrel in G. change (idk kind) with kind in G.
  destruct (add_linear_ring (w_minimums w) pts kind) as [[c L1]| |]; try discriminate. injection E as <- <-.
  destruct (add_linear_ring L pts kind) as [[c' L2]| |] eqn:E2; try contradiction. destruct G as (_ & G). cbn in G.
  exists d, L2. split; [|exact G]. rewrite plain_app, Hp. cbn [rbind plain]. rewrite E2. reflexivity.
Qed.
Lemma tracks_polygon p kind : forall acc w rs b w', tracks w rs -> add_polygon_go acc w p kind = Ok (b, w') ->
  tracks w' (rs ++ map (fun pts => (pts, kind)) p).
Proof.
  induction p as [|pts p IH]; intros acc w rs b w' T E; cbn [add_polygon_go] in E.
  - injection E as <- <-. cbn. rewrite app_nil_r. exact T.
  - destruct (w_add_linear_ring w pts kind) as [[c w1]| |] eqn:E1; cbn [rbind] in E; try discriminate.
    pose proof (tracks_ring _ _ _ _ _ _ T E1) as T1. pose proof (IH _ _ _ _ _ T1 E) as T2. rewrite <- app_assoc in T2. exact T2.
Qed.
Lemma tracks_built rv w rs : built rv w rs -> tracks w rs /\ w_reverse w = rv.
Proof.
  intros H. induction H as [|w rs pts kind b w' H (IH & R1) E|w rs p kind b w' H (IH & R1) E|w rs H (IH & R1)|w rs fuel op sfk cfk r w' H (IH & R1) E].
  - split; [|reflexivity]. exists O, empty_lm_list. split; [reflexivity|]. apply sim_empty. reflexivity.
  - split; [eapply tracks_ring; eauto|]. unfold w_add_linear_ring in E. destruct (add_linear_ring _ _ _) as [[c L1]| |]; try discriminate.
    injection E as <- <-. exact R1.
  - split; [eapply tracks_polygon; eauto|]. unfold add_polygon in E. revert E. generalize false as acc.
    clear IH H. revert w R1. induction p as [|pts p IH]; intros w R1 acc E; cbn [add_polygon_go] in E; [injection E as <- <-; exact R1|].
    destruct (w_add_linear_ring w pts kind) as [[c w1]| |] eqn:E1; cbn [rbind] in E; try discriminate.
    eapply (IH w1); [|exact E]. unfold w_add_linear_ring in E1. destruct (add_linear_ring _ _ _) as [[c' L1]| |]; try discriminate.
    injection E1 as <- <-. exact R1.
  - split; [|exact R1]. destruct (sh_start (lml_next (w_minimums w))) as (d & Hd). exists d, empty_lm_list. split; [reflexivity|].
    apply sim_empty. exact Hd.
  - destruct IH as (d & L & Hp & [S1 S2 S3]). destruct (execute_keeps_input _ _ _ _ _ _ _ E) as (K1 & K2 & K3).
    split; [|congruence]. exists d, L. split; [exact Hp|]. constructor.
    + rewrite K2. exact S1.
    + unfold execute in E. destruct (lml_values (w_minimums w)); [injection E as <- <-; exact S2|].
      destruct (run _ _ _ _ _ _ _) as [[m s]| |]; try discriminate. injection E as <- <-. exact S2.
    + intros i Hi. destruct (S3 i Hi) as (A1 & A2 & A3 & A4). destruct (K3 (sh d i)) as (B1 & B2 & B3 & B4).
      unfold agree, idk. rewrite B1, B2, B3, B4. auto.
Qed.
Lemma plain_built rv rs L : plain empty_lm_list rs = Ok L -> built rv (Wagyu L rv) rs.
Proof.
  assert (G : forall rs' rs0 L0, built rv (Wagyu L0 rv) rs0 -> plain L0 rs' = Ok L -> built rv (Wagyu L rv) (rs0 ++ rs')).
  { induction rs' as [|[pts kind] rs' IH]; intros rs0 L0 B0 E; cbn [plain] in E; [injection E as <-; rewrite app_nil_r; exact B0|].
    destruct (add_linear_ring L0 pts kind) as [[c L1]| |] eqn:E1; cbn [rbind] in E; try discriminate.
    replace (rs0 ++ (pts, kind) :: rs') with ((rs0 ++ [(pts, kind)]) ++ rs') by (rewrite <- app_assoc; reflexivity).
    apply (IH _ L1); [|exact E]. eapply built_ring; [exact B0|]. unfold w_add_linear_ring. cbn [w_minimums]. rewrite E1. reflexivity. }
  intros E. apply (G rs [] empty_lm_list); [apply built_new|exact E].
Qed.
Definition subjects_only (rs : list (linear_ring * polygon_kind)) : Prop := forall pts kind, In (pts, kind) rs -> kind = SUBJECT.
Lemma run_plain km zo rv rs d L L' f op op' sfk cfk sfk' cfk' : same_decisions km zo op op' sfk cfk sfk' cfk' ->
  plain empty_lm_list rs = Ok L -> (zo = true -> forall i, recorded (Wagyu L rv) i -> b_kind (bget (lml_bounds L) i) = SUBJECT) -> sim km d L L' ->
  orel (fun a _ a' _ => a' = a) (run f op sfk cfk rv (lml_values L) (init_st (lml_bounds L)))
                                (run f op' sfk' cfk' rv (lml_values L') (init_st (lml_bounds L'))).
Proof.
  intros D Hp Zk [S1 S2 S3]. pose proof (built_well_recorded rv _ _ (plain_built rv rs L Hp)) as [W1 _ W3 _ _ _]. cbn [w_minimums] in *.
  apply (run_rel (sh d) (sh_inj d) (recorded (Wagyu L rv)) km zo); [exact D| |].
  - intros i Ri. destruct (S3 i (W1 i Ri)) as (A1 & A2 & A3 & A4). unfold stat. repeat (split; [assumption|]). split; [|auto].
    destruct Ri as (lm & I1 & Hi). cbn in I1. rewrite Forall_forall in W3. destruct (W3 lm I1) as (_ & N1 & N2 & _). destruct Hi; subst; assumption.
  - rewrite S1. assert (G : forall l, (forall lm, In lm l -> In lm (lml_values L)) -> Forall2 (lmr (sh d) (recorded (Wagyu L rv))) l (map (lsh d) l)).
    { induction l as [|m l IH]; intros Hl; cbn; constructor; [|apply IH; intros; apply Hl; right; assumption].
      constructor; try reflexivity; exists m; (split; [apply Hl; left; reflexivity|auto]). }
    apply G. auto.
Qed.
Lemma execute_related km zo rv rs d L w f op op' sfk cfk sfk' cfk' : same_decisions km zo op op' sfk cfk sfk' cfk' ->
  plain empty_lm_list rs = Ok L -> (zo = true -> forall i, recorded (Wagyu L rv) i -> b_kind (bget (lml_bounds L) i) = SUBJECT) ->
  sim km d L (w_minimums w) -> w_reverse w = rv ->
  answer (execute f w op' sfk' cfk') = answer (execute f (Wagyu L rv) op sfk cfk).
Proof.
  intros D Hp Zk Si R1. pose proof (run_plain km zo rv rs d L _ f op op' sfk cfk sfk' cfk' D Hp Zk Si) as G. destruct Si as [S1 _ _]. unfold execute. cbn [w_minimums w_reverse]. rewrite R1.
  rewrite S1 in *. destruct (lml_values L) as [|m l]; cbn [map]; [reflexivity|]. cbn [map] in G. unfold orel in G.
  destruct (run f op sfk cfk rv (m :: l) _) as [[a s]| |], (run f op' sfk' cfk' rv (lsh d m :: map (lsh d) l) _) as [[a' s']| |]; cbn; try contradiction; congruence.
Qed.
Lemma execute_plain rv rs d L w f op sfk cfk : plain empty_lm_list rs = Ok L -> sim idk d L (w_minimums w) -> w_reverse w = rv ->
  answer (execute f w op sfk cfk) = answer (execute f (Wagyu L rv) op sfk cfk).
Proof. intros Hp Si R1. refine (execute_related idk false rv rs d L w f op op sfk cfk sfk cfk (same_same op sfk cfk) Hp _ Si R1). discriminate. Qed.
Theorem execute_depends_on_rings rv w w' rs f op sfk cfk : built rv w rs -> built rv w' rs ->
  answer (execute f w op sfk cfk) = answer (execute f w' op sfk cfk).
Proof.
  intros B B'. apply tracks_built in B, B'. destruct B as ((d & L & Hp & Si) & R1), B' as ((d' & L' & Hp' & Si') & R1').
  rewrite Hp in Hp'. injection Hp' as <-. rewrite (execute_plain rv rs d L w), (execute_plain rv rs d' L w'); auto.
Qed.
(** left-over scratch values do not matter *)
Theorem execute_ignores_scratch rv w rs f op sfk cfk w' : built rv w rs -> w_reverse w' = w_reverse w ->
  lml_values (w_minimums w') = lml_values (w_minimums w) ->
  (forall i, let b := bget (lml_bounds (w_minimums w)) i in let b' := bget (lml_bounds (w_minimums w')) i in
     b_edges b' = b_edges b /\ b_wd b' = b_wd b /\ b_kind b' = b_kind b /\ b_max b' = b_max b) ->
  answer (execute f w' op sfk cfk) = answer (execute f w op sfk cfk).
Proof.
  intros B R1 V1 St. pose proof (built_well_recorded rv w rs B) as [W1 _ W3 _ _ _].
  assert (G : orel (fun a _ a' _ => a' = a) (run f op sfk cfk (w_reverse w) (lml_values (w_minimums w)) (init_st (lml_bounds (w_minimums w))))
                                (run f op sfk cfk (w_reverse w) (lml_values (w_minimums w)) (init_st (lml_bounds (w_minimums w'))))).
  { apply (run_rel (fun i => i) (fun i j H => H) (recorded w) idk false); [apply same_same| |].
    - intros i Ri. destruct (St i) as (A1 & A2 & A3 & A4). unfold stat, idk. rewrite A1, A2, A3, A4.
      split; [reflexivity|]. split; [reflexivity|]. split; [reflexivity|]. split; [destruct (b_max (bget (lml_bounds (w_minimums w)) i)); reflexivity|]. split; [|discriminate].
      destruct Ri as (lm & I1 & Hi). rewrite Forall_forall in W3. destruct (W3 lm I1) as (_ & N1 & N2 & _). destruct Hi; subst; assumption.
    - assert (G : forall l, (forall lm, In lm l -> In lm (lml_values (w_minimums w))) -> Forall2 (lmr (fun i => i) (recorded w)) l l).
      { induction l as [|m l IH]; intros Hl; constructor; [|apply IH; intros; apply Hl; right; assumption].
        constructor; try reflexivity; exists m; (split; [apply Hl; left; reflexivity|auto]). }
      apply G. auto. }
  unfold execute. rewrite R1, V1. destruct (lml_values (w_minimums w)) as [|m l]; [reflexivity|]. unfold orel in G.
  destruct (run f op sfk cfk (w_reverse w) (m :: l) (init_st (lml_bounds (w_minimums w)))) as [[a s]| |],
    (run f op sfk cfk (w_reverse w) (m :: l) (init_st (lml_bounds (w_minimums w')))) as [[a' s']| |]; cbn; try contradiction; congruence.
Qed.

(** ** The same calls on two objects *)
Definition twins (w w' : wagyu) : Prop := exists d d' L, sim idk d L (w_minimums w) /\ sim idk d' L (w_minimums w').
Lemma twins_add w w' pts kind : twins w w' ->
  match w_add_linear_ring w pts kind, w_add_linear_ring w' pts kind with
  | Ok (b, w1), Ok (b', w1') => b = b' /\ twins w1 w1'
  | Raise e, Raise e' => e = e'
  | NoFuel, NoFuel => True
  | _, _ => False
  end.
Proof.
  intros (d & d' & L & H & H'). pose proof (add_rel idk d L _ pts kind H) as G. pose proof (add_rel idk d' L _ pts kind H') as G'.
  unfold w_add_linear_ring. unfold rrel in G, G'. change (idk kind) with kind in G, G'.
  destruct (add_linear_ring L pts kind) as [[b1 L1]| |];
    destruct (add_linear_ring (w_minimums w) pts kind) as [[b2 L2]| |]; try contradiction;
    destruct (add_linear_ring (w_minimums w') pts kind) as [[b3 L3]| |]; try contradiction; cbn in *; auto; [|congruence].
  destruct G as (-> & G), G' as (-> & G'). split; [reflexivity|]. exists d, d', L1. auto.
Qed.
Lemma twins_add_all rs : forall w w', twins w w' ->
  match add_all w rs, add_all w' rs with
  | Ok (bs, _), Ok (bs', _) => bs = bs'
  | Raise e, Raise e' => e = e'
  | NoFuel, NoFuel => True
  | _, _ => False
  end.
Proof.
  induction rs as [|[pts kind] rs IH]; intros w w' T; cbn [add_all]; [reflexivity|].
  pose proof (twins_add w w' pts kind T) as G.
  destruct (w_add_linear_ring w pts kind) as [[b w1]| |], (w_add_linear_ring w' pts kind) as [[b' w1']| |]; try contradiction; auto.
  destruct G as (-> & T1). specialize (IH w1 w1' T1).
  destruct (add_all w1 rs) as [[bs w2]| |], (add_all w1' rs) as [[bs' w2']| |]; try contradiction; auto. congruence.
Qed.
Lemma built_twins rv w w' rs : built rv w rs -> built rv w' rs -> twins w w'.
Proof.
  intros B B'. apply tracks_built in B, B'. destruct B as ((d & L & Hp & Si) & _), B' as ((d' & L' & Hp' & Si') & _).
  rewrite Hp in Hp'. injection Hp' as <-. exists d, d', L. auto.
Qed.
Lemma built_add_all rv : forall rs rs0 w bs w', built rv w rs0 -> add_all w rs = Ok (bs, w') -> built rv w' (rs0 ++ rs).
Proof.
  induction rs as [|[pts kind] rs IH]; intros rs0 w bs w' B E; cbn [add_all] in E; [injection E as <- <-; rewrite app_nil_r; exact B|].
  destruct (w_add_linear_ring w pts kind) as [[b w1]| |] eqn:E1; try discriminate.
  destruct (add_all w1 rs) as [[bs1 w2]| |] eqn:E2; try discriminate. injection E as <- <-.
  replace (rs0 ++ (pts, kind) :: rs) with ((rs0 ++ [(pts, kind)]) ++ rs) by (rewrite <- app_assoc; reflexivity).
  eapply IH; [|exact E2]. eapply built_ring; eauto.
Qed.

(** ** Two objects with related rings *)
Definition rekind (km : polygon_kind -> polygon_kind) (rs : list (linear_ring * polygon_kind)) : list (linear_ring * polygon_kind) :=
  map (fun r => (fst r, km (snd r))) rs.
Lemma plain_rel km d : forall rs L L' L1, sim km d L L' -> plain L rs = Ok L1 ->
  exists L1', plain L' (rekind km rs) = Ok L1' /\ sim km d L1 L1'.
Proof.
  induction rs as [|[pts kind] rs IH]; intros L L' L1 Si E; cbn [plain rekind map fst snd] in *; [injection E as <-; eauto|].
  pose proof (add_rel km d L L' pts kind Si) as G. unfold rrel in G.
  destruct (add_linear_ring L pts kind) as [[b L2]| |]; try discriminate. destruct (add_linear_ring L' pts (km kind)) as [[b' L2']| |]; try contradiction.
  destruct G as (_ & G). cbn in G. cbn [rbind] in *. apply (IH L2 L2' L1); assumption.
Qed.
Lemma sh_0 i : sh 0 i = i.
Proof. unfold sh. rewrite Nat.add_0_r. apply Pos2Nat.id. Qed.
Lemma rekind_subjects rs : (forall pts kind, In (pts, kind) rs -> kind = SUBJECT) -> rekind (fun _ => SUBJECT) rs = rs.
Proof.
  intros H. induction rs as [|[pts kind] rs IH]; [reflexivity|]. unfold rekind in *. cbn [map fst snd]. rewrite IH by (intros; eapply H; right; eassumption).
  rewrite (H pts kind) by (left; reflexivity). reflexivity.
Qed.
Lemma plain_subjects rv rs L : (forall pts kind, In (pts, kind) rs -> kind = SUBJECT) -> plain empty_lm_list rs = Ok L ->
  forall i, recorded (Wagyu L rv) i -> b_kind (bget (lml_bounds L) i) = SUBJECT.
Proof.
  intros H E i Ri. pose proof (built_well_recorded rv _ _ (plain_built rv rs L E)) as [W1 _ _ _ _ _].
  destruct (plain_rel (fun _ => SUBJECT) 0 rs empty_lm_list empty_lm_list L) as (L' & E' & Si); [apply sim_empty; reflexivity|exact E|].
  rewrite (rekind_subjects rs H), E in E'. injection E' as <-. destruct Si as [_ _ S3]. destruct (S3 i (W1 i Ri)) as (_ & _ & G & _).
  rewrite sh_0 in G. exact G.
Qed.
Theorem execute_related_rings km zo rv w w' rs f op op' sfk cfk sfk' cfk' : same_decisions km zo op op' sfk cfk sfk' cfk' ->
  (zo = true -> forall pts kind, In (pts, kind) rs -> kind = SUBJECT) ->
  built rv w rs -> built rv w' (rekind km rs) ->
  answer (execute f w op sfk cfk) = answer (execute f w' op' sfk' cfk').
Proof.
  intros D Z B B'. apply tracks_built in B, B'. destruct B as ((d & L & Hp & Si) & R1), B' as ((d' & L' & Hp' & Si') & R1').
  rewrite (execute_plain rv rs d L w), (execute_plain rv (rekind km rs) d' L' w') by assumption.
  destruct (plain_rel km 0 rs empty_lm_list empty_lm_list L) as (L1 & E1 & S1); [apply sim_empty; reflexivity|exact Hp|].
  rewrite Hp' in E1. injection E1 as <-.
  symmetry. apply (execute_related km zo rv rs 0 L (Wagyu L' rv) f op op' sfk cfk sfk' cfk' D Hp); [|exact S1|reflexivity].
  intros Hz. apply (plain_subjects rv rs L (Z Hz) Hp).
Qed.
