(** * What [build_result] makes of the final rings (C33) *)
From Coq Require Import ZArith List Bool Lia FMapPositive Permutation.
From Coq Require Import Floats.SpecFloat.
From RecordUpdate Require Import RecordSet.
From Verif Require Import Py Monad Utils Geometry LinearRingM BoundM LocalMinimumM
     StateM PointNodeM RingM SweepM TopologyM WagyuM HoareP SweepFrameP CalmP SpecTree TreeP.
Import ListNotations RecordSetNotations.
Open Scope Z_scope.

Lemma somes_present l : somes l = present l.
Proof. unfold somes. induction l as [|[r|] l IH]; cbn; [reflexivity| |]; rewrite <- IH; reflexivity. Qed.
Lemma in_present r l : In r (present l) <-> In (Some r) l.
Proof.
  induction l as [|[q|] l IH]; cbn; [tauto| |]; rewrite IH.
  - split; (intros [H|H]; [left; congruence|right; exact H]).
  - split; [intros H; right; exact H|intros [H|H]; [discriminate|exact H]].
Qed.
Lemma nodup_present l : (forall r, In (Some r) l -> once r l) -> NoDup (present l).
Proof.
  intros H. induction l as [|c l IH]; cbn; [constructor|].
  assert (H' : forall r, In (Some r) l -> once r l).
  { intros r G. destruct (H r (or_intror G)) as (k & E & U). apply in_nth in G. destruct G as (j & Ej).
    exists j. split; [exact Ej|]. intros k' E'. pose proof (U (S j) Ej). pose proof (U (S k') E'). lia. }
  destruct c as [q|]; [|apply IH; exact H']. constructor; [|apply IH; exact H'].
  intros G. apply in_present in G. apply in_nth in G. destruct G as (j & Ej).
  destruct (H q (or_introl eq_refl)) as (k & E & U). pose proof (U 0%nat eq_refl). pose proof (U (S j) Ej). lia.
Qed.

(** ** One ring *)
Lemma collect_spec fuel dir start : forall c acc s l s',
  loopM fuel (fun '(cursor, acc) =>
    (c <- deref cursor ;; n <- nd c ;;
     ret (if opt_is (dir n) (Some start) then inr (rev (c :: acc))
          else inl (dir n, c :: acc)))%M) (Some c, acc) s = Ok (l, s') ->
  s' = s /\ exists m, l = rev acc ++ c :: m /\ trail s dir start c m.
Proof.
  induction fuel as [|fuel IH]; intros c acc s l s' E; [discriminate|]. cbn [loopM] in E.
  inv_bind E r s1 E1. inv_bind E1 c0 s2 E2. apply deref_Ok in E2. destruct E2 as (E2 & ->). injection E2 as <-.
  inv_bind E1 n s2 E2. injection E2 as <- <-. apply ret_Ok in E1. destruct E1 as (-> & ->).
  set (n := hget dummy_node (s_nodes s) c) in *. destruct (opt_is (dir n) (Some start)) eqn:O.
  - apply ret_Ok in E. destruct E as (-> & ->). split; [reflexivity|]. exists []. split; [reflexivity|].
    cbn. fold n. destruct (dir n) as [q|]; [|discriminate]. cbn in O. apply Pos.eqb_eq in O. rewrite O. reflexivity.
  - destruct (dir n) as [q|] eqn:Dn.
    + apply IH in E. destruct E as (-> & m & -> & Tr). split; [reflexivity|]. exists (q :: m). split.
      * cbn. rewrite <- app_assoc. reflexivity.
      * cbn. fold n. split; [exact Dn|]. split; [|exact Tr]. intros ->. cbn in O. rewrite Pos.eqb_refl in O. discriminate.
    + destruct fuel; [discriminate|]. cbn [loopM] in E. discriminate.
Qed.
Definition out_dir (rv : bool) : node -> option nid := if rv then n_next else n_prev.
Lemma ring_output_spec fuel rv r s pts s' : ring_output fuel rv r s = Ok (pts, s') ->
  s' = s /\ written s (out_dir rv) r pts.
Proof.
  intros E. unfold ring_output in E. inv_bind E x s1 E1. apply rg_Ok in E1. destruct E1 as (-> & ->).
  fold (the_ring s r) in E. destruct (r_node (the_ring s r)) as [n|] eqn:Rn; [|discriminate].
  inv_bind E l s1 E1.
  assert (H : s1 = s /\ exists m, l = n :: m /\ trail s (out_dir rv) n n m).
  { destruct rv; apply collect_spec in E1; destruct E1 as (-> & m & -> & Tr); (split; [reflexivity|]);
      exists m; split; auto. }
  clear E1. destruct H as (-> & m & -> & Tr). inv_bind E ps s1 E1. injection E1 as <- <-.
  inv_bind E p s1 E1. unfold node_point in E1. inv_bind E1 y s2 E2. injection E2 as <- <-.
  apply ret_Ok in E1. destruct E1 as (-> & ->). apply ret_Ok in E. destruct E as (-> & ->).
  split; [reflexivity|]. exists n, m. split; [exact Rn|]. split; [exact Tr|]. reflexivity.
Qed.
Lemma mapM_spec {A B} (f : A -> prog B) (Q : A -> B -> Prop) s :
  (forall a b s', f a s = Ok (b, s') -> s' = s /\ Q a b) ->
  forall l bs s', mapM f l s = Ok (bs, s') -> s' = s /\ Forall2 Q l bs.
Proof.
  intros H. induction l as [|a l IH]; intros bs s' E; cbn [mapM] in E.
  - apply ret_Ok in E. destruct E as (-> & ->). auto.
  - inv_bind E b s1 E1. apply H in E1. destruct E1 as (-> & Hb). inv_bind E r s1 E1.
    apply IH in E1. destruct E1 as (-> & Hr). apply ret_Ok in E. destruct E as (-> & ->). auto.
Qed.

(** ** The tree *)
(** [x] is [n] steps below a ring of the list *)
Inductive below (s : st) (l : list (option rid)) : rid -> nat -> Prop :=
| below_here r : In (Some r) l -> below s l r 0
| below_child p r n : below s l p n -> listed s (Some p) r -> below s l r (S n).
Fixpoint shells_of (d : nat) (s : st) (l : list (option rid)) : list rid :=
  match d with
  | O => []
  | S d' => flat_map (fun r => r :: flat_map (fun c => shells_of d' s (kids s (Some c)))
                                            (present (kids s (Some r)))) (present l)
  end.
(** a step down from the top *)
Lemma below_top s l r c x n : In (Some r) l -> below s (kids s (Some r)) c 0 ->
  below s (kids s (Some c)) x n -> below s l x (S (S n)).
Proof.
  intros H1 H2 H3. assert (B1 : below s l c 1).
  { eapply below_child; [apply below_here; exact H1|]. inversion H2; subst. assumption. }
  clear H1 H2. induction H3 as [x H|p x n B IH L].
  - eapply below_child; [exact B1|exact H].
  - eapply below_child; [exact IH|exact L].
Qed.
Lemma below_split s l x n : below s l x n ->
  exists r, In (Some r) l /\
    match n with
    | O => x = r
    | S O => listed s (Some r) x
    | S (S m) => exists c, listed s (Some r) c /\ below s (kids s (Some c)) x m
    end.
Proof.
  intros B. induction B as [r H|p r n B IH L]; [exists r; auto|].
  destruct IH as (q & Hq & H). exists q. split; [exact Hq|]. destruct n as [|[|n]].
  - subst q. exact L.
  - exists p. split; [exact H|]. constructor. exact L.
  - destruct H as (c & Hc & B'). exists c. split; [exact Hc|]. eapply below_child; eassumption.
Qed.
Lemma shells_below d s : forall l x, In x (shells_of d s l) -> exists k, below s l x (2 * k).
Proof.
  induction d as [|d IH]; intros l x H; [destruct H|]. cbn in H. apply in_flat_map in H.
  destruct H as (r & Hr & [->|H]); [exists 0%nat; constructor; apply in_present; exact Hr|].
  apply in_flat_map in H. destruct H as (c & Hc & H). apply IH in H. destruct H as (k & B).
  exists (S k). replace (2 * S k)%nat with (S (S (2 * k))) by lia. apply in_present in Hr, Hc.
  eapply below_top; [exact Hr|constructor; exact Hc|exact B].
Qed.
Lemma rings_to_polygons_spec fuel rv d s : forall l mp s',
  rings_to_polygons fuel d rv l s = Ok (mp, s') ->
  s' = s /\ Forall2 (polygon_of s (out_dir rv)) (shells_of d s l) mp /\
  (forall x k, below s l x (2 * k) -> In x (shells_of d s l)).
Proof.
  induction d as [|d IH]; intros l mp s' E; [discriminate|]. cbn [rings_to_polygons] in E.
  inv_bind E pss s1 E1. apply ret_Ok in E. destruct E as (-> & ->).
  set (Q := fun r (ps : multipolygon) =>
    Forall2 (polygon_of s (out_dir rv)) (r :: flat_map (fun c => shells_of d s (kids s (Some c))) (present (kids s (Some r)))) ps
    /\ forall c, In c (present (kids s (Some r))) -> forall x k, below s (kids s (Some c)) x (2 * k) -> In x (shells_of d s (kids s (Some c)))).
  apply (mapM_spec _ Q) in E1.
  - destruct E1 as (-> & F). split; [reflexivity|]. rewrite somes_present in F. split.
    + cbn [shells_of]. clear - F. induction F as [|r ps rs pss (H & _) F IHF]; cbn [flat_map concat]; [constructor|].
      apply Forall2_app; [exact H|exact IHF].
    + intros x k B. apply below_split in B. destruct B as (r & Hr & H). cbn [shells_of]. apply in_flat_map.
      apply in_present in Hr. exists r. split; [exact Hr|]. destruct k as [|k]; [left; symmetry; exact H|].
      replace (2 * S k)%nat with (S (S (2 * k))) in H by lia. destruct H as (c & Hc & B). right.
      apply in_flat_map. apply in_present in Hc. exists c. split; [exact Hc|].
      assert (G : exists ps, Q r ps).
      { clear - F Hr. induction F as [|a b la lb Hab F IHF]; [destruct Hr|].
        destruct Hr as [->|Hr]; [exists b; exact Hab|apply IHF; exact Hr]. }
      destruct G as (ps & _ & G). eapply G; eassumption.
  - clear E1. intros r ps t E. inv_bind E x s2 E2. apply rg_Ok in E2. destruct E2 as (-> & ->).
    inv_bind E outer s2 E2. apply ring_output_spec in E2. destruct E2 as (-> & W).
    inv_bind E holes s2 E2. apply (mapM_spec _ (written s (out_dir rv))) in E2;
      [|intros a b s'; apply ring_output_spec]. destruct E2 as (-> & WH).
    inv_bind E subs s2 E2. apply ret_Ok in E. destruct E as (-> & ->).
    rewrite somes_present in WH, E2.
    apply (mapM_spec _ (fun c sub => Forall2 (polygon_of s (out_dir rv)) (shells_of d s (kids s (Some c))) sub /\
       forall x k, below s (kids s (Some c)) x (2 * k) -> In x (shells_of d s (kids s (Some c))))) in E2.
    + destruct E2 as (-> & F). split; [reflexivity|]. fold (the_ring s r) in WH, F. split.
      * constructor; [exists outer, holes; auto|]. change (r_children (the_ring s r)) with (kids s (Some r)) in F.
        clear - F. induction F as [|c sub cs subs (H & _) F IHF]; cbn [flat_map concat]; [constructor|].
        apply Forall2_app; [exact H|exact IHF].
      * change (r_children (the_ring s r)) with (kids s (Some r)) in F. intros c Hc x k B.
        clear - F Hc B. induction F as [|a b la lb (_ & Hab) F IHF]; [destruct Hc|].
        destruct Hc as [->|Hc]; [eapply Hab; exact B|apply IHF; exact Hc].
    + intros c sub t E. inv_bind E y s3 E3. apply rg_Ok in E3. destruct E3 as (-> & ->).
      apply IH in E. exact E.
Qed.

(** ** Every ring has one place *)
Lemma rank_unique s : tree_ok s -> forall r n, rank s r n -> forall m, rank s r m -> n = m.
Proof.
  intros T r n H. induction H as [r L|p r n R IH L]; intros m H.
  - inversion H as [? L'|p ? n R L']; subst; [reflexivity|].
    destruct (T _ _ L) as (P & _). destruct (T _ _ L') as (P' & _). congruence.
  - inversion H as [? L'|p' ? n' R' L']; subst.
    + destruct (T _ _ L) as (P & _). destruct (T _ _ L') as (P' & _). congruence.
    + destruct (T _ _ L) as (P & _). destruct (T _ _ L') as (P' & _). rewrite P in P'. injection P' as <-.
      f_equal. apply IH. exact R'.
Qed.
Lemma below_rank s l m : (forall r, In (Some r) l -> rank s r m) -> forall x n, below s l x n -> rank s x (n + m).
Proof.
  intros H x n B. induction B as [r G|p r n B IH L]; [apply H; exact G|]. cbn. eapply rank_child; eassumption.
Qed.
(** going up the same number of steps leads to the same ring *)
Lemma below_same s r1 r2 x n : tree_ok s -> below s [Some r1] x n -> below s [Some r2] x n -> r1 = r2.
Proof.
  intros T B. remember [Some r1] as l1. induction B as [r G|p r n B IH L]; intros B2; subst l1.
  - inversion B2 as [? G2|]; subst. destruct G as [G|[]], G2 as [G2|[]]. congruence.
  - inversion B2 as [|p' ? ? B' L']; subst. destruct (T _ _ L) as (P & _), (T _ _ L') as (P' & _).
    rewrite P in P'. injection P' as <-. auto.
Qed.
Lemma below_from s l x n : below s l x n -> exists r, In (Some r) l /\ below s [Some r] x n.
Proof.
  intros B. induction B as [r H|p r n B IH L].
  - exists r. split; [exact H|]. constructor. left. reflexivity.
  - destruct IH as (q & Hq & B'). exists q. split; [exact Hq|]. eapply below_child; eassumption.
Qed.
Lemma below_kids s r x n : below s (kids s (Some r)) x n -> below s [Some r] x (S n).
Proof.
  intros B. induction B as [q H|p q n B IH L].
  - eapply below_child; [constructor; left; reflexivity|exact H].
  - eapply below_child; eassumption.
Qed.
Lemma NoDup_app {A} (l1 l2 : list A) : NoDup l1 -> NoDup l2 -> (forall x, In x l1 -> In x l2 -> False) ->
  NoDup (l1 ++ l2).
Proof.
  intros N1 N2 D. induction N1 as [|a l1 H N1 IH]; [exact N2|]. cbn. constructor.
  - rewrite in_app_iff. intros [G|G]; [contradiction|]. apply (D a); [left; reflexivity|exact G].
  - apply IH. intros x G1 G2. apply (D x); [right; exact G1|exact G2].
Qed.
Lemma NoDup_flat {A B} (f : A -> list B) l : NoDup l -> (forall a, In a l -> NoDup (f a)) ->
  (forall a b x, In a l -> In b l -> In x (f a) -> In x (f b) -> a = b) -> NoDup (flat_map f l).
Proof.
  intros N F D. induction N as [|a l H N IH]; cbn; [constructor|].
  apply NoDup_app.
  - apply F. left. reflexivity.
  - apply IH; [intros; apply F; right; assumption|]. intros; eapply D; try (right; eassumption); eassumption.
  - intros x G1 G2. apply in_flat_map in G2. destruct G2 as (b & Hb & G2).
    assert (a = b) by (eapply D; [left; reflexivity|right; exact Hb|exact G1|exact G2]). subst. contradiction.
Qed.
Lemma nodup_kids s o : tree_ok s -> NoDup (present (kids s o)).
Proof. intros T. apply nodup_present. intros r H. apply (T o r H). Qed.
Lemma shells_nodup s : tree_ok s -> forall d l m, (forall r, In (Some r) l -> rank s r m) ->
  NoDup (present l) -> NoDup (shells_of d s l).
Proof.
  intros T. induction d as [|d IH]; intros l m R N; cbn [shells_of]; [constructor|].
  assert (RK : forall r, In (Some r) l -> forall c, In (Some c) (kids s (Some r)) -> rank s c (S m)).
  { intros r H c Hc. eapply rank_child; [apply R; exact H|exact Hc]. }
  assert (RG : forall r, In (Some r) l -> forall c, In (Some c) (kids s (Some r)) ->
               forall g, In (Some g) (kids s (Some c)) -> rank s g (S (S m))).
  { intros r H c Hc g Hg. eapply rank_child; [eapply RK; eassumption|exact Hg]. }
  (* everything in the piece of [r] is an even number of steps below it *)
  assert (PB : forall r x, In (Some r) l ->
    In x (r :: flat_map (fun c => shells_of d s (kids s (Some c))) (present (kids s (Some r)))) ->
    exists k, below s [Some r] x (2 * k)).
  { intros r x H [->|G]; [exists 0%nat; constructor; left; reflexivity|].
    apply in_flat_map in G. destruct G as (c & Hc & G). apply shells_below in G. destruct G as (k & B).
    exists (S k). replace (2 * S k)%nat with (S (S (2 * k))) by lia. apply in_present in Hc.
    eapply below_top; [left; reflexivity|constructor; exact Hc|exact B]. }
  assert (RX : forall r x k, In (Some r) l -> below s [Some r] x k -> rank s x (k + m)).
  { intros r x k H B. eapply below_rank; [|exact B]. intros q [E|[]]. injection E as <-. apply R. exact H. }
  apply NoDup_flat.
  - exact N.
  - intros r Hr. apply in_present in Hr. constructor.
    + intros G. apply in_flat_map in G. destruct G as (c & Hc & G). apply in_present in Hc.
      apply shells_below in G. destruct G as (k & B).
      pose proof (below_rank s (kids s (Some c)) (S (S m)) (fun g Hg => RG r Hr c Hc g Hg) _ _ B) as R1.
      pose proof (rank_unique s T _ _ (R r Hr) _ R1). lia.
    + apply NoDup_flat.
      * apply nodup_kids. exact T.
      * intros c Hc. apply in_present in Hc. apply (IH _ (S (S m))); [apply (RG r Hr c Hc)|apply nodup_kids; exact T].
      * intros a b x Ha Hb Ga Gb. apply in_present in Ha, Hb.
        apply shells_below in Ga, Gb. destruct Ga as (ka & Ba), Gb as (kb & Bb).
        pose proof (rank_unique s T _ _ (below_rank s _ _ (fun g Hg => RG r Hr a Ha g Hg) _ _ Ba) _
                     (below_rank s _ _ (fun g Hg => RG r Hr b Hb g Hg) _ _ Bb)).
        assert (ka = kb) by lia. subst kb.
        eapply below_same; [exact T|apply below_kids; exact Ba|apply below_kids; exact Bb].
  - intros a b x Ha Hb Ga Gb. apply in_present in Ha, Hb.
    destruct (PB a x Ha Ga) as (ka & Ba), (PB b x Hb Gb) as (kb & Bb).
    pose proof (rank_unique s T _ _ (RX _ _ _ Ha Ba) _ (RX _ _ _ Hb Bb)).
    assert (ka = kb) by lia. subst kb. eapply below_same; eassumption.
Qed.
Lemma below_roots s x n : below s (s_children s) x n <-> rank s x n.
Proof.
  split; intros H.
  - induction H as [r H|p r n B IH L]; [constructor; exact H|]. eapply rank_child; eassumption.
  - induction H as [r L|p r n R IH L]; [constructor; exact L|]. eapply below_child; eassumption.
Qed.
Lemma build_result_spec fuel rv s mp s' : tree_ok s -> build_result fuel rv s = Ok (mp, s') ->
  s' = s /\ exists shells, NoDup shells /\ (forall r, In r shells <-> exists k, rank s r (2 * k)) /\
  Forall2 (polygon_of s (out_dir rv)) shells mp.
Proof.
  intros T E. unfold build_result in E. inv_bind E c s1 E1. apply gets_Ok in E1. destruct E1 as (-> & ->).
  apply rings_to_polygons_spec in E. destruct E as (-> & F & C). split; [reflexivity|].
  exists (shells_of fuel s (s_children s)). split; [|split; [|exact F]].
  - apply (shells_nodup s T fuel _ 0%nat); [intros r H; constructor; exact H|apply (nodup_kids s None T)].
  - intros r. split.
    + intros H. apply shells_below in H. destruct H as (k & B). exists k. apply below_roots. exact B.
    + intros (k & H). apply (C r k). apply below_roots. exact H.
Qed.
