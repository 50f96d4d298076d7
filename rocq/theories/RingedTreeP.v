(** * The heap stays well ringed up to the end of [correct_tree] *)
From Coq Require Import ZArith List Bool Lia FMapPositive Permutation.
From Coq Require Import Floats.SpecFloat.
From RecordUpdate Require Import RecordSet.
From Verif Require Import Py Monad Utils Geometry LinearRingM BoundM LocalMinimumM
     StateM PointNodeM RingM SweepM TopologyM WagyuM HoareP SpecRing SpecHeap SpecRings SweepFrameP OrderP VatP FuelP PipP SortP PointersP
     CircleP HeapOpsP StatsP SplitP NodeFrameP RingedP RingedTopP RingedCutP RingedPathP RingedFixP RingedArcP RingedSameP RingedOtherP.
Import ListNotations RecordSetNotations.
Open Scope Z_scope.

Lemma kw_process_collinear fuel i j : i <> j -> kw (process_collinear_edges fuel i j).
Proof.
  intros N. apply kw_tri. unfold process_collinear_edges.
  eapply tri_bind; [apply tri_nd|]. intros a. eapply tri_bind; [apply tri_nd|]. intros b. cbv beta.
  destruct (is_none (n_ring a) || is_none (n_ring b)) eqn:T; [apply tri_ret; tauto|]. apply orb_false_iff in T as (T1 & T2).
  eapply tri_bind with (Q := fun b s => well_ringed s /\ (b = false -> both i j s)).
  { eapply tri_pre; [apply tri_remove_duplicates; exact N|]. intros s (-> & -> & W). split; [exact W|]. unfold ring_of.
    split; [destruct (n_ring (node_at s i))|destruct (n_ring (node_at s j))]; try discriminate; eauto. }
  intros d. destruct d; [apply tri_ret; tauto|].
  eapply tri_bind with (Q := fun _ s => both i j s).
  { eapply tri_pre with (I' := both i j); [|tauto]. apply tri_same; [nf_auto|]. intros s s' S (W & (r1 & R1) & r2 & R2). split; [apply (well_same s); assumption|].
    rewrite !(same_ring_of _ _ _ S). eauto. }
  intros c. eapply tri_bind; [apply tri_nd|]. intros a'. eapply tri_bind; [apply tri_nd|]. intros b'. cbv beta zeta.
  destruct (negb c).
  - destruct (opt_is (n_ring a') (n_ring b')); [|apply tri_ret; intros s (_ & _ & W & _); exact W].
    eapply tri_bind; [eapply tri_pre; [apply (well_cut fuel i j N)|]; intros s (_ & _ & W & _); exact W|]. intros o. apply tri_ret. auto.
  - eapply tri_bind with (Q := fun _ => well_ringed); [|intros ?; apply tri_ret; auto].
    destruct (opt_is (n_ring a') (n_ring b')) eqn:O.
    + eapply tri_pre; [apply (well_same_ring fuel i j N)|]. intros s (-> & -> & W & (r1 & R1) & r2 & R2). split; [exact W|]. unfold ring_of in *.
      rewrite R1, R2 in O. cbn in O. apply Pos.eqb_eq in O. subst. exists r2. auto.
    + eapply tri_pre; [apply (well_different_rings fuel i j)|]. intros s (-> & -> & W & (r1 & R1) & r2 & R2). split; [exact W|]. unfold ring_of in *.
      rewrite R1, R2 in O. cbn in O. apply Pos.eqb_neq in O. exists r1, r2. auto.
Qed.
Lemma kw_collinear_repeats fuel nodes a b : kw (correct_collinear_repeats fuel nodes a b).
Proof.
  unfold correct_collinear_repeats. apply pres_forM; [typeclasses eauto|]. intros k.
  apply pres_bind; [typeclasses eauto|nf_auto|]. intros i. apply pres_bind; [typeclasses eauto|nf_auto|]. intros n.
  destruct (is_none (n_ring n)); [nf_auto|]. apply pres_loopM; [typeclasses eauto|]. intros other. destruct (other <? b)%nat; [|nf_auto].
  apply pres_bind; [typeclasses eauto|nf_auto|]. intros n'. destruct (is_none (n_ring n')); [nf_auto|].
  apply pres_bind; [typeclasses eauto|nf_auto|]. intros j. apply pres_bind; [typeclasses eauto|nf_auto|]. intros m.
  destruct (is_none (n_ring m) || Pos.eqb i j) eqn:T; [nf_auto|]. apply orb_false_iff in T as (_ & T). apply Pos.eqb_neq in T.
  apply pres_bind; [typeclasses eauto|apply kw_process_collinear; exact T|]. intros d. nf_auto.
Qed.
#[export] Hint Resolve kw_collinear_repeats : pres.
Lemma kw_collinear_edges fuel : kw (correct_collinear_edges fuel).
Proof. unfold correct_collinear_edges. nf_auto. apply nf_for_repeats; [typeclasses eauto|]. intros. nf_auto. Qed.
#[export] Hint Resolve kw_collinear_edges : pres.
Lemma kw_orientation fuel r : kw (correct_orientation fuel r).
Proof.
  apply kw_tri. unfold correct_orientation. eapply tri_bind; [apply tri_rg|]. intros x. cbv beta.
  destruct (r_node x) as [n|] eqn:F; [|apply tri_ret; tauto].
  assert (P : forall s, x = ring_at s r /\ well_ringed s -> well_ringed s /\ ring_of s n = Some r).
  { intros s (-> & W). split; [exact W|]. apply (wr_first s W). exact F. }
  set (J := fun s => well_ringed s /\ ring_of s n = Some r).
  assert (JS : forall s s', same_ringed s s' -> J s -> J s').
  { intros s s' S (W & H). split; [apply (well_same s); assumption|rewrite (same_ring_of _ _ _ S); exact H]. }
  eapply tri_pre with (I' := J); [|exact P].
  eapply tri_bind with (Q := fun _ => J); [apply tri_same; [nf_auto|exact JS]|]. intros ?.
  eapply tri_bind with (Q := fun _ => J); [apply tri_same; [nf_auto|exact JS]|]. intros size.
  destruct (_ <? _)%nat.
  { eapply tri_pre; [apply kw_tri; nf_auto|]. intros s (W & _). exact W. }
  eapply tri_bind with (Q := fun _ => J); [apply tri_same; [nf_auto|exact JS]|]. intros d.
  eapply tri_bind with (Q := fun _ => J); [apply tri_same; [nf_auto|exact JS]|]. intros h.
  destruct (negb _); [|apply tri_ret; intros s (W & _); exact W].
  eapply tri_bind with (Q := fun _ => well_ringed).
  - intros s u s' (W & H) E. apply (well_reverse s n r fuel u s' W H E).
  - intros ?. apply kw_tri. nf_auto.
Qed.
#[export] Hint Resolve kw_orientation : pres.
Lemma kw_orientations fuel : kw (correct_orientations fuel). Proof. unfold correct_orientations. nf_auto. Qed.
#[export] Hint Resolve kw_orientations : pres.
(** the sorted vertices of a ring have no repeats *)
Lemma nodes_list_members s n r fuel l s' : well_ringed s -> ring_of s n = Some r -> nodes_list fuel n s = Ok (l, s') ->
  s' = s /\ circle s l /\ members s r l.
Proof.
  intros W H E. destruct (well_at s n r W H) as (m & C & M).
  pose proof (nodes_list_circle s n m (Nat.max fuel (length (n :: m))) C (Nat.le_max_r _ _)) as E1.
  pose proof (lem_Ok _ _ _ _ (fuel_nodes_list fuel (Nat.max fuel (length (n :: m))) (Nat.le_max_l _ _) n) E) as E2.
  rewrite E1 in E2. injection E2 as <- <-. auto.
Qed.
Lemma tri_sorted_nodes fuel r : tri well_ringed (sorted_nodes fuel r) (fun l s => well_ringed s /\ NoDup l /\ members s r l).
Proof.
  unfold sorted_nodes. eapply tri_bind; [apply tri_rg|]. intros x. cbv beta. destruct (r_node x) as [n|] eqn:F; [|apply tri_raise].
  intros s l s' (-> & W) E. pose proof (wr_first s W r n F) as H.
  unfold bind at 1 in E. destruct (nodes_list fuel n s) as [[l0 t]| |] eqn:E1; try discriminate. cbv iota beta in E.
  destruct (nodes_list_members s n r fuel l0 t W H E1) as (-> & C & M). injection E as <- <-.
  set (lp := map (fun i => (i, npos (hget dummy_node (s_nodes s) i))) l0).
  assert (P : Permutation l0 (map fst (pure_sort key_lt lp))).
  { rewrite <- (pure_sort_perm key_lt lp). unfold lp. rewrite map_map. cbn. rewrite map_id. reflexivity. }
  split; [exact W|]. split; [apply (Permutation_NoDup P); apply (circle_nodup s); exact C|].
  intros i. rewrite (M i). split; apply Permutation_in; [exact P|symmetry; exact P].
Qed.
Lemma tri_acc_in {A B} (l : list A) (f : A -> B -> prog B) (Inv : st -> Prop) b :
  (forall a b, In a l -> tri Inv (f a b) (fun _ => Inv)) -> tri Inv (forM_acc l f b) (fun _ => Inv).
Proof.
  unfold forM_acc. revert b. induction l as [|a l IH]; intros b H; [apply tri_ret; auto|].
  eapply tri_bind; [apply H; left; reflexivity|]. intros b'. apply IH. intros x y I. apply H. right. exact I.
Qed.
Lemma nth_res_neq (l : list nid) k k' i j : NoDup l -> (k < k')%nat -> nth_res l k = Ok i -> nth_res l k' = Ok j -> i <> j.
Proof.
  unfold nth_res. intros N L A B. destruct (nth_error l k) as [x|] eqn:E1; [|discriminate]. destruct (nth_error l k') as [y|] eqn:E2; [|discriminate].
  injection A as ->. injection B as ->. intros ->. pose proof (proj1 (NoDup_nth_error l) N k k') as K.
  assert (k = k'); [|lia]. apply K; [apply nth_error_Some; congruence|congruence].
Qed.
Lemma well_repeated fuel nodes a b acc : NoDup nodes -> tri well_ringed (correct_repeated_points fuel nodes a b acc) (fun _ => well_ringed).
Proof.
  intros N. unfold correct_repeated_points. apply tri_acc_in. intros k c _.
  eapply tri_bind with (Q := fun i s => nth_res nodes k = Ok i /\ well_ringed s); [apply tri_lift; auto|]. intros i. apply tri_fact. intros Hi.
  eapply tri_bind with (Q := fun _ => well_ringed); [apply kw_tri; nf_auto|]. intros n. destruct (is_none (n_ring n)); [apply tri_ret; auto|].
  apply tri_acc_in. intros k' c' Ik.
  eapply tri_bind with (Q := fun i s => nth_res nodes k' = Ok i /\ well_ringed s); [apply tri_lift; auto|]. intros j. apply tri_fact. intros Hj.
  eapply tri_bind with (Q := fun _ => well_ringed); [apply kw_tri; nf_auto|]. intros m. destruct (is_none (n_ring m)); [apply tri_ret; auto|].
  eapply tri_bind; [apply well_cut; apply (nth_res_neq nodes k k'); auto|intros o; apply tri_ret; auto].
  unfold range in Ik. apply in_seq in Ik. lia.
Qed.
Lemma kw_find_repeated fuel r : kw (find_and_correct_repeated_points fuel r).
Proof.
  apply kw_tri. unfold find_and_correct_repeated_points. eapply tri_bind; [apply tri_sorted_nodes|]. intros nodes.
  eapply tri_pre with (I' := fun s => NoDup nodes /\ well_ringed s); [|tauto]. apply tri_fact. intros N. 
  apply (tri_loop _ _ (fun _ => well_ringed)). intros (((count & p) & k) & acc). destruct (_ <? _)%nat; [|apply tri_ret; auto].
  eapply tri_bind with (Q := fun _ => well_ringed); [apply kw_tri; nf_auto|]. intros x.
  eapply tri_bind with (Q := fun _ => well_ringed); [apply kw_tri; nf_auto|]. intros y.
  eapply tri_bind with (Q := fun _ => well_ringed); [apply kw_tri; nf_auto|]. intros e. cbv zeta.
  destruct (e && _); [apply tri_ret; auto|]. destruct (_ =? _)%nat; [apply tri_ret; auto|].
  eapply tri_bind; [apply well_repeated; exact N|]. intros acc'. apply tri_ret. auto.
Qed.
#[export] Hint Resolve kw_find_repeated : pres.
Lemma kw_corrected r b : kw (upd_ring r (fun x => x <| r_corrected := b |>)).
Proof.
  intros s u s' E W. rewrite upd_ring_rput in E. injection E as <- <-. apply well_rput; [exact W|]. intros n H. apply (wr_first s W). exact H.
Qed.
#[export] Hint Resolve kw_corrected : pres.
Lemma kw_self_intersections fuel b : kw (correct_self_intersections fuel b).
Proof.
  unfold correct_self_intersections, correct_ring_self_intersections. nf_auto. apply nf_forM_acc; [typeclasses eauto|]. intros. nf_auto.
Qed.
#[export] Hint Resolve kw_self_intersections : pres.
Lemma kw_correct_tree_ring fuel l r : kw (correct_tree_ring fuel l r). Proof. unfold correct_tree_ring. nf_auto. Qed.
#[export] Hint Resolve kw_correct_tree_ring : pres.
Lemma kw_correct_tree_loop fuel l : forall k, kw (correct_tree_loop fuel k l).
Proof. induction l as [|r l IH]; intros k; cbn [correct_tree_loop]; nf_auto. Qed.
#[export] Hint Resolve kw_correct_tree_loop : pres.
Lemma kw_correct_tree fuel : kw (correct_tree fuel). Proof. unfold correct_tree. nf_auto. Qed.
#[export] Hint Resolve kw_correct_tree : pres.
Lemma kw_sort_all fuel : kw (sort_all_nodes fuel). Proof. nf_auto. Qed.
