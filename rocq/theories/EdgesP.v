(** * Where the sides of the rings go *)
From Coq Require Import ZArith List Bool Lia FMapPositive Permutation.
From Coq Require Import Floats.SpecFloat.
From RecordUpdate Require Import RecordSet.
From Verif Require Import Py Monad Utils Geometry LinearRingM BoundM LocalMinimumM
     StateM PointNodeM RingM SweepM TopologyM WagyuM HoareP Spec SpecRing SpecHeap SpecRings SpecTree SpecEdges SweepFrameP OrderP VatP FuelP PipP ListP PointersP
     MiscP CircleP CalmP HeapOpsP StatsP SplitP NodeFrameP RingedP RingedTopP RingedCutP RingedTreeP LiveP TreeP NestP NestTreeP KeepOrderP SpecNest.
Import ListNotations RecordSetNotations.
Open Scope Z_scope.

(** ** The sides of a circle *)
Lemma path_sides_app a l b m : path_sides a (l ++ b :: m) = path_sides a (l ++ [b]) ++ path_sides b m.
Proof. revert a. induction l as [|c l IH]; intros a; cbn [app path_sides]; [reflexivity|]. rewrite IH. reflexivity. Qed.
Lemma chained_side s n l : chained s n l -> forall i j, In i (removelast (n :: l)) -> n_next (node_at s i) = Some j ->
  In (npos (node_at s i), npos (node_at s j)) (path_sides (npos (node_at s n)) (vertices s l)).
Proof.
  revert n. induction l as [|k l IH]; intros n C i j H N; [destruct H|].
  destruct C as ((C1 & C2) & C). change (removelast (n :: k :: l)) with (n :: removelast (k :: l)) in H. destruct H as [<-|H].
  - rewrite C1 in N. injection N as <-. left. reflexivity.
  - right. apply (IH k C i j H N).
Qed.
Lemma circle_side s n l i j : circle s (n :: l) -> In i (n :: l) -> n_next (node_at s i) = Some j ->
  In (npos (node_at s i), npos (node_at s j)) (loop_sides (vertices s (n :: l))).
Proof.
  intros (ND & C) H N. change (loop_sides (vertices s (n :: l))) with (path_sides (npos (node_at s n)) (vertices s l ++ [npos (node_at s n)])).
  change [npos (node_at s n)] with (vertices s [n]).
  assert (X : vertices s l ++ vertices s [n] = vertices s (l ++ [n])) by (unfold vertices; rewrite map_app; reflexivity). rewrite X.
  apply chained_side; [exact C| |exact N].
  rewrite app_comm_cons, removelast_app by discriminate. cbn [removelast]. rewrite app_nil_r. exact H.
Qed.
(** ** The ring tree *)
Definition pruned (s0 s : st) : Prop :=
  s_nnext s = s_nnext s0 /\
  forall i, node_at s i = node_at s0 i \/
    (ring_of s i = None /\ exists r vs, outline_of s0 r vs /\ area2 vs = 0 /\ ring_of s0 i = Some r).

Lemma remove_points_count fuel d r b s u s' : remove_ring_and_points fuel d r false b s = Ok (u, s') -> well_ringed s ->
  first_of s r <> None -> s_nnext s' = s_nnext s.
Proof.
  intros E I F0. destruct d as [|d]; [discriminate|]. cbn [remove_ring_and_points] in E.
  inv_bind E v s1 Ea. assert (H1 : shelf s s1).
  { refine (shelf_iter fuel (Some r) _ _ _ _ _ Ea). intros k c. pres_auto. }
  inv_bind E w s2 Eb. assert (H2 : shelf s1 s2).
  { revert Eb. destruct b; [|intros Eb; injection Eb as _ <-; apply R_refl]. intros Eb.
    assert (P : pres shelf (bind (rg r) (fun x => remove_from_children r (r_parent x)))) by pres_auto. exact (P _ _ _ Eb). }
  pose proof (R_trans _ _ _ H1 H2) as H. clear H1 H2 Ea Eb s1 v w.
  destruct H as (S & K).
  assert (I2 : well_ringed s2) by (apply (well_same s); assumption).
  rewrite (bind_run _ _ _ _ _ (rg_run s2 r)) in E.
  rewrite <- (same_first _ _ _ S) in F0. unfold first_of in F0. destruct (r_node (ring_at s2 r)) as [n|] eqn:En; [|contradiction].
  inv_bind E v s3 Ec. destruct (well_at s2 n r I2 (wr_first s2 I2 r n En)) as (l & C & M).
  destruct (clear_run s2 n l fuel v s3 C Ec) as (WP & SB).
  rewrite (bind_run _ _ _ _ _ (upd_ring_rput _ _ _)) in E. unfold reset_stats in E. rewrite upd_ring_rput in E. injection E as _ <-.
  transitivity (s_nnext s3); [reflexivity|]. transitivity (s_nnext s2); [apply (sbn_next _ _ SB)|apply S].
Qed.
(** one ring: all vertices stay as they are, or the ring has no area and goes *)
Lemma tree_ring_nodes fuel rb r s u s' : in_order s -> correct_tree_ring fuel rb r s = Ok (u, s') ->
  s_nnext s' = s_nnext s /\
  ((forall i, node_at s' i = node_at s i) \/
   (exists vs, outline_of s r vs /\ area2 vs = 0) /\ forall i, node_at s' i = node_at s i \/ (ring_of s i = Some r /\ ring_of s' i = None)).
Proof.
  intros I E. unfold correct_tree_ring in E. rewrite (bind_run _ _ _ _ _ (rg_run s r)) in E.
  change (r_node (ring_at s r)) with (first_of s r) in E. destruct (first_of s r) as [n|] eqn:Fn; cbn [is_none] in E.
  2:{ injection E as _ <-. auto. }
  inv_bind E size s1 Ea. destruct (reads_size fuel r s size s1 Ea) as (C1 & -> & Sr). specialize (Sr I ltac:(congruence)).
  assert (I1 : in_order s1) by (apply C1, I).
  assert (G1 : forall q, as_good s s1 q) by (intros q; apply calc_good; exact C1).
  destruct (settled_outline s1 r Sr) as (vs & O & NE & LEN & T & A & H).
  inv_bind E small s2 Eb.
  assert (X : s2 = s1 /\ small = (area2 vs =? 0)).
  { destruct (Nat.ltb_spec (r_size (ring_at s1 r)) 3) as [L|L].
    - injection Eb as <- <-. split; [reflexivity|]. symmetry. apply Z.eqb_eq. apply small_area. lia.
    - rewrite (bind_run _ _ _ _ _ (area_settled fuel r s1 Sr)) in Eb. rewrite (zero_area _ _ A) in Eb. injection Eb as <- <-. split; [reflexivity|].
      destruct (Z.eqb_spec (- area2 vs) 0), (Z.eqb_spec (area2 vs) 0); lia || reflexivity. }
  destruct X as (-> & ->). clear Eb.
  assert (OS : outline_of s r vs) by (apply G1; exact O). destruct C1 as (C1 & _).
  assert (F1 : first_of s1 r <> None) by (rewrite (same_first _ _ _ C1); congruence).
  destruct (Z.eqb_spec (area2 vs) 0) as [Z|Z].
  - pose proof (remove_points_count fuel fuel r true s1 u s' E (proj1 I1) F1) as N.
    destruct (remove_points_frame fuel fuel r true s1 u s' E (proj1 I1) F1) as ((ND & _) & _).
    assert (TR : tri (fun t => well_but (fun _ => False) t /\ (forall i, ring_of t i = ring_of s1 i) /\ forall q, first_of t q = first_of s1 q)
      (remove_ring_and_points fuel fuel r false true) (fun _ t => well_but (fun _ => False) t /\ (first_of s1 r = None /\ (forall i, ring_of t i = ring_of s1 i) \/ outlive r s1 t) /\
                  forall q, q <> r -> first_of t q = first_of s1 q)) by (apply tri_remove_points; tauto).
    destruct (TR s1 u s' ltac:(split; [apply but_none; exact (proj1 I1)|auto]) E) as (_ & [(X & _)|OL] & _); [contradiction|].
    split; [rewrite N; apply C1|]. right. split; [eauto|]. intros i. rewrite <- (same_ring_of _ _ _ C1), <- (proj1 C1 i).
    destruct (opt_is (ring_of s1 i) (Some r)) eqn:OI.
    + right. split; [|rewrite OL, OI; reflexivity]. destruct (ring_of s1 i) as [k|]; [|discriminate]. cbn in OI. apply Pos.eqb_eq in OI. congruence.
    + left. apply ND. intros X. rewrite X in OI. cbn in OI. rewrite Pos.eqb_refl in OI. discriminate.
  - rewrite (bind_run _ _ _ _ _ (upd_ring_rput _ _ _)) in E.
    set (s2 := rput s1 r (fun x => x <| r_corrected := true |>)) in *.
    assert (R2 : only_ring r s1 s2 /\ (forall q, as_good s1 s2 q) /\ (settled s1 r -> settled s2 r)) by (apply rput_only; auto).
    destruct R2 as (O2 & G2 & S2). specialize (S2 Sr). assert (I2 : in_order s2) by apply O2.
    inv_bind E found s3 Ec. destruct (find_parent_finds fuel r rb s2 found s3 I2 S2 Ec) as ((H3 & _) & S3 & Q).
    assert (FIN : forall s'', same_ringed s3 s'' -> s_nnext s'' = s_nnext s /\ forall i, node_at s'' i = node_at s i).
    { intros s'' H4. pose proof (R_trans _ _ _ H3 H4) as HH. split.
      - transitivity (s_nnext s2); [apply HH|]. transitivity (s_nnext s1); [reflexivity|apply C1].
      - intros i. transitivity (node_at s2 i); [apply HH|]. transitivity (node_at s1 i); [reflexivity|apply C1]. }
    destruct found.
    + injection E as _ <-. destruct (FIN s3 (R_refl _)). auto.
    + rewrite (bind_run _ _ _ _ _ (hole_settled fuel r s3 S3)) in E.
      destruct (r_hole (ring_at s3 r)); [discriminate|].
      destruct (reassign_hangs fuel r None s3 u s' E) as ((H4 & _) & PA'). destruct (FIN s' H4). auto.
Qed.
Lemma pruned_step s0 rb r s s' fuel u : well_ringed s0 -> tree_inv s0 rb s -> ~ In r rb -> correct_tree_ring fuel rb r s = Ok (u, s') ->
  pruned s0 s -> pruned s0 s'.
Proof.
  intros W0 (I & _ & U & _) NI E (P1 & P2). destruct (tree_ring_nodes fuel rb r s u s' I E) as (N & [S|((vs & O & Z) & S)]).
  - split; [congruence|]. intros i. unfold ring_of in *. rewrite S. apply P2.
  - split; [congruence|]. intros i. destruct (S i) as [S1|(S1 & S2)].
    + unfold ring_of in *. rewrite S1. apply P2.
    + right. split; [exact S2|]. exists r, vs. split; [apply (U r NI); exact O|]. split; [exact Z|].
      destruct (P2 i) as [P|(P & _)]; [|congruence]. unfold ring_of in *. congruence.
Qed.
Lemma pruned_loop fuel s0 l : well_ringed s0 -> forall rb s u s', tree_inv s0 rb s -> NoDup (rev l ++ rb) -> correct_tree_loop fuel rb l s = Ok (u, s') ->
  pruned s0 s -> pruned s0 s'.
Proof.
  intros W0. induction l as [|r l IH]; intros rb s u s' I ND E P; cbn [correct_tree_loop] in E.
  - injection E as _ <-. exact P.
  - inv_bind E v s1 Ea. cbn [rev] in *. rewrite <- app_assoc in *. cbn [app] in *.
    pose proof (tree_ring_step fuel rb r s v s1 (proj1 I) Ea) as ST.
    assert (NI : ~ In r rb). { apply NoDup_remove_2 in ND. intros H. apply ND. rewrite in_app_iff. right. exact H. }
    apply (IH (r :: rb) s1 u s'); [apply (tree_inv_step s0 rb r s s1); assumption|exact ND|exact E|].
    apply (pruned_step s0 rb r s s1 fuel v); assumption.
Qed.
Lemma tree_pruned fuel s u s' : in_order s -> correct_tree fuel s = Ok (u, s') -> pruned s s'.
Proof.
  intros I E. unfold correct_tree in E. inv_bind E l s1 Ea. destruct (reversed_sorted_sorts fuel s l s1 I Ea) as (C & P & S).
  assert (ND : NoDup (rev l ++ [])). { rewrite app_nil_r. apply NoDup_rev. apply (Permutation_NoDup P). apply all_rings_nodup. }
  apply (pruned_loop fuel s l (proj1 I) [] s1 u s' (tree_inv_start s s1 I C) ND E).
  split; [apply (proj1 C)|]. intros i. left. apply (proj1 C).
Qed.
Lemma flat_map_split {A B} (f g h : A -> list B) l : (forall a, In a l -> f a = g a ++ h a) -> Permutation (flat_map f l) (flat_map g l ++ flat_map h l).
Proof.
  induction l as [|a l IH]; intros H; cbn [flat_map]; [reflexivity|]. rewrite (H a (or_introl eq_refl)).
  rewrite <- !app_assoc. apply Permutation_app_head. rewrite (IH (fun b Hb => H b (or_intror Hb))). apply Permutation_app_swap_app.
Qed.
Lemma tree_sides fuel s u s' : in_order s -> correct_tree fuel s = Ok (u, s') ->
  exists dropped, Permutation (sides s) (sides s' ++ dropped) /\
    forall e, In e dropped -> exists r vs, outline_of s r vs /\ area2 vs = 0 /\ In e (loop_sides vs).
Proof.
  intros I E. destruct (tree_pruned fuel s u s' I E) as (N & P).
  assert (UM : unmoved s s'). { refine (unmoved_keeps (correct_tree fuel) _ s u s' E). intros W. apply kp_correct_tree. }
  set (h := fun i => if is_none (ring_of s' i) then side_from s i else []).
  exists (flat_map h (vertex_ids s)). split.
  - unfold sides. replace (vertex_ids s') with (vertex_ids s) by (unfold vertex_ids; rewrite N; reflexivity).
    apply flat_map_split. intros i _. unfold h. destruct (ring_of s' i) as [r|] eqn:R; cbn [is_none].
    + rewrite app_nil_r. destruct (P i) as [Pi|(Pi & _)]; [|congruence]. unfold side_from. unfold ring_of. rewrite Pi.
      destruct (n_ring (node_at s i)); [|reflexivity]. destruct (n_next (node_at s i)); [|reflexivity]. rewrite UM. reflexivity.
    + unfold side_from at 2. rewrite R. reflexivity.
  - intros e H. apply in_flat_map in H as (i & _ & H). unfold h in H. destruct (ring_of s' i) as [r|] eqn:R; cbn [is_none] in H; [destruct H|].
    unfold side_from in H. destruct (ring_of s i) as [r|] eqn:R0; [|destruct H].
    destruct (P i) as [Pi|(_ & q & vs & O & Z & Q)]; [unfold ring_of in *; congruence|].
    destruct (n_next (node_at s i)) as [j|] eqn:Nj; [|destruct H]. destruct H as [<-|[]]. exists q, vs. split; [exact O|]. split; [exact Z|].
    destruct O as (n & l & Fn & C & ->). apply circle_side; [exact C| |exact Nj].
    pose proof (wr_first s (proj1 I) q n Fn) as Rn. destruct (well_at s n q (proj1 I) Rn) as (l' & C' & M).
    rewrite (circle_unique s n l l' C C'). apply M. exact Q.
Qed.
(** ** The sides of the rings of the result *)
Lemma line_sides_app l a m : line_sides (l ++ a :: m) = line_sides (l ++ [a]) ++ line_sides (a :: m).
Proof. destruct l as [|b l]; [reflexivity|]. cbn [line_sides app]. apply path_sides_app. Qed.
Lemma line_sides_rev l : line_sides (rev l) = rev (map reversed_side (line_sides l)).
Proof.
  induction l as [|a l IH]; [reflexivity|]. destruct l as [|b l]; [reflexivity|].
  cbn [rev] in *. rewrite <- app_assoc. cbn [app]. rewrite line_sides_app, IH. cbn [line_sides path_sides map rev]. reflexivity.
Qed.
Lemma chained_sides s n l e : chained s n l -> In e (path_sides (npos (node_at s n)) (vertices s l)) ->
  exists i j, In i (n :: l) /\ n_next (node_at s i) = Some j /\ e = (npos (node_at s i), npos (node_at s j)).
Proof.
  revert n. induction l as [|k l IH]; intros n C H; [destruct H|].
  destruct C as ((C1 & C2) & C). destruct H as [<-|H].
  - exists n, k. split; [left; reflexivity|auto].
  - destruct (IH k C H) as (i & j & J & N & E). exists i, j. split; [right; exact J|auto].
Qed.
Lemma vertices_app s l m : vertices s (l ++ m) = vertices s l ++ vertices s m.
Proof. apply map_app. Qed.
Lemma lap_sides s n l e : circle s (n :: l) -> (forall i, In i (n :: l) -> ring_of s i <> None /\ (i < s_nnext s)%positive) ->
  In e (line_sides (vertices s (n :: l) ++ vertices s [n])) -> In e (sides s).
Proof.
  intros (_ & C) K H. rewrite <- vertices_app in H. change (In e (path_sides (npos (node_at s n)) (vertices s (l ++ [n])))) in H.
  destruct (chained_sides s n (l ++ [n]) e C H) as (i & j & J & N & ->).
  assert (In i (n :: l)) as J'. { rewrite app_comm_cons, in_app_iff in J. destruct J as [J|[<-|[]]]; [exact J|left; reflexivity]. }
  destruct (K i J') as (R & L). unfold sides. apply in_flat_map. exists i. split; [apply in_vertex_ids; exact L|].
  unfold side_from. destruct (ring_of s i); [|congruence]. rewrite N. left. reflexivity.
Qed.
Lemma lap_sides_rev s n l e : circle s (n :: l) -> (forall i, In i (n :: l) -> ring_of s i <> None /\ (i < s_nnext s)%positive) ->
  In e (line_sides (vertices s (n :: rev l) ++ vertices s [n])) -> In (reversed_side e) (sides s).
Proof.
  intros C K H. rewrite <- vertices_app in H.
  assert (X : (n :: rev l) ++ [n] = rev ((n :: l) ++ [n])) by (rewrite rev_app_distr; cbn [rev app]; reflexivity).
  rewrite X in H. unfold vertices in H. rewrite map_rev, line_sides_rev in H. apply in_rev, in_map_iff in H as ([a b] & <- & H).
  cbn. apply (lap_sides s n l (a, b) C K). rewrite <- vertices_app. exact H.
Qed.
