(** * Operations on vertex rings: insertion, splitting, joining, statistics *)
From Coq Require Import ZArith List Bool Lia FMapPositive Permutation Reals.
From Coq Require Import Floats.SpecFloat.
From RecordUpdate Require Import RecordSet.
From Verif Require Import Py Monad Utils Geometry LinearRingM BoundM LocalMinimumM StateM
     PointNodeM RingM SweepM TopologyM HoareP SweepFrameP CalmP SpecRing LinearRingP RingEdgesP SpecHeap CircleP FloatP.
Import ListNotations RecordSetNotations.
Open Scope Z_scope.

(** ** Creating and inserting a vertex *)
Definition alloc (s : st) (r : option rid) (p : point) : st :=
  s <| s_nodes := hset (s_nodes s) (s_nnext s) (Node (px p) (py p) (Some (s_nnext s)) (Some (s_nnext s)) r) |>
    <| s_nnext := Pos.succ (s_nnext s) |>.
Definition log_node (s : st) (i : nid) : st := s <| s_all := s_all s ++ [i] |>.
Lemma node_at_alloc s r p j : node_at (alloc s r p) j =
  if Pos.eqb j (s_nnext s) then Node (px p) (py p) (Some (s_nnext s)) (Some (s_nnext s)) r else node_at s j.
Proof. unfold node_at, alloc. cbn. rewrite hget_hset, Pos.eqb_sym. reflexivity. Qed.
Lemma node_at_log s i j : node_at (log_node s i) j = node_at s j. Proof. reflexivity. Qed.
Lemma create_alone_run s r p : create_point_node r p None s =
  Ok (s_nnext s, log_node (alloc s r p) (s_nnext s)).
Proof. reflexivity. Qed.
Lemma create_before_run s r p o : create_point_node r p (Some o) s =
  match place_before (s_nnext s) o (alloc s r p) with
  | Ok (_, s2) => Ok (s_nnext s, log_node s2 (s_nnext s))
  | Raise e => Raise e
  | NoFuel => NoFuel
  end.
Proof.
  unfold create_point_node. unfold bind at 1, get at 1. cbv zeta. unfold bind at 1, modify at 1.
  unfold bind at 1. fold (alloc s r p). destruct (place_before (s_nnext s) o (alloc s r p)) as [[[] s2]|e|]; reflexivity.
Qed.
Definition placed (s : st) (i o q : nid) : st :=
  sprev (snext (sprev (snext s i (Some o)) i (Some q)) q (Some i)) o (Some i).
Lemma place_before_run s i o q : i <> o -> n_prev (node_at s o) = Some q -> place_before i o s = Ok (tt, placed s i o q).
Proof.
  intros N H. unfold place_before. rewrite (bind_run _ _ _ _ _ (nd_run s o)).
  rewrite (bind_run _ _ _ _ _ (set_next_s _ _ _)), (bind_run _ _ _ _ _ (set_prev_s _ _ _)).
  rewrite (bind_run _ _ _ q (sprev (snext s i (Some o)) i (n_prev (node_at s o)))).
  - rewrite H. rewrite (bind_run _ _ _ _ _ (set_next_s _ _ _)). reflexivity.
  - apply prev_of_run. rewrite prev_sprev, Pos.eqb_refl. exact H.
Qed.
(** inserting a fresh vertex in front of [o] *)
Lemma create_before_circle s r p o l : circle s (o :: l) -> allocated s (o :: l) ->
  exists s', create_point_node r p (Some o) s = Ok (s_nnext s, s') /\
    circle s' (o :: l ++ [s_nnext s]) /\
    npos (node_at s' (s_nnext s)) = p /\ n_ring (node_at s' (s_nnext s)) = r /\
    (forall j, j <> s_nnext s -> same_vertex (node_at s j) (node_at s' j)) /\
    only_vertices (s_nnext s :: o :: l) s s' /\
    s' = s <| s_nodes := s_nodes s' |> <| s_nnext := Pos.succ (s_nnext s) |> <| s_all := s_all s ++ [s_nnext s] |>.
Proof.
  intros C A. rewrite create_before_run. set (i := s_nnext s).
  assert (F : forall j, In j (o :: l) -> j <> i).
  { intros j Hj ->. unfold allocated in A. rewrite Forall_forall in A. specialize (A _ Hj). unfold i in A. lia. }
  pose proof (circle_last _ _ _ C) as (L1 & L2). set (q := List.last l o) in *.
  assert (Iq : In q (o :: l)) by apply last_in. pose proof C as (N & CH).
  assert (AT : forall j, j <> i -> node_at (alloc s r p) j = node_at s j).
  { intros j Hj. rewrite node_at_alloc. fold i. apply Pos.eqb_neq in Hj. rewrite Hj. reflexivity. }
  assert (ATi : node_at (alloc s r p) i = Node (px p) (py p) (Some i) (Some i) r).
  { rewrite node_at_alloc. fold i. rewrite Pos.eqb_refl. reflexivity. }
  rewrite (place_before_run _ i o q); [|apply not_eq_sym, F; left; reflexivity|rewrite AT by (apply F; left; reflexivity); exact L2].
  set (s1 := alloc s r p) in *. set (s2 := placed s1 i o q).
  assert (Hn : forall j, n_next (node_at s2 j) = if Pos.eqb j q then Some i else if Pos.eqb j i then Some o else n_next (node_at s1 j)).
  { intros j. unfold s2, placed. rewrite ?next_sprev, ?next_snext, ?next_sprev, ?next_snext. reflexivity. }
  assert (Hp : forall j, n_prev (node_at s2 j) = if Pos.eqb j o then Some i else if Pos.eqb j i then Some q else n_prev (node_at s1 j)).
  { intros j. unfold s2, placed. rewrite ?prev_sprev, ?prev_snext, ?prev_sprev, ?prev_snext. reflexivity. }
  assert (SV : same_vertices s1 s2).
  { unfold s2, placed. eapply same_vertices_trans; [|apply same_sprev]. eapply same_vertices_trans; [|apply same_snext].
    eapply same_vertices_trans; [|apply same_sprev]. apply same_snext. }
  assert (SB : same_but_nodes s1 s2).
  { unfold s2, placed. eapply same_but_nodes_trans; [|apply sbn_sprev]. eapply same_but_nodes_trans; [|apply sbn_snext].
    eapply same_but_nodes_trans; [|apply sbn_sprev]. apply sbn_snext. }
  exists (log_node s2 i). split; [reflexivity|]. split; [|split; [|split; [|split; [|split]]]].
  - assert (Lqi : linked s2 q i).
    { split; [rewrite Hn, Pos.eqb_refl; reflexivity|]. rewrite Hp. destruct (Pos.eqb_spec i o) as [E|_]; [destruct (F o (or_introl eq_refl)); auto|].
      rewrite Pos.eqb_refl. reflexivity. }
    assert (Lio : linked s2 i o).
    { split; [|rewrite Hp, Pos.eqb_refl; reflexivity]. rewrite Hn. destruct (Pos.eqb_spec i q) as [E|_]; [destruct (F q Iq); auto|].
      rewrite Pos.eqb_refl. reflexivity. }
    apply (circle_frame s2); [intros; split; reflexivity|]. split.
    + change (NoDup ((o :: l) ++ [i])). apply nodup_app. split; [exact N|]. split; [constructor; [intros []|constructor]|].
      intros j Hj [<-|[]]. exact (F _ Hj eq_refl).
    + rewrite <- app_assoc. cbn [app]. apply chained_app. split; [|split; [exact Lio|exact I]].
      apply chain_redirect with (s := s) (b := o); auto.
      * intros j Hj. rewrite Hp. destruct (Pos.eqb_spec j o) as [->|_]; [inversion N; contradiction|].
        destruct (Pos.eqb_spec j i) as [E|_]; [destruct (F j (or_intror Hj) E)|]. rewrite AT; [reflexivity|]. apply F. right. exact Hj.
      * intros j Hj Nj. rewrite Hn. destruct (Pos.eqb_spec j q) as [E|_]; [contradiction|].
        destruct (Pos.eqb_spec j i) as [E|_]; [destruct (F j Hj E)|]. rewrite AT; [reflexivity|]. apply F. exact Hj.
  - destruct (SV i) as (X & Y & _). rewrite ATi in X, Y. cbn in X, Y. unfold npos. rewrite node_at_log, X, Y. destruct p; reflexivity.
  - destruct (SV i) as (_ & _ & X). rewrite ATi in X. exact X.
  - intros j Hj. rewrite <- (AT j Hj). apply SV.
  - intros j Hj. rewrite node_at_log. unfold s2, placed, sprev, snext.
    assert (Nj : i <> j /\ o <> j /\ q <> j).
    { repeat split; intros ->; apply Hj; [left; reflexivity|right; left; reflexivity|right; exact Iq]. }
    destruct Nj as (J1 & J2 & J3). rewrite !node_at_put_neq by assumption. apply AT. auto.
  - rewrite SB. unfold log_node, s1, alloc. destruct s; reflexivity.
Qed.
Lemma create_alone_circle s r p :
  exists s', create_point_node r p None s = Ok (s_nnext s, s') /\ circle s' [s_nnext s] /\
    npos (node_at s' (s_nnext s)) = p /\ n_ring (node_at s' (s_nnext s)) = r /\
    only_vertices [s_nnext s] s s'.
Proof.
  rewrite create_alone_run. eexists. split; [reflexivity|].
  assert (E : node_at (log_node (alloc s r p) (s_nnext s)) (s_nnext s) = Node (px p) (py p) (Some (s_nnext s)) (Some (s_nnext s)) r).
  { rewrite node_at_log, node_at_alloc, Pos.eqb_refl. reflexivity. }
  split; [|split; [|split]].
  - split; [constructor; [intros []|constructor]|]. cbn [app chained]. unfold linked. rewrite !E. auto.
  - rewrite E. destruct p; reflexivity.
  - rewrite E. reflexivity.
  - intros j Hj. rewrite node_at_log, node_at_alloc. destruct (Pos.eqb_spec j (s_nnext s)) as [->|_]; [destruct Hj; left; reflexivity|reflexivity].
Qed.

(** ** Exchanging the successors of two vertices *)
Lemma switch_nexts_run s a b an bn : n_next (node_at s a) = Some an -> n_next (node_at s b) = Some bn ->
  switch_nexts a b s = Ok (tt, sprev (sprev (snext (snext s a (Some bn)) b (Some an)) an (Some b)) bn (Some a)).
Proof.
  intros Ha Hb. unfold switch_nexts.
  rewrite (bind_run _ _ _ _ _ (next_of_run _ _ _ Ha)), (bind_run _ _ _ _ _ (next_of_run _ _ _ Hb)).
  rewrite (bind_run _ _ _ _ _ (set_next_s _ _ _)), (bind_run _ _ _ _ _ (set_next_s _ _ _)), (bind_run _ _ _ _ _ (set_prev_s _ _ _)).
  apply set_prev_s.
Qed.
(** two rings become one *)
Lemma switch_nexts_merge s a l1 b l2 : circle s (a :: l1) -> circle s (b :: l2) ->
  (forall i, In i (a :: l1) -> ~ In i (b :: l2)) ->
  exists s', switch_nexts a b s = Ok (tt, s') /\ circle s' (a :: l2 ++ b :: l1) /\
    same_vertices s s' /\ same_but_nodes s s' /\ only_vertices (a :: l1 ++ b :: l2) s s'.
Proof.
  intros C1 C2 D.
  (* start both circles at the successors *)
  assert (S1 : exists an m1, l1 ++ [a] = an :: m1 /\ List.last m1 an = a /\ n_next (node_at s a) = Some an).
  { destruct C1 as (_ & C1). destruct l1 as [|x l1]; cbn [app] in *.
    - exists a, []. repeat split; auto. apply C1.
    - exists x, (l1 ++ [a]). repeat split; [apply last_last|]. apply C1. }
  assert (S2 : exists bn m2, l2 ++ [b] = bn :: m2 /\ List.last m2 bn = b /\ n_next (node_at s b) = Some bn).
  { destruct C2 as (_ & C2). destruct l2 as [|x l2]; cbn [app] in *.
    - exists b, []. repeat split; auto. apply C2.
    - exists x, (l2 ++ [b]). repeat split; [apply last_last|]. apply C2. }
  destruct S1 as (an & m1 & E1 & La & Na). destruct S2 as (bn & m2 & E2 & Lb & Nb).
  rewrite (switch_nexts_run _ _ _ _ _ Na Nb). eexists. split; [reflexivity|].
  pose proof (circle_rotate s [a] l1 C1) as C1'. rewrite E1 in C1'.
  pose proof (circle_rotate s [b] l2 C2) as C2'. rewrite E2 in C2'.
  assert (I1 : forall i, In i (an :: m1) <-> In i (a :: l1)).
  { intros i. rewrite <- E1. rewrite in_app_iff. cbn. tauto. }
  assert (I2 : forall i, In i (bn :: m2) <-> In i (b :: l2)).
  { intros i. rewrite <- E2. rewrite in_app_iff. cbn. tauto. }
  assert (Nab : a <> b) by (intros ->; apply (D b); left; reflexivity).
  assert (Nbn : bn <> an).
  { intros E. apply (D an); [apply I1; left; reflexivity|apply I2; left; exact E]. }
  pose proof (relinked_nnpp s a bn b an Nab Nbn) as R.
  assert (M : circle (sprev (sprev (snext (snext s a (Some bn)) b (Some an)) an (Some b)) bn (Some a)) ((an :: m1) ++ bn :: m2)).
  { apply circle_merge with (s := s); auto.
    - intros i Hi Hj. apply (D i); [apply I1; exact Hi|apply I2; exact Hj].
    - rewrite La, Lb. exact R. }
  split; [|split; [|split]].
  - rewrite <- E1, <- E2 in M. rewrite <- app_assoc in M. cbn [app] in M.
    apply circle_rotate in M. cbn [app] in M. rewrite <- app_assoc in M. exact M.
  - apply R.
  - apply R.
  - intros i Hi. unfold sprev, snext.
    assert (Ni : i <> a /\ i <> b /\ i <> an /\ i <> bn).
    { repeat split; intros E; subst i; apply Hi.
      - left. reflexivity.
      - right. apply in_or_app. right. left. reflexivity.
      - destruct (proj1 (I1 an) (or_introl eq_refl)) as [H|H]; [left; exact H|right; apply in_or_app; left; exact H].
      - right. apply in_or_app. right. apply I2. left. reflexivity. }
    destruct Ni as (A1 & A2 & A3 & A4). rewrite !node_at_put_neq by auto. reflexivity.
Qed.
(** one ring becomes two *)
Lemma switch_nexts_split s a l1 b l2 : circle s (a :: l1 ++ b :: l2) ->
  exists s', switch_nexts a b s = Ok (tt, s') /\ circle s' (a :: l2) /\ circle s' (b :: l1) /\
    same_vertices s s' /\ same_but_nodes s s' /\ only_vertices (a :: l1 ++ b :: l2) s s'.
Proof.
  intros C.
  (* the circle started at the successor of a: l1 ++ [b] and l2 ++ [a] *)
  assert (C' : circle s ((l1 ++ [b]) ++ (l2 ++ [a]))).
  { pose proof (circle_rotate s [a] (l1 ++ b :: l2) C) as H. rewrite <- !app_assoc in *. exact H. }
  assert (S1 : exists an m1, l1 ++ [b] = an :: m1 /\ List.last m1 an = b).
  { destruct l1 as [|x l1]; cbn [app]; [exists b, []|exists x, (l1 ++ [b])]; repeat split. apply last_last. }
  assert (S2 : exists bn m2, l2 ++ [a] = bn :: m2 /\ List.last m2 bn = a).
  { destruct l2 as [|x l2]; cbn [app]; [exists a, []|exists x, (l2 ++ [a])]; repeat split. apply last_last. }
  destruct S1 as (an & m1 & E1 & Lb). destruct S2 as (bn & m2 & E2 & La). rewrite E1, E2 in C'.
  pose proof C' as (ND & CH). cbn [app] in CH. rewrite <- app_assoc in CH. cbn [app] in CH. apply chained_app in CH as (CH1 & CH2).
  apply chained_last in CH1. rewrite Lb in CH1. apply chained_last in CH2. rewrite La in CH2.
  rewrite (switch_nexts_run _ _ _ _ _ (proj1 CH2) (proj1 CH1)). eexists. split; [reflexivity|].
  destruct (proj1 (nodup_app (an :: m1) (bn :: m2)) ND) as (N1 & N2 & D).
  assert (Ib : In b (an :: m1)) by (rewrite <- Lb; apply last_in).
  assert (Ia : In a (bn :: m2)) by (rewrite <- La; apply last_in).
  assert (Nab : a <> b) by (intros ->; exact (D b Ib Ia)).
  assert (Nn : bn <> an) by (intros ->; apply (D an); left; reflexivity).
  pose proof (relinked_nnpp s a bn b an Nab Nn) as R.
  destruct (circle_split s _ an m1 bn m2 C' ltac:(rewrite Lb, La; apply relinked_swap; [exact Nab|exact Nn|exact R])) as (K1 & K2).
  rewrite <- E1 in K1. rewrite <- E2 in K2. split; [|split; [|split; [|split]]].
  - apply (circle_rotate _ l2 [a]). exact K2.
  - apply (circle_rotate _ l1 [b]). exact K1.
  - apply R.
  - apply R.
  - intros i Hi. unfold sprev, snext.
    assert (J : forall j, In j (an :: m1) \/ In j (bn :: m2) -> i <> j).
    { intros j Hj ->. apply Hi. rewrite <- E1, <- E2 in Hj. rewrite !in_app_iff in Hj. cbn in *. rewrite in_app_iff. cbn. tauto. }
    rewrite !node_at_put_neq; [reflexivity| | | | ]; apply not_eq_sym, J; auto; [left|right]; left; reflexivity.
Qed.
