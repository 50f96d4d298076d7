(** * Cutting and joining vertex rings *)
From Coq Require Import ZArith List Bool Lia FMapPositive Permutation Reals Lra.
From Coq Require Import Floats.SpecFloat.
From RecordUpdate Require Import RecordSet.
From Flocq Require Import Core.
From Verif Require Import Py Monad Utils Geometry LinearRingM BoundM LocalMinimumM StateM
     PointNodeM RingM TopologyM SweepM HoareP SweepFrameP CalmP SpecRing LinearRingP RingEdgesP SpecHeap FloatP CircleP HeapOpsP StatsP.
Import ListNotations RecordSetNotations.
Open Scope Z_scope.

(** ** Visiting every vertex of a ring to set its owner *)
Definition own_node (r : rid) (n : node) : node := n <| n_ring := Some r |>.
Definition owned (r : rid) (m : list nid) (s s' : st) : Prop :=
  (forall i, In i m -> node_at s' i = own_node r (node_at s i)) /\ only_vertices m s s'.
Definition own_body (r : rid) (start : nid) (cursor : option nid) :=
  bind (deref cursor) (fun c =>
  bind (set_nring c (Some r)) (fun _ => bind (nd c) (fun n =>
    ret (if opt_is (n_next n) (Some start) then inr tt else inl (n_next n))))).
Lemma own_loop r start fuel : forall rest c s,
  dpath n_next s c rest start -> NoDup (c :: rest) -> ~ In start rest -> (length rest < fuel)%nat ->
  exists s', loopM fuel (own_body r start) (Some c) s = Ok (tt, s') /\ owned r (c :: rest) s s' /\ same_but_nodes s s'.
Proof.
  induction fuel as [|fuel IH]; intros rest c s H ND N L; [lia|]. cbn [loopM]. unfold bind at 1.
  replace (own_body r start (Some c) s) with
    (Ok (if opt_is (n_next (node_at (put s c (own_node r)) c)) (Some start) then inr tt else inl (n_next (node_at (put s c (own_node r)) c)),
         put s c (own_node r))) by reflexivity.
  rewrite node_at_put_eq. change (n_next (own_node r (node_at s c))) with (n_next (node_at s c)).
  destruct rest as [|d rest]; cbn [dpath] in H.
  - rewrite H. cbn [opt_is]. rewrite Pos.eqb_refl. eexists. split; [reflexivity|]. split; [split|].
    + intros i [<-|[]]. apply node_at_put_eq.
    + intros i Hi. apply node_at_put_neq. intros ->. apply Hi. left. reflexivity.
    + apply same_but_nodes_put.
  - destruct H as (E & H). rewrite E. cbn [opt_is]. destruct (Pos.eqb_spec d start) as [->|Nd]; [destruct N; left; reflexivity|].
    inversion ND as [|? ? Hc ND']. subst.
    destruct (IH rest d (put s c (own_node r))) as (s' & E' & (F & O) & SB).
    + revert H. apply dpath_frame. intros i Hi. rewrite node_at_put_neq; [reflexivity|]. intros ->. contradiction.
    + exact ND'.
    + intros I. apply N. right. exact I.
    + cbn in L. lia.
    + exists s'. split; [exact E'|]. split; [split|].
      * intros i [<-|Hi].
        { rewrite O by exact Hc. apply node_at_put_eq. }
        { rewrite F by exact Hi. rewrite node_at_put_neq; [reflexivity|]. intros ->. contradiction. }
      * intros i Hi. rewrite O by (intros I; apply Hi; right; exact I). apply node_at_put_neq. intros ->. apply Hi. left. reflexivity.
      * eapply same_but_nodes_trans; [apply same_but_nodes_put|exact SB].
Qed.
Lemma owned_next r m s s' i : owned r m s s' -> n_next (node_at s' i) = n_next (node_at s i) /\ n_prev (node_at s' i) = n_prev (node_at s i) /\ npos (node_at s' i) = npos (node_at s i).
Proof.
  intros (F & O). destruct (in_dec Pos.eq_dec i m) as [H|H]; [rewrite F by exact H; repeat split|rewrite O by exact H; auto].
Qed.
Lemma update_points_circle s r a l fuel : circle s (a :: l) -> r_node (ring_at s r) = Some a -> (length (a :: l) <= fuel)%nat ->
  exists s', update_points fuel r s = Ok (tt, s') /\ owned r (a :: l) s s' /\ same_but_nodes s s'.
Proof.
  intros (N & C) R L. inversion N. subst. unfold update_points. unfold bind at 1, rg, gets. fold (ring_at s r). rewrite R.
  apply (own_loop r a fuel l a s); auto. apply dpath_next. exact C.
Qed.

(** ** Ring records *)
Definition rput (s : st) (r : rid) (f : ring -> ring) : st := s <| s_rings := hset (s_rings s) r (f (ring_at s r)) |>.
Lemma upd_ring_rput r f s : upd_ring r f s = Ok (tt, rput s r f). Proof. reflexivity. Qed.
Lemma ring_at_rput s r f q : ring_at (rput s r f) q = if Pos.eqb r q then f (ring_at s r) else ring_at s q.
Proof. unfold ring_at, rput. cbn. apply hget_hset. Qed.
Lemma node_at_rput s r f i : node_at (rput s r f) i = node_at s i. Proof. reflexivity. Qed.
Lemma rg_run s r : rg r s = Ok (ring_at s r, s). Proof. reflexivity. Qed.
Definition alloc_ring (s : st) : st := s <| s_rings := hset (s_rings s) (s_rnext s) new_ring |> <| s_rnext := Pos.succ (s_rnext s) |>.
Lemma create_ring_run s : create_ring s = Ok (s_rnext s, alloc_ring s). Proof. reflexivity. Qed.
Lemma ring_at_alloc s r : ring_at (alloc_ring s) r = if Pos.eqb (s_rnext s) r then new_ring else ring_at s r.
Proof. unfold ring_at, alloc_ring. cbn. apply hget_hset. Qed.

(** ** Areas *)
Lemma f_abs_val f : val (f_abs f) = Rabs (val f).
Proof.
  destruct f as [s|s| |s m e]; try (cbn; rewrite Rabs_R0; reflexivity).
  change (F2R (Float radix2 (Zpos m) e) = Rabs (F2R (Float radix2 (cond_Zopp s (Zpos m)) e))).
  rewrite <- F2R_Zabs. destruct s; reflexivity.
Qed.
Lemma f_abs_good f : good f -> good (f_abs f).
Proof. destruct f; intros (V & F); try discriminate; split; auto. Qed.
Lemma f_abs_gt f g : good f -> good g -> num_gtb (NF (f_abs f)) (NF (f_abs g)) = Rlt_bool (Rabs (val g)) (Rabs (val f)).
Proof.
  intros F G. unfold num_gtb. rewrite num_ltb_spec by (apply f_abs_good; assumption). cbn [numval]. rewrite !f_abs_val. reflexivity.
Qed.
(** cutting a closed chain at two coincident vertices *)
Lemma area2_split p l1 q l2 : p = q -> area2 (p :: l1) + area2 (q :: l2) = area2 (p :: l1 ++ q :: l2).
Proof.
  intros <-. change (csum cross (p :: l1) + csum cross (p :: l2) = csum cross (p :: l1 ++ p :: l2)). rewrite !csum_cons.
  rewrite <- app_assoc. cbn [app]. change (p :: l1 ++ p :: l2 ++ [p]) with ((p :: l1) ++ p :: (l2 ++ [p])).
  rewrite (psum_app cross (p :: l1) p (l2 ++ [p])). reflexivity.
Qed.
(** ** Storing statistics *)
Definition with_stats (t : stats) (x : ring) : ring :=
  x <| r_area := st_area t |> <| r_size := st_size t |> <| r_box := st_box t |> <| r_hole := area_is_hole (st_area t) |>.
Definition stats_of (s : st) (l : list nid) (t : stats) : Prop :=
  st_size t = length l /\ tight_box (vertices s l) (st_box t) /\ int_truediv (- area2 (vertices s l)) 2 = Ok (st_area t).
Lemma measured_with s r l t x : stats_of s l t -> ring_at s r = with_stats t x -> measured s r l.
Proof.
  intros (H1 & H2 & H3) E. unfold measured. rewrite E. cbn. split; [exact H1|split; [exact H2|split; [exact H3|]]].
  rewrite (area_sign _ _ H3). destruct (Z.leb_spec 0 (area2 (vertices s l))), (Z.leb_spec (- area2 (vertices s l)) 0); try reflexivity; lia.
Qed.
Lemma node_stats_ok s a l fuel f : circle s (a :: l) -> (length (a :: l) <= fuel)%nat ->
  int_truediv (- area2 (vertices s (a :: l))) 2 = Ok f ->
  exists t, node_stats fuel a s = Ok (t, s) /\ stats_of s (a :: l) t /\ st_area t = f.
Proof.
  intros C L E. destruct (node_stats_circle s a l fuel C L) as (b & T & R). rewrite E in R.
  exists (Stats f (length (a :: l)) b). split; [exact R|]. split; [|reflexivity]. split; [reflexivity|]. split; [exact T|exact E].
Qed.
Lemma vertices_same s s' l : (forall i, npos (node_at s' i) = npos (node_at s i)) -> vertices s' l = vertices s l.
Proof. intros H. unfold vertices. apply map_ext. intros i. apply H. Qed.
Lemma stats_of_same s s' l t : (forall i, npos (node_at s' i) = npos (node_at s i)) -> stats_of s l t -> stats_of s' l t.
Proof. intros H. unfold stats_of. rewrite (vertices_same s s' l H). auto. Qed.
Lemma same_vertices_npos s s' i : same_vertices s s' -> npos (node_at s' i) = npos (node_at s i).
Proof. intros H. destruct (H i) as (X & Y & _). unfold npos. rewrite X, Y. reflexivity. Qed.

Lemma ring_at_sbn s s' q : same_but_nodes s s' -> ring_at s' q = ring_at s q.
Proof. intros H. unfold ring_at. rewrite H. destruct s. reflexivity. Qed.

(** [correct_self_intersection] *)
Theorem split_circle s i l1 j l2 r fuel f1 f2 :
  circle s (i :: l1 ++ j :: l2) -> n_ring (node_at s i) = Some r -> n_ring (node_at s j) = Some r ->
  (r < s_rnext s)%positive -> (length (i :: l1 ++ j :: l2) <= fuel)%nat ->
  int_truediv (- area2 (vertices s (i :: l1))) 2 = Ok f1 -> int_truediv (- area2 (vertices s (j :: l2))) 2 = Ok f2 ->
  exists s' keep new, correct_self_intersection fuel i j s = Ok (Some (s_rnext s), s') /\
    circle s' (i :: l1) /\ circle s' (j :: l2) /\
    (keep = i :: l1 /\ new = j :: l2 \/ keep = j :: l2 /\ new = i :: l1) /\
    r_node (ring_at s' r) = Some (hd i keep) /\ measured s' r keep /\
    r_node (ring_at s' (s_rnext s)) = Some (hd i new) /\ measured s' (s_rnext s) new /\
    owned_by s' (s_rnext s) new /\
    (forall k, ~ In k new -> n_ring (node_at s' k) = n_ring (node_at s k)) /\
    (forall k, npos (node_at s' k) = npos (node_at s k)) /\
    only_vertices (i :: l1 ++ j :: l2) s s' /\
    (forall q, q <> r -> q <> s_rnext s -> ring_at s' q = ring_at s q) /\
    r_parent (ring_at s' r) = r_parent (ring_at s r) /\ r_children (ring_at s' r) = r_children (ring_at s r) /\
    r_parent (ring_at s' (s_rnext s)) = None /\ r_children (ring_at s' (s_rnext s)) = [] /\
    (Rabs (val (r_area (ring_at s' (s_rnext s)))) <= Rabs (val (r_area (ring_at s' r))))%R.
Proof.
  intros C Ri Rj Lr Lf A1 A2.
  pose proof (circle_last s i (l1 ++ j :: l2) C) as Li. 
  assert (El : List.last (l1 ++ j :: l2) i = List.last l2 j).
  { destruct l2 as [|z l2 _] using rev_ind; [rewrite last_last; reflexivity|].
    rewrite app_comm_cons, app_assoc, !last_last. reflexivity. }
  rewrite El in Li.
  assert (Lj : linked s (List.last l1 i) j).
  { destruct C as (_ & CH). rewrite <- app_assoc in CH. cbn [app] in CH. apply chained_app in CH as (CH & _). apply chained_last in CH. exact CH. }
  set (third := List.last l2 j) in *. set (fourth := List.last l1 i) in *.
  assert (N : NoDup ((i :: l1) ++ j :: l2)) by exact (circle_nodup _ _ C).
  destruct (proj1 (nodup_app (i :: l1) (j :: l2)) N) as (N1 & N2 & D).
  assert (N43 : fourth <> third) by (intros E; apply (D fourth); [apply last_in|rewrite E; apply last_in]).
  assert (Nij : i <> j) by (intros E; apply (D i); [left; reflexivity|rewrite E; left; reflexivity]).
  pose proof (relinked_pnpn s fourth i third j N43 Nij) as RL.
  set (s1 := snext (sprev (snext (sprev s i (Some fourth)) fourth (Some i)) j (Some third)) third (Some j)) in *.
  destruct (circle_split s s1 i l1 j l2 C RL) as (C1 & C2).
  assert (SV : same_vertices s s1) by apply RL. assert (SB : same_but_nodes s s1) by apply RL.
  assert (P1 : forall k, npos (node_at s1 k) = npos (node_at s k)) by (intros k; apply same_vertices_npos; exact SV).
  set (new := s_rnext s).
  assert (En : s_rnext s1 = new) by (rewrite SB; destruct s; reflexivity).
  assert (Rs : s_rings s1 = s_rings s) by (rewrite SB; destruct s; reflexivity).
  set (s2 := alloc_ring s1).
  assert (C1' : circle s2 (i :: l1)) by (revert C1; apply circle_frame; intros; split; reflexivity).
  assert (C2' : circle s2 (j :: l2)) by (revert C2; apply circle_frame; intros; split; reflexivity).
  assert (P2 : forall k, npos (node_at s2 k) = npos (node_at s k)) by (intros k; rewrite <- P1; reflexivity).
  assert (L1 : (length (i :: l1) <= fuel)%nat) by (cbn in *; rewrite app_length in Lf; cbn in Lf; lia).
  assert (L2 : (length (j :: l2) <= fuel)%nat) by (cbn in *; rewrite app_length in Lf; cbn in Lf; lia).
  destruct (node_stats_ok s2 i l1 fuel f1 C1' L1) as (t1 & St1 & T1 & F1); [rewrite (vertices_same s s2) by exact P2; exact A1|].
  destruct (node_stats_ok s2 j l2 fuel f2 C2' L2) as (t2 & St2 & T2 & F2); [rewrite (vertices_same s s2) by exact P2; exact A2|].
  assert (G1 : good f1). { destruct (truediv_cases (- area2 (vertices s (i :: l1))) 2) as [(f & E & G)|E]; [lia| |]; congruence. }
  assert (G2 : good f2). { destruct (truediv_cases (- area2 (vertices s (j :: l2))) 2) as [(f & E & G)|E]; [lia| |]; congruence. }
  (* run up to the choice *)
  set (fin := fun (a : nid) (ta : stats) (b : nid) (tb : stats) =>
    rput (rput (rput (rput s2 r (fun x => x <| r_node := Some a |>)) r (with_stats ta)) new (fun x => x <| r_node := Some b |>)) new (with_stats tb)).
  assert (RUN : correct_self_intersection fuel i j s =
    bind (update_points fuel new) (fun _ => ret (Some new))
      (if num_gtb (NF (f_abs (st_area t1))) (NF (f_abs (st_area t2))) then fin i t1 j t2 else fin j t2 i t1)).
  { unfold correct_self_intersection. rewrite (bind_run _ _ _ _ _ (nd_run s i)), (bind_run _ _ _ _ _ (nd_run s j)).
    rewrite Ri, Rj. cbn [opt_is]. rewrite Pos.eqb_refl. cbn [negb].
    rewrite (bind_run _ _ _ r s) by reflexivity.
    rewrite (bind_run _ _ _ _ _ (prev_of_run _ _ _ (proj2 Li))), (bind_run _ _ _ _ _ (prev_of_run _ _ _ (proj2 Lj))).
    rewrite (bind_run _ _ _ _ _ (set_prev_s _ _ _)), (bind_run _ _ _ _ _ (set_next_s _ _ _)),
      (bind_run _ _ _ _ _ (set_prev_s _ _ _)), (bind_run _ _ _ _ _ (set_next_s _ _ _)). fold s1.
    rewrite (bind_run _ _ _ _ _ (create_ring_run s1)). fold s2. rewrite En.
    rewrite (bind_run _ _ _ _ _ St1), (bind_run _ _ _ _ _ St2).
    destruct (num_gtb _ _); reflexivity. }
  assert (Nr : r <> new) by (intros E; unfold new in E; lia).
  assert (FIN : forall a la ta b lb tb, stats_of s2 (a :: la) ta -> stats_of s2 (b :: lb) tb -> circle s2 (a :: la) -> circle s2 (b :: lb) ->
     (length (b :: lb) <= fuel)%nat -> incl (b :: lb) (i :: l1 ++ j :: l2) ->
     (Rabs (val (st_area tb)) <= Rabs (val (st_area ta)))%R ->
     exists s', bind (update_points fuel new) (fun _ => ret (Some new)) (fin a ta b tb) = Ok (Some new, s') /\
       (forall k, n_next (node_at s' k) = n_next (node_at s2 k) /\ n_prev (node_at s' k) = n_prev (node_at s2 k)) /\
       r_node (ring_at s' r) = Some a /\ measured s' r (a :: la) /\
       r_node (ring_at s' new) = Some b /\ measured s' new (b :: lb) /\ owned_by s' new (b :: lb) /\
       (forall k, ~ In k (b :: lb) -> n_ring (node_at s' k) = n_ring (node_at s k)) /\
       (forall k, npos (node_at s' k) = npos (node_at s k)) /\
       only_vertices (i :: l1 ++ j :: l2) s s' /\
       (forall q, q <> r -> q <> new -> ring_at s' q = ring_at s q) /\
       r_parent (ring_at s' r) = r_parent (ring_at s r) /\ r_children (ring_at s' r) = r_children (ring_at s r) /\
       r_parent (ring_at s' new) = None /\ r_children (ring_at s' new) = [] /\
       (Rabs (val (r_area (ring_at s' new))) <= Rabs (val (r_area (ring_at s' r))))%R).
  { intros a la ta b lb tb Ta Tb Ca Cb Lb In0 AR.
    assert (Q : forall q, ring_at (fin a ta b tb) q = if Pos.eqb new q then with_stats tb (new_ring <| r_node := Some b |>)
                 else if Pos.eqb r q then with_stats ta ((ring_at s r) <| r_node := Some a |>) else ring_at s q).
    { intros q. unfold fin. repeat rewrite ring_at_rput. rewrite !Pos.eqb_refl. 
      assert (E1 : Pos.eqb r new = false) by (apply Pos.eqb_neq; exact Nr). rewrite !E1.
      assert (E3 : Pos.eqb new r = false) by (apply Pos.eqb_neq; auto). 
      assert (E4 : ring_at s2 new = new_ring) by (unfold s2; rewrite ring_at_alloc, En, Pos.eqb_refl; reflexivity).
      assert (E5 : ring_at s2 r = ring_at s r) by (unfold s2; rewrite ring_at_alloc, En, E3; unfold ring_at; rewrite Rs; reflexivity).
      rewrite E4, E5. destruct (Pos.eqb_spec new q) as [->|Nq]; [reflexivity|]. destruct (Pos.eqb_spec r q); [reflexivity|].
      unfold s2. rewrite ring_at_alloc, En. destruct (Pos.eqb_spec new q); [contradiction|]. unfold ring_at. rewrite Rs. reflexivity. }
    destruct (update_points_circle (fin a ta b tb) new b lb fuel) as (s' & E & OW & SB').
    - revert Cb. apply circle_frame. intros; split; reflexivity.
    - rewrite Q, Pos.eqb_refl. reflexivity.
    - exact Lb.
    - assert (Rq : forall q, ring_at s' q = ring_at (fin a ta b tb) q) by (intros q; apply ring_at_sbn; exact SB').
      assert (PP : forall k, npos (node_at s' k) = npos (node_at s2 k)) by (intros k; destruct (owned_next _ _ _ _ k OW) as (_ & _ & H); exact H).
      exists s'. split; [rewrite (bind_run _ _ _ _ _ E); reflexivity|].
      assert (Qr : ring_at s' r = with_stats ta ((ring_at s r) <| r_node := Some a |>)).
      { rewrite Rq, Q, Pos.eqb_refl. destruct (Pos.eqb_spec new r); [congruence|reflexivity]. }
      assert (Qn : ring_at s' new = with_stats tb (new_ring <| r_node := Some b |>)).
      { rewrite Rq, Q, Pos.eqb_refl. reflexivity. }
      split. { intros k. destruct (owned_next _ _ _ _ k OW) as (H1 & H2 & _). split; [exact H1|exact H2]. }
      split; [rewrite Qr; reflexivity|]. split.
      { eapply measured_with; [|exact Qr]. revert Ta. apply stats_of_same. exact PP. }
      split; [rewrite Qn; reflexivity|]. split.
      { eapply measured_with; [|exact Qn]. revert Tb. apply stats_of_same. exact PP. }
      split. { apply Forall_forall. intros k Hk. destruct OW as (F & _). rewrite F by exact Hk. reflexivity. }
      split. { intros k Hk. destruct OW as (_ & O). rewrite O by exact Hk. change (node_at (fin a ta b tb) k) with (node_at s1 k).
        destruct (SV k) as (_ & _ & H). exact H. }
      split. { intros k. rewrite PP. apply P2. }
      split. { intros k Hk. destruct OW as (_ & O). rewrite O by (intros I; apply Hk, In0, I). change (node_at (fin a ta b tb) k) with (node_at s1 k).
        unfold s1, snext, sprev.
        assert (J : forall m, In m (i :: l1) \/ In m (j :: l2) -> m <> k).
        { intros m Hm ->. apply Hk. cbn in *. rewrite in_app_iff. cbn. tauto. }
        pose proof (J i (or_introl (or_introl eq_refl))) as J1. pose proof (J j (or_intror (or_introl eq_refl))) as J2.
        pose proof (J fourth (or_introl (last_in i l1))) as J3. pose proof (J third (or_intror (last_in j l2))) as J4.
        rewrite node_at_put_neq by exact J4. rewrite node_at_put_neq by exact J2. rewrite node_at_put_neq by exact J3.
        rewrite node_at_put_neq by exact J1. reflexivity. }
      split. { intros q N3 N4. rewrite Rq, Q. destruct (Pos.eqb_spec new q); [congruence|]. destruct (Pos.eqb_spec r q); [congruence|reflexivity]. }
      rewrite Qr, Qn. repeat split. exact AR. }
  assert (In1 : incl (i :: l1) (i :: l1 ++ j :: l2)) by (intros k [<-|H]; [left; reflexivity|right; apply in_or_app; left; exact H]).
  assert (In2 : incl (j :: l2) (i :: l1 ++ j :: l2)) by (intros k H; right; apply in_or_app; right; exact H).
  rewrite RUN. rewrite F1, F2, f_abs_gt by assumption.
  destruct (Rlt_bool_spec (Rabs (val f2)) (Rabs (val f1))) as [HL|HL].
  - destruct (FIN i l1 t1 j l2 t2 T1 T2 C1' C2' L2 In2) as (s' & E & LK & H); [rewrite F1, F2; lra|].
    exists s', (i :: l1), (j :: l2). split; [exact E|].
    split; [revert C1'; apply circle_frame; intros; apply LK|]. split; [revert C2'; apply circle_frame; intros; apply LK|].
    split; [left; auto|]. exact H.
  - destruct (FIN j l2 t2 i l1 t1 T2 T1 C2' C1' L1 In1) as (s' & E & LK & H); [rewrite F1, F2; lra|].
    exists s', (j :: l2), (i :: l1). split; [exact E|].
    split; [revert C1'; apply circle_frame; intros; apply LK|]. split; [revert C2'; apply circle_frame; intros; apply LK|].
    split; [right; auto|]. exact H.
Qed.

(** ** Joining two rings ([append_ring]) *)
Lemma flipped_same m s s' : flipped m s s' -> same_vertices s s'.
Proof.
  intros (F & O) i. destruct (in_dec Pos.eq_dec i m) as [H|H]; [rewrite F by exact H|rewrite O by exact H]; repeat split.
Qed.
Lemma rev_head (a : nid) l : exists m, rev (a :: l) = List.last l a :: m /\ List.last m (List.last l a) = a.
Proof.
  destruct l as [|z l _] using rev_ind; cbn [rev List.last]; [exists []; auto|].
  rewrite last_last, rev_app_distr. cbn [rev app]. exists (rev l ++ [a]). split; [reflexivity|apply last_last].
Qed.
Theorem join_circle s p1 l1 p2 l2 fuel kl rl :
  circle s (p1 :: l1) -> circle s (p2 :: l2) -> (forall i, In i (p1 :: l1) -> ~ In i (p2 :: l2)) ->
  (length (p2 :: l2) <= fuel)%nat ->
  exists s', join_chains fuel kl rl p1 p2 s =
      Ok (if kl then Some (if rl then List.last l2 p2 else p2) else None, s') /\
    circle s' ((p1 :: l1) ++ if Bool.eqb kl rl then rev (p2 :: l2) else p2 :: l2) /\
    same_vertices s s' /\ same_but_nodes s s' /\ only_vertices ((p1 :: l1) ++ p2 :: l2) s s'.
Proof.
  intros C1 C2 D L. pose proof (circle_last _ _ _ C1) as K1. pose proof (circle_last _ _ _ C2) as K2.
  set (r1 := List.last l1 p1) in *. set (r2 := List.last l2 p2) in *.
  assert (I1 : In r1 (p1 :: l1)) by apply CircleP.last_in. assert (I2 : In r2 (p2 :: l2)) by apply CircleP.last_in.
  assert (Np : p1 <> p2) by (intros E; apply (D p1); [left; reflexivity|rewrite E; left; reflexivity]).
  assert (N12 : r1 <> r2) by (intros E; apply (D r1); [exact I1|rewrite E; exact I2]).
  assert (Np2 : p1 <> r2) by (intros E; apply (D p1); [left; reflexivity|rewrite E; exact I2]).
  assert (Nr2 : r1 <> p2) by (intros E; apply (D r1); [exact I1|rewrite E; left; reflexivity]).
  assert (PRE : forall m, join_chains fuel kl rl p1 p2 s = m s -> join_chains fuel kl rl p1 p2 s = m s) by auto.
  assert (RUN : join_chains fuel kl rl p1 p2 s =
    (if kl then
     if rl then
       bind (reverse_nodes fuel p2) (fun _ =>
        bind (set_next p2 (Some p1)) (fun _ => bind (set_prev p1 (Some p2)) (fun _ =>
        bind (set_next r1 (Some r2)) (fun _ => bind (set_prev r2 (Some r1)) (fun _ => ret (Some r2))))))
     else
       bind (set_next r2 (Some p1)) (fun _ => bind (set_prev p1 (Some r2)) (fun _ =>
        bind (set_prev p2 (Some r1)) (fun _ => bind (set_next r1 (Some p2)) (fun _ => ret (Some p2)))))
   else
     if rl then
       bind (set_next r1 (Some p2)) (fun _ => bind (set_prev p2 (Some r1)) (fun _ =>
        bind (set_prev p1 (Some r2)) (fun _ => bind (set_next r2 (Some p1)) (fun _ => ret None))))
     else
       bind (reverse_nodes fuel p2) (fun _ =>
        bind (set_next r1 (Some r2)) (fun _ => bind (set_prev r2 (Some r1)) (fun _ =>
        bind (set_next p2 (Some p1)) (fun _ => bind (set_prev p1 (Some p2)) (fun _ => ret None)))))) s).
  { unfold join_chains. rewrite (bind_run _ _ _ _ _ (prev_of_run _ _ _ (proj2 K1))), (bind_run _ _ _ _ _ (prev_of_run _ _ _ (proj2 K2))).
    destruct kl, rl; reflexivity. }
  rewrite RUN. clear PRE RUN.
  assert (OUT : forall s0 s' a b c d, only_vertices (p2 :: l2) s s0 ->
     (s' = sprev (snext (sprev (snext s0 a (Some b)) b (Some a)) c (Some d)) d (Some c) \/
      s' = snext (sprev (sprev (snext s0 a (Some b)) b (Some a)) d (Some c)) c (Some d)) ->
     incl [a; b; c; d] ((p1 :: l1) ++ p2 :: l2) -> only_vertices ((p1 :: l1) ++ p2 :: l2) s s').
  { intros s0 s' a b c d O E HI k Hk.
    assert (J : forall m, In m [a; b; c; d] -> m <> k) by (intros m Hm ->; apply Hk, HI, Hm).
    assert (node_at s0 k = node_at s k) as <- by (apply O; intros Hm; apply Hk, in_or_app; right; exact Hm).
    destruct E as [-> | ->]; unfold snext, sprev; rewrite !node_at_put_neq by (apply J; cbn; auto); reflexivity. }
  assert (IJ1 : incl (p1 :: l1) ((p1 :: l1) ++ p2 :: l2)) by (intros k; rewrite in_app_iff; auto).
  assert (IJ2 : incl (p2 :: l2) ((p1 :: l1) ++ p2 :: l2)) by (intros k; rewrite in_app_iff; auto).
  assert (H1 : In p1 ((p1 :: l1) ++ p2 :: l2)) by (left; reflexivity).
  assert (H2 : In p2 ((p1 :: l1) ++ p2 :: l2)) by (apply IJ2; left; reflexivity).
  assert (H3 : In r1 ((p1 :: l1) ++ p2 :: l2)) by (apply IJ1; exact I1).
  assert (H4 : In r2 ((p1 :: l1) ++ p2 :: l2)) by (apply IJ2; exact I2).
  assert (INC : forall a b c d, In a ((p1 :: l1) ++ p2 :: l2) -> In b ((p1 :: l1) ++ p2 :: l2) -> In c ((p1 :: l1) ++ p2 :: l2) ->
     In d ((p1 :: l1) ++ p2 :: l2) -> incl [a; b; c; d] ((p1 :: l1) ++ p2 :: l2)).
  { intros a b c d A1 A2 A3 A4 k [<-|[<-|[<-|[<-|[]]]]]; assumption. }
  assert (REV : exists s0, reverse_nodes fuel p2 s = Ok (tt, s0) /\ circle s0 (p1 :: l1) /\ circle s0 (rev (p2 :: l2)) /\
     same_vertices s s0 /\ same_but_nodes s s0 /\ only_vertices (p2 :: l2) s s0).
  { destruct (reverse_nodes_circle s p2 l2 fuel C2 L) as (s0 & E & C & F & SB). exists s0. split; [exact E|].
    split; [apply (circle_only s s0 _ _ C1 (proj2 F) D)|]. split; [cbn [rev]; apply (circle_rotate s0 [p2] (rev l2)); exact C|].
    split; [apply (flipped_same _ _ _ F)|]. split; [exact SB|apply F]. }
  assert (DR : forall i, In i (p1 :: l1) -> ~ In i (rev (p2 :: l2))) by (intros i Hi; rewrite <- in_rev; apply D; exact Hi).
  destruct (rev_head p2 l2) as (m2 & Em & Lm). fold r2 in Em, Lm.
  destruct kl, rl; cbn [Bool.eqb].
  - destruct REV as (s0 & E & A1 & A2 & SV & SB & O). rewrite (bind_run _ _ _ _ _ E).
    rewrite (bind_run _ _ _ _ _ (set_next_s _ _ _)), (bind_run _ _ _ _ _ (set_prev_s _ _ _)), (bind_run _ _ _ _ _ (set_next_s _ _ _)), (bind_run _ _ _ _ _ (set_prev_s _ _ _)).
    eexists. split; [reflexivity|].
    assert (R : relinked s0 (sprev (snext (sprev (snext s0 p2 (Some p1)) p1 (Some p2)) r1 (Some r2)) r2 (Some r1)) r1 r2 p2 p1).
    { apply relinked_swap; [congruence|congruence|]. apply relinked_npnp; congruence. }
    split; [rewrite Em in *; apply circle_merge with (s := s0); auto; rewrite Lm; exact R|].
    split; [eapply same_vertices_trans; [exact SV|apply R]|]. split; [eapply same_but_nodes_trans; [exact SB|apply R]|].
    eapply OUT; [exact O|left; reflexivity|apply INC; assumption].
  - rewrite (bind_run _ _ _ _ _ (set_next_s _ _ _)), (bind_run _ _ _ _ _ (set_prev_s _ _ _)), (bind_run _ _ _ _ _ (set_prev_s _ _ _)), (bind_run _ _ _ _ _ (set_next_s _ _ _)).
    eexists. split; [reflexivity|].
    assert (R : relinked s (snext (sprev (sprev (snext s r2 (Some p1)) p1 (Some r2)) p2 (Some r1)) r1 (Some p2)) r1 p2 r2 p1).
    { apply relinked_swap; [congruence|congruence|]. apply relinked_nppn; congruence. }
    split; [apply circle_merge with (s := s); auto|]. split; [apply R|]. split; [apply R|].
    eapply OUT; [intros k _; reflexivity|right; reflexivity|apply INC; assumption].
  - rewrite (bind_run _ _ _ _ _ (set_next_s _ _ _)), (bind_run _ _ _ _ _ (set_prev_s _ _ _)), (bind_run _ _ _ _ _ (set_prev_s _ _ _)), (bind_run _ _ _ _ _ (set_next_s _ _ _)).
    eexists. split; [reflexivity|].
    assert (R : relinked s (snext (sprev (sprev (snext s r1 (Some p2)) p2 (Some r1)) p1 (Some r2)) r2 (Some p1)) r1 p2 r2 p1).
    { apply relinked_nppn; congruence. }
    split; [apply circle_merge with (s := s); auto|]. split; [apply R|]. split; [apply R|].
    eapply OUT; [intros k _; reflexivity|right; reflexivity|apply INC; assumption].
  - destruct REV as (s0 & E & A1 & A2 & SV & SB & O). rewrite (bind_run _ _ _ _ _ E).
    rewrite (bind_run _ _ _ _ _ (set_next_s _ _ _)), (bind_run _ _ _ _ _ (set_prev_s _ _ _)), (bind_run _ _ _ _ _ (set_next_s _ _ _)), (bind_run _ _ _ _ _ (set_prev_s _ _ _)).
    eexists. split; [reflexivity|].
    assert (R : relinked s0 (sprev (snext (sprev (snext s0 r1 (Some r2)) r2 (Some r1)) p2 (Some p1)) p1 (Some p2)) r1 r2 p2 p1).
    { apply relinked_npnp; congruence. }
    split; [rewrite Em in *; apply circle_merge with (s := s0); auto; rewrite Lm; exact R|].
    split; [eapply same_vertices_trans; [exact SV|apply R]|]. split; [eapply same_but_nodes_trans; [exact SB|apply R]|].
    eapply OUT; [exact O|left; reflexivity|apply INC; assumption].
Qed.

(** ** Removing a vertex *)
Lemma drop_links s s1 i o l : circle s (i :: o :: l) ->
  (forall j, n_next (node_at s1 j) = if Pos.eqb j i then Some (hd i l) else n_next (node_at s j)) ->
  (forall j, n_prev (node_at s1 j) = if Pos.eqb j (hd i l) then Some i else n_prev (node_at s j)) ->
  circle s1 (i :: l).
Proof.
  intros (N & (L1 & C)) Hn Hp. inversion N as [|? ? Hi N']. subst. inversion N' as [|? ? Ho N'']. subst.
  split; [constructor; [intros H; apply Hi; right; exact H|exact N'']|].
  destruct l as [|a l]; cbn [app chained hd] in *.
  - split; [|exact I]. split; [rewrite Hn, Pos.eqb_refl; reflexivity|rewrite Hp, Pos.eqb_refl; reflexivity].
  - destruct C as (L2 & C). split; [split; [rewrite Hn, Pos.eqb_refl; reflexivity|rewrite Hp, Pos.eqb_refl; reflexivity]|].
    revert C. apply chained_frame.
    + rewrite Hn. destruct (Pos.eqb_spec a i) as [->|_]; [destruct Hi; right; left; reflexivity|reflexivity].
    + intros j Hj. rewrite Hp. destruct (Pos.eqb_spec j a) as [->|_]; [|reflexivity].
      exfalso. apply in_app_iff in Hj as [Hj|[<-|[]]]; [inversion N''; contradiction|apply Hi; right; left; reflexivity].
    + intros j Hj. rewrite removelast_last in Hj. rewrite Hn. destruct (Pos.eqb_spec j i) as [->|_]; [|reflexivity].
      destruct Hi. right. right. exact Hj.
Qed.
Definition bare (n : node) : node := n <| n_prev := None |> <| n_next := None |> <| n_ring := None |>.
Definition moved_head (s : st) (r : rid) (i o : nid) : st :=
  if opt_is (r_node (ring_at s r)) (Some o) then rput s r (fun x => x <| r_node := Some i |>) else s.
Lemma unlink_run s i o r : i <> o -> n_ring (node_at s i) = Some r ->
  unlink i o s = Ok (tt, moved_head (put s o bare) r i o).
Proof.
  intros N R. unfold unlink. rewrite (bind_run _ _ _ _ _ (upd_node_put o bare s)).
  rewrite (bind_run _ _ _ _ _ (nd_run _ i)). rewrite node_at_put_neq by auto. rewrite R.
  rewrite (bind_run _ _ _ r (put s o bare)) by reflexivity.
  rewrite (bind_run _ _ _ _ _ (rg_run _ r)). unfold moved_head. destruct (opt_is _ _); reflexivity.
Qed.
Lemma node_at_moved s r i o j : node_at (moved_head s r i o) j = node_at s j.
Proof. unfold moved_head. destruct (opt_is _ _); reflexivity. Qed.
Theorem drop_next_circle s i o l r : circle s (i :: o :: l) -> n_ring (node_at s i) = Some r ->
  exists s', drop_next i o s = Ok (tt, s') /\ circle s' (i :: l) /\ node_at s' o = bare (node_at s o) /\
    (forall j, j <> o -> same_vertex (node_at s j) (node_at s' j)) /\ only_vertices (i :: o :: l) s s' /\
    (forall q, r_node (ring_at s' q) = if Pos.eqb q r && opt_is (r_node (ring_at s r)) (Some o) then Some i else r_node (ring_at s q)).
Proof.
  intros C R. pose proof C as (N & (L1 & CH)). inversion N as [|? ? Hi N']. subst. inversion N' as [|? ? Ho N'']. subst.
  assert (Nio : i <> o) by (intros E; apply Hi; left; auto).
  set (nx := hd i l).
  assert (En : n_next (node_at s o) = Some nx) by (unfold nx; destruct l; apply CH).
  assert (Ino : In nx (i :: l)) by (unfold nx; destruct l; cbn; auto).
  assert (Nxo : o <> nx) by (intros ->; destruct Ino as [E|E]; [congruence|apply Ho; exact E]).
  set (s1 := sprev (snext s i (Some nx)) nx (Some i)).
  assert (RUN : drop_next i o s = unlink i o s1).
  { unfold drop_next. rewrite (bind_run _ _ _ _ _ (nd_run _ o)), En.
    rewrite (bind_run _ _ _ _ _ (set_next_s _ _ _)).
    rewrite (bind_run _ _ _ nx (snext s i (Some nx))) by (apply next_of_run; rewrite next_snext, Pos.eqb_refl; reflexivity).
    rewrite (bind_run _ _ _ _ _ (set_prev_s _ _ _)). reflexivity. }
  assert (R1 : n_ring (node_at s1 i) = Some r).
  { destruct (same_sprev (snext s i (Some nx)) nx (Some i) i) as (_ & _ & E). unfold s1. rewrite E.
    destruct (same_snext s i (Some nx) i) as (_ & _ & E'). rewrite E'. exact R. }
  rewrite RUN, (unlink_run s1 i o r Nio R1). eexists. split; [reflexivity|].
  assert (SV : same_vertices s s1) by (eapply same_vertices_trans; [apply same_snext|apply same_sprev]).
  assert (SB : same_but_nodes s s1) by (eapply same_but_nodes_trans; [apply sbn_snext|apply sbn_sprev]).
  assert (C1 : circle s1 (i :: l)).
  { apply (drop_links s s1 i o l C); intros j; unfold s1.
    - rewrite next_sprev, next_snext. reflexivity.
    - rewrite prev_sprev, prev_snext. reflexivity. }
  split; [|split; [|split; [|split]]].
  - revert C1. apply circle_frame. intros j Hj. rewrite node_at_moved, node_at_put_neq; [auto|].
    intros <-. destruct Hj as [E|E]; [auto|contradiction].
  - rewrite node_at_moved, node_at_put_eq. f_equal. unfold s1, sprev, snext. rewrite !node_at_put_neq by auto. reflexivity.
  - intros j Hj. rewrite node_at_moved, node_at_put_neq by auto. apply SV.
  - intros j Hj. rewrite node_at_moved, node_at_put_neq by (intros ->; apply Hj; right; left; reflexivity).
    unfold s1, sprev, snext. rewrite !node_at_put_neq; [reflexivity| |].
    + intros ->. apply Hj. left. reflexivity.
    + intros ->. apply Hj. destruct Ino as [E|E]; [left; exact E|right; right; exact E].
  - intros q. unfold moved_head.
    assert (RE : forall q, ring_at (put s1 o bare) q = ring_at s q) by (intros; apply ring_at_sbn; eapply same_but_nodes_trans; [exact SB|apply same_but_nodes_put]).
    rewrite RE. destruct (opt_is (r_node (ring_at s r)) (Some o)).
    + rewrite ring_at_rput, andb_true_r, (Pos.eqb_sym q r). destruct (Pos.eqb_spec r q) as [->|]; [reflexivity|rewrite RE; reflexivity].
    + rewrite andb_false_r, RE. reflexivity.
Qed.
Theorem drop_prev_circle s i o l r : circle s (i :: l ++ [o]) -> n_ring (node_at s i) = Some r ->
  exists s', drop_prev i o s = Ok (tt, s') /\ circle s' (i :: l) /\ node_at s' o = bare (node_at s o) /\
    (forall j, j <> o -> same_vertex (node_at s j) (node_at s' j)) /\ only_vertices (i :: l ++ [o]) s s' /\
    (forall q, r_node (ring_at s' q) = if Pos.eqb q r && opt_is (r_node (ring_at s r)) (Some o) then Some i else r_node (ring_at s q)).
Proof.
  intros C R. pose proof C as (N & CH).
  destruct (proj1 (nodup_app (i :: l) [o]) N) as (N1 & _ & D).
  assert (Nio : i <> o) by (intros E; apply (D i); [left; reflexivity|left; auto]).
  set (pv := List.last l i).
  assert (Lo : linked s pv o).
  { rewrite <- app_assoc in CH. cbn [app] in CH. apply chained_app in CH as (CH & _). apply chained_last in CH. exact CH. }
  assert (Lp : n_prev (node_at s i) = Some o).
  { pose proof (circle_last _ _ _ C) as H. rewrite last_last in H. apply H. }
  assert (Ipv : In pv (i :: l)) by apply CircleP.last_in.
  assert (Npo : o <> pv) by (intros E; apply (D pv Ipv); left; exact E).
  set (s1 := snext (sprev s i (Some pv)) pv (Some i)).
  assert (RUN : drop_prev i o s = unlink i o s1).
  { unfold drop_prev. rewrite (bind_run _ _ _ _ _ (nd_run _ o)), (proj2 Lo).
    rewrite (bind_run _ _ _ _ _ (set_prev_s _ _ _)).
    rewrite (bind_run _ _ _ pv (sprev s i (Some pv))) by (apply prev_of_run; rewrite prev_sprev, Pos.eqb_refl; reflexivity).
    rewrite (bind_run _ _ _ _ _ (set_next_s _ _ _)). reflexivity. }
  assert (SV : same_vertices s s1) by (eapply same_vertices_trans; [apply same_sprev|apply same_snext]).
  assert (SB : same_but_nodes s s1) by (eapply same_but_nodes_trans; [apply sbn_sprev|apply sbn_snext]).
  assert (R1 : n_ring (node_at s1 i) = Some r) by (destruct (SV i) as (_ & _ & E); rewrite E; exact R).
  rewrite RUN, (unlink_run s1 i o r Nio R1). eexists. split; [reflexivity|].
  assert (Hn : forall j, n_next (node_at s1 j) = if Pos.eqb j pv then Some i else n_next (node_at s j)).
  { intros j. unfold s1. rewrite next_snext, next_sprev. reflexivity. }
  assert (Hp : forall j, n_prev (node_at s1 j) = if Pos.eqb j i then Some pv else n_prev (node_at s j)).
  { intros j. unfold s1. rewrite prev_snext, prev_sprev. reflexivity. }
  assert (C1 : circle s1 (i :: l)).
  { unfold pv in *. destruct l as [|z l _] using rev_ind.
    - cbn [List.last app] in *. apply (drop_links s s1 i o [] C); assumption.
    - rewrite last_last in *. rewrite <- app_assoc in C. cbn [app] in C.
      pose proof (circle_rotate s (i :: l) [z; o] C) as C'. cbn [app] in C'.
      apply (circle_rotate s1 [z] (i :: l)). apply (drop_links s s1 z o (i :: l) C'); assumption. }
  split; [|split; [|split; [|split]]].
  - revert C1. apply circle_frame. intros j Hj. rewrite node_at_moved, node_at_put_neq; [auto|].
    intros <-. apply (D o Hj). left. reflexivity.
  - rewrite node_at_moved, node_at_put_eq. f_equal. unfold s1, sprev, snext. rewrite !node_at_put_neq by auto. reflexivity.
  - intros j Hj. rewrite node_at_moved, node_at_put_neq by auto. apply SV.
  - intros j Hj. change (i :: l ++ [o]) with ((i :: l) ++ [o]) in Hj. rewrite in_app_iff in Hj.
    rewrite node_at_moved, node_at_put_neq by (intros ->; apply Hj; right; left; reflexivity).
    unfold s1, sprev, snext. rewrite !node_at_put_neq; [reflexivity| |].
    + intros ->. apply Hj. left. left. reflexivity.
    + intros ->. apply Hj. left. exact Ipv.
  - intros q. unfold moved_head.
    assert (RE : forall q, ring_at (put s1 o bare) q = ring_at s q) by (intros; apply ring_at_sbn; eapply same_but_nodes_trans; [exact SB|apply same_but_nodes_put]).
    rewrite RE. destruct (opt_is (r_node (ring_at s r)) (Some o)).
    + rewrite ring_at_rput, andb_true_r, (Pos.eqb_sym q r). destruct (Pos.eqb_spec r q) as [->|]; [reflexivity|rewrite RE; reflexivity].
    + rewrite andb_false_r, RE. reflexivity.
Qed.
