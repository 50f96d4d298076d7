(** * Vertex rings: C28 (links), C29 (cutting and joining), C30 (statistics) *)
From Coq Require Import ZArith List Bool Lia FMapPositive Permutation Reals Lra.
From Coq Require Import Floats.SpecFloat.
From RecordUpdate Require Import RecordSet.
From Flocq Require Import Core.
From Verif Require Import Py Monad Utils Geometry LinearRingM BoundM LocalMinimumM StateM
     PointNodeM RingM TopologyM SweepM HoareP SpecRing LinearRingP SpecHeap FloatP CircleP HeapOpsP StatsP SplitP.
Import ListNotations RecordSetNotations.
Open Scope Z_scope.

(** ** C28: vertex rings are circular doubly linked lists *)
(** a vertex created alone is a ring of its own *)
Theorem C28_create_alone s r p :
  exists s', create_point_node r p None s = Ok (s_nnext s, s') /\ circle s' [s_nnext s] /\
    npos (node_at s' (s_nnext s)) = p /\ n_ring (node_at s' (s_nnext s)) = r /\
    only_vertices [s_nnext s] s s'.
Proof. apply create_alone_circle. Qed.
(** a vertex created "before" [o] is inserted between [o]'s predecessor and [o]
    (i.e. at the end of the ring that starts at [o]); every other vertex keeps its
    coordinates and its ring *)
Theorem C28_insert_before s r p o l : circle s (o :: l) -> allocated s (o :: l) ->
  exists s', create_point_node r p (Some o) s = Ok (s_nnext s, s') /\
    circle s' (o :: l ++ [s_nnext s]) /\
    npos (node_at s' (s_nnext s)) = p /\ n_ring (node_at s' (s_nnext s)) = r /\
    (forall j, j <> s_nnext s -> same_vertex (node_at s j) (node_at s' j)) /\
    only_vertices (s_nnext s :: o :: l) s s' /\
    s_all s' = s_all s ++ [s_nnext s].
Proof.
  intros C A. destruct (create_before_circle s r p o l C A) as (s' & E & H1 & H2 & H3 & H4 & H5 & H6).
  exists s'. repeat (split; [assumption|]). rewrite H6. destruct s; reflexivity.
Qed.
(** reversing a ring keeps it a ring, with the opposite order *)
Theorem C28_reverse s a l fuel : circle s (a :: l) -> (length (a :: l) <= fuel)%nat ->
  exists s', reverse_nodes fuel a s = Ok (tt, s') /\ circle s' (a :: rev l) /\ same_vertices s s' /\
    only_vertices (a :: l) s s'.
Proof.
  intros C L. destruct (reverse_nodes_circle s a l fuel C L) as (s' & E & C' & F & SB).
  exists s'. split; [exact E|]. split; [exact C'|]. split; [apply (flipped_same _ _ _ F)|apply F].
Qed.
(** iterating visits every vertex exactly once, forwards and backwards, and
    changes nothing *)
Theorem C28_iterate s a l fuel : circle s (a :: l) -> (length (a :: l) <= fuel)%nat ->
  nodes_list fuel a s = Ok (a :: l, s) /\ nodes_list_rev fuel a s = Ok (a :: rev l, s) /\ NoDup (a :: l).
Proof.
  intros C L. split; [apply nodes_list_circle; assumption|]. split; [apply nodes_list_rev_circle; assumption|apply C].
Qed.
(** following [next] from any vertex of a ring goes around the same ring *)
Theorem C28_any_start s l1 l2 : circle s (l1 ++ l2) -> circle s (l2 ++ l1).
Proof. apply circle_rotate. Qed.

(** a concrete ring: three vertices inserted one after the other *)
Definition ex_triangle : res (nid * st) :=
  bind (create_point_node (Some 1%positive) (Pt 0 0) None) (fun a =>
  bind (create_point_node (Some 1%positive) (Pt 4 0) (Some a)) (fun _ =>
  bind (create_point_node (Some 1%positive) (Pt 0 3) (Some a)) (fun _ => ret a))) (init_st (PositiveMap.empty _)).
Definition ex_tri_st : st := match ex_triangle with Ok (_, s) => s | _ => init_st (PositiveMap.empty _) end.
Example C28_example : circle ex_tri_st [1; 2; 3]%positive /\ allocated ex_tri_st [1; 2; 3]%positive /\
  vertices ex_tri_st [1; 2; 3]%positive = [Pt 0 0; Pt 4 0; Pt 0 3].
Proof.
  split; [|split].
  - split; [repeat constructor; cbn; intuition discriminate|]. cbn [app chained]. unfold linked. vm_compute. repeat split.
  - repeat constructor.
  - vm_compute. reflexivity.
Qed.

(** ** C29: cutting and joining *)
(** [correct_self_intersection] cuts a vertex ring at two of its vertices: the two
    parts are rings, together they have exactly the vertices of the original, no
    coordinate changes, the part with the larger absolute area stays with the old
    ring and the other goes to a fresh ring whose vertices all point to it *)
Theorem C29_cut s i l1 j l2 r fuel f1 f2 :
  circle s (i :: l1 ++ j :: l2) -> n_ring (node_at s i) = Some r -> n_ring (node_at s j) = Some r ->
  (r < s_rnext s)%positive -> (length (i :: l1 ++ j :: l2) <= fuel)%nat ->
  int_truediv (- area2 (vertices s (i :: l1))) 2 = Ok f1 -> int_truediv (- area2 (vertices s (j :: l2))) 2 = Ok f2 ->
  exists s' keep new, correct_self_intersection fuel i j s = Ok (Some (s_rnext s), s') /\
    circle s' (i :: l1) /\ circle s' (j :: l2) /\
    (keep = i :: l1 /\ new = j :: l2 \/ keep = j :: l2 /\ new = i :: l1) /\
    r_node (ring_at s' r) = Some (hd i keep) /\ measured s' r keep /\
    r_node (ring_at s' (s_rnext s)) = Some (hd i new) /\ measured s' (s_rnext s) new /\
    owned_by s' (s_rnext s) new /\
    (forall k, ~ In k new -> n_ring (node_at s' k) = n_ring (node_at s k)) /\
    (forall k, npos (node_at s' k) = npos (node_at s k)) /\
    only_vertices (i :: l1 ++ j :: l2) s s' /\
    (forall q, q <> r -> q <> s_rnext s -> ring_at s' q = ring_at s q) /\
    r_parent (ring_at s' r) = r_parent (ring_at s r) /\ r_children (ring_at s' r) = r_children (ring_at s r) /\
    r_parent (ring_at s' (s_rnext s)) = None /\ r_children (ring_at s' (s_rnext s)) = [] /\
    (Rabs (val (r_area (ring_at s' (s_rnext s)))) <= Rabs (val (r_area (ring_at s' r))))%R.
Proof. apply split_circle. Qed.
(** cutting at coincident vertices conserves signed area, winding numbers around
    every point, and the directed edges *)
Theorem C29_cut_conserves p l1 q l2 : p = q ->
  area2 (p :: l1) + area2 (q :: l2) = area2 (p :: l1 ++ q :: l2) /\
  (forall x, winding_number x (p :: l1) + winding_number x (q :: l2) = winding_number x (p :: l1 ++ q :: l2)) /\
  cyclic_pairs (p :: l1 ++ q :: l2) = cyclic_pairs (p :: l1) ++ cyclic_pairs (q :: l2).
Proof.
  intros <-.
  assert (E : cyclic_pairs (p :: l1 ++ p :: l2) = cyclic_pairs (p :: l1) ++ cyclic_pairs (p :: l2)).
  { unfold cyclic_pairs. cbn [app]. rewrite <- app_assoc. cbn [app]. apply (pairs_app (p :: l1) p (l2 ++ [p])). }
  split; [|split; [|exact E]].
  - unfold area2. rewrite E, map_app, zsum_app. reflexivity.
  - intros x. unfold winding_number. rewrite E, map_app, zsum_app. reflexivity.
Qed.
(** [append_ring]: two disjoint rings become one with exactly their vertices; the
    second is reversed when the two bounds are on the same side; the returned
    vertex is the new first vertex of the kept ring *)
Theorem C29_join s p1 l1 p2 l2 fuel kl rl :
  circle s (p1 :: l1) -> circle s (p2 :: l2) -> (forall i, In i (p1 :: l1) -> ~ In i (p2 :: l2)) ->
  (length (p2 :: l2) <= fuel)%nat ->
  exists s' head, join_chains fuel kl rl p1 p2 s = Ok (head, s') /\
    circle s' ((p1 :: l1) ++ if Bool.eqb kl rl then rev (p2 :: l2) else p2 :: l2) /\
    head = (if kl then Some (if rl then List.last l2 p2 else p2) else None) /\
    same_vertices s s' /\ only_vertices ((p1 :: l1) ++ p2 :: l2) s s'.
Proof.
  intros C1 C2 D L. destruct (join_circle s p1 l1 p2 l2 fuel kl rl C1 C2 D L) as (s' & E & C & SV & SB & O).
  exists s'. eexists. split; [exact E|]. auto.
Qed.
(** exchanging the successors of two vertices joins the two rings they are on ... *)
Theorem C29_switch_joins s a l1 b l2 : circle s (a :: l1) -> circle s (b :: l2) ->
  (forall i, In i (a :: l1) -> ~ In i (b :: l2)) ->
  exists s', switch_nexts a b s = Ok (tt, s') /\ circle s' (a :: l2 ++ b :: l1) /\
    same_vertices s s' /\ only_vertices (a :: l1 ++ b :: l2) s s'.
Proof.
  intros C1 C2 D. destruct (switch_nexts_merge s a l1 b l2 C1 C2 D) as (s' & E & C & SV & SB & O). exists s'. auto.
Qed.
(** ... or cuts the ring both are on ... *)
Theorem C29_switch_cuts s a l1 b l2 : circle s (a :: l1 ++ b :: l2) ->
  exists s', switch_nexts a b s = Ok (tt, s') /\ circle s' (a :: l2) /\ circle s' (b :: l1) /\
    same_vertices s s' /\ only_vertices (a :: l1 ++ b :: l2) s s'.
Proof.
  intros C. destruct (switch_nexts_split s a l1 b l2 C) as (s' & E & C1 & C2 & SV & SB & O). exists s'. auto.
Qed.
(** ... and doing it twice restores the ring *)
Theorem C29_switch_inverse s a l1 b l2 : circle s (a :: l1 ++ b :: l2) ->
  exists s' s'', switch_nexts a b s = Ok (tt, s') /\ switch_nexts a b s' = Ok (tt, s'') /\
    circle s'' (a :: l1 ++ b :: l2) /\ same_vertices s s''.
Proof.
  intros C. destruct (switch_nexts_split s a l1 b l2 C) as (s' & E & C1 & C2 & SV & SB & O).
  destruct (switch_nexts_merge s' a l2 b l1 C1 C2) as (s'' & E' & C' & SV' & SB' & O').
  - pose proof (circle_nodup _ _ C) as N. change (NoDup ((a :: l1) ++ b :: l2)) in N. apply nodup_app in N as (N1 & N2 & D).
    inversion N1. inversion N2. subst. intros i [<-|Hi] [Hb|Hi'].
    + subst b. apply (D a); left; reflexivity.
    + contradiction.
    + subst b. contradiction.
    + apply (D i); [right; exact Hi'|right; exact Hi].
  - exists s', s''. split; [exact E|]. split; [exact E'|]. split; [exact C'|]. eapply same_vertices_trans; eassumption.
Qed.
(** removing a neighbour of a vertex takes exactly that vertex out of the ring; if
    it was the ring's first vertex the remaining one takes its place.  When the two
    coincide the enclosed area does not change. *)
Theorem C29_drop_next s i o l r : circle s (i :: o :: l) -> n_ring (node_at s i) = Some r ->
  exists s', drop_next i o s = Ok (tt, s') /\ circle s' (i :: l) /\
    n_next (node_at s' o) = None /\ n_prev (node_at s' o) = None /\ n_ring (node_at s' o) = None /\
    (forall j, j <> o -> same_vertex (node_at s j) (node_at s' j)) /\ only_vertices (i :: o :: l) s s' /\
    (forall q, r_node (ring_at s' q) = if Pos.eqb q r && opt_is (r_node (ring_at s r)) (Some o) then Some i else r_node (ring_at s q)) /\
    (npos (node_at s i) = npos (node_at s o) -> area2 (vertices s' (i :: l)) = area2 (vertices s (i :: o :: l))).
Proof.
  intros C R. destruct (drop_next_circle s i o l r C R) as (s' & E & C' & B & SV & O & Q).
  exists s'. split; [exact E|]. split; [exact C'|]. rewrite B. repeat (split; [reflexivity|]). split; [exact SV|]. split; [exact O|]. split; [exact Q|].
  intros Eq. assert (V : vertices s' (i :: l) = vertices s (i :: l)).
  { apply map_ext_in. intros j Hj. destruct (SV j) as (X & Y & _); [|unfold npos; rewrite X, Y; reflexivity].
    intros ->. destruct C as (N & _). inversion N as [|? ? Hi N']. inversion N'. subst. destruct Hj as [<-|Hj]; [apply Hi; left; reflexivity|contradiction]. }
  rewrite V. unfold vertices. cbn [map]. rewrite <- Eq. symmetry. apply (csum_dup cross [] (npos (node_at s i)) _ cross_additive).
Qed.
Theorem C29_drop_prev s i o l r : circle s (i :: l ++ [o]) -> n_ring (node_at s i) = Some r ->
  exists s', drop_prev i o s = Ok (tt, s') /\ circle s' (i :: l) /\
    n_next (node_at s' o) = None /\ n_prev (node_at s' o) = None /\ n_ring (node_at s' o) = None /\
    (forall j, j <> o -> same_vertex (node_at s j) (node_at s' j)) /\ only_vertices (i :: l ++ [o]) s s' /\
    (forall q, r_node (ring_at s' q) = if Pos.eqb q r && opt_is (r_node (ring_at s r)) (Some o) then Some i else r_node (ring_at s q)) /\
    (npos (node_at s i) = npos (node_at s o) -> area2 (vertices s' (i :: l)) = area2 (vertices s (i :: l ++ [o]))).
Proof.
  intros C R. destruct (drop_prev_circle s i o l r C R) as (s' & E & C' & B & SV & O & Q).
  exists s'. split; [exact E|]. split; [exact C'|]. rewrite B. repeat (split; [reflexivity|]). split; [exact SV|]. split; [exact O|]. split; [exact Q|].
  intros Eq. assert (V : vertices s' (i :: l) = vertices s (i :: l)).
  { apply map_ext_in. intros j Hj. destruct (SV j) as (X & Y & _); [|unfold npos; rewrite X, Y; reflexivity].
    intros ->. destruct C as (N & _). apply (nodup_app (i :: l) [o]) in N as (_ & _ & D). apply (D o Hj). left. reflexivity. }
  rewrite V. unfold vertices. cbn [map]. rewrite map_app. cbn [map]. rewrite <- Eq.
  symmetry. apply (csum_drop_tail cross); [apply cross_additive|]. constructor; [reflexivity|constructor].
Qed.
(** a ring that touches itself: (0,0)-(4,0)-(0,0)-(0,3) is cut at its two
    coincident vertices *)
Definition ex_pinched : res (nid * st) :=
  bind create_ring (fun r =>
  bind (create_point_node (Some r) (Pt 0 0) None) (fun a =>
  bind (create_point_node (Some r) (Pt 4 0) (Some a)) (fun _ =>
  bind (create_point_node (Some r) (Pt 4 4) (Some a)) (fun _ =>
  bind (create_point_node (Some r) (Pt 0 0) (Some a)) (fun _ =>
  bind (create_point_node (Some r) (Pt 0 3) (Some a)) (fun _ =>
  bind (create_point_node (Some r) (Pt (-3) 0) (Some a)) (fun _ => ret a))))))) (init_st (PositiveMap.empty _)).
Definition ex_pin_st : st := match ex_pinched with Ok (_, s) => s | _ => init_st (PositiveMap.empty _) end.
Example C29_example : circle ex_pin_st (1 :: [2; 3] ++ 4 :: [5; 6])%positive /\
  n_ring (node_at ex_pin_st 1%positive) = Some 1%positive /\ n_ring (node_at ex_pin_st 4%positive) = Some 1%positive /\
  npos (node_at ex_pin_st 1%positive) = npos (node_at ex_pin_st 4%positive) /\ (1 < s_rnext ex_pin_st)%positive /\
  (exists f, int_truediv (- area2 (vertices ex_pin_st [1; 2; 3]%positive)) 2 = Ok f) /\
  (exists f, int_truediv (- area2 (vertices ex_pin_st [4; 5; 6]%positive)) 2 = Ok f) /\
  match correct_self_intersection 10 1%positive 4%positive ex_pin_st with
  | Ok (_, s') => circle s' [1; 2; 3]%positive /\ circle s' [4; 5; 6]%positive
  | _ => False
  end.
Proof.
  split; [split; [repeat constructor; cbn; intuition discriminate|cbn [app chained]; unfold linked; vm_compute; repeat split]|].
  repeat (split; [vm_compute; reflexivity|]).
  split; [eexists; vm_compute; reflexivity|]. split; [eexists; vm_compute; reflexivity|].
  vm_compute. repeat split; repeat constructor; cbn; intuition discriminate.
Qed.

(** ** C30: statistics *)
(** [PointNode.stats]: the number of vertices, the smallest box, and the
    correctly rounded signed area (of the vertices in [prev] order, the order in
    which rings are output); an OverflowError is raised only if that area is not
    representable *)
Theorem C30_stats s a l fuel : circle s (a :: l) -> (length (a :: l) <= fuel)%nat ->
  let area := (IZR (- area2 (vertices s (a :: l))) / 2)%R in
  (in_range area /\ exists t, node_stats fuel a s = Ok (t, s) /\
     st_size t = length (a :: l) /\ tight_box (vertices s (a :: l)) (st_box t) /\
     good (st_area t) /\ val (st_area t) = rnd area /\
     (Z.abs (area2 (vertices s (a :: l))) <= 2 ^ 53 -> val (st_area t) = area)) \/
  (~ in_range area /\ node_stats fuel a s = Raise OverflowError).
Proof.
  intros C L area. destruct (node_stats_circle s a l fuel C L) as (b & T & R).
  destruct (truediv_spec (- area2 (vertices s (a :: l))) 2) as [(Rg & f & E & G & V & _)|(NR & E)]; [lia| |]; rewrite E in R.
  - left. split; [exact Rg|]. exists (Stats f (length (a :: l)) b). split; [exact R|]. repeat (split; [reflexivity || assumption|]).
    intros H. apply (area_exact _ _ E). lia.
  - right. auto.
Qed.
(** the signed area is that of the vertices in the order in which rings are output *)
Theorem C30_area_in_output_order a l : area2 (a :: rev l) = - area2 (a :: l).
Proof.
  change (csum cross (a :: rev l) = - csum cross (a :: l)).
  assert (E : forall m, psum cross (rev m) = - psum cross m).
  { induction m as [|x m IH]; [reflexivity|]. cbn [rev]. destruct m as [|y m]; [reflexivity|].
    cbn [rev] in *. rewrite <- app_assoc. cbn [app]. rewrite psum_snoc, IH, psum_cons. unfold cross. lia. }
  rewrite !csum_cons. rewrite <- E. f_equal. cbn [rev]. rewrite rev_app_distr. reflexivity.
Qed.
(** recalculating a ring's statistics stores exactly these, whatever was stored
    before; a ring is classified as a hole iff its area is not positive *)
Theorem C30_recalculate s r a l fuel f : circle s (a :: l) -> (length (a :: l) <= fuel)%nat ->
  r_node (ring_at s r) = Some a -> int_truediv (- area2 (vertices s (a :: l))) 2 = Ok f ->
  exists s', recalculate_stats fuel r s = Ok (tt, s') /\ measured s' r (a :: l) /\
    (forall q, q <> r -> ring_at s' q = ring_at s q) /\ (forall i, node_at s' i = node_at s i) /\
    r_node (ring_at s' r) = Some a /\ r_parent (ring_at s' r) = r_parent (ring_at s r) /\
    r_children (ring_at s' r) = r_children (ring_at s r).
Proof.
  intros C L R E. destruct (node_stats_ok s a l fuel f C L E) as (t & Et & T & F).
  exists (rput s r (with_stats t)).
  assert (Q : ring_at (rput s r (with_stats t)) r = with_stats t (ring_at s r)) by (rewrite ring_at_rput, Pos.eqb_refl; reflexivity).
  split.
  - unfold recalculate_stats. rewrite (bind_run _ _ _ _ _ (rg_run s r)), R. rewrite (bind_run _ _ _ _ _ Et). reflexivity.
  - split; [eapply measured_with; [|exact Q]; exact T|]. rewrite Q.
    split; [intros q N; rewrite ring_at_rput; destruct (Pos.eqb_spec r q); [congruence|reflexivity]|].
    split; [reflexivity|]. split; [exact R|]. split; reflexivity.
Qed.
(** the lazy properties [area], [size], [is_hole] of a ring that was not measured
    yet return those values *)
Theorem C30_lazy_properties s r a l fuel f : circle s (a :: l) -> (length (a :: l) <= fuel)%nat ->
  r_node (ring_at s r) = Some a -> int_truediv (- area2 (vertices s (a :: l))) 2 = Ok f ->
  r_area (ring_at s r) = S754_nan ->
  exists s', ring_area fuel r s = Ok (f, s') /\ ring_size fuel r s = Ok (length (a :: l), s') /\
    ring_is_hole fuel r s = Ok (0 <=? area2 (vertices s (a :: l)), s') /\ measured s' r (a :: l).
Proof.
  intros C L R E N. destruct (C30_recalculate s r a l fuel f C L R E) as (s' & E' & M & O & V & _).
  assert (VV : vertices s' (a :: l) = vertices s (a :: l)) by (apply map_ext; intros; rewrite V; reflexivity).
  assert (ES : ensure_stats fuel r s = Ok (tt, s')).
  { unfold ensure_stats. rewrite (bind_run _ _ _ _ _ (rg_run s r)), N. exact E'. }
  destruct M as (M1 & M2 & M3 & M4). exists s'.
  split; [|split; [|split; [|exact (conj M1 (conj M2 (conj M3 M4)))]]].
  - unfold ring_area. rewrite (bind_run _ _ _ _ _ ES), (bind_run _ _ _ _ _ (rg_run s' r)). rewrite VV in M3. unfold ret. congruence.
  - unfold ring_size. rewrite (bind_run _ _ _ _ _ ES), (bind_run _ _ _ _ _ (rg_run s' r)). unfold ret. congruence.
  - unfold ring_is_hole. rewrite (bind_run _ _ _ _ _ ES), (bind_run _ _ _ _ _ (rg_run s' r)). unfold ret. rewrite M4, VV. reflexivity.
Qed.
Example C30_example :
  match node_stats 10 1%positive ex_tri_st with
  | Ok (t, _) => st_size t = 3%nat /\ st_box t = Box (Pt 0 0) (Pt 4 3) /\ int_truediv (-12) 2 = Ok (st_area t)
  | _ => False
  end.
Proof. vm_compute. repeat split. Qed.
