(** * Property theorems: the open rings of the sweep (C50)

    The vocabulary is in [SpecChain.v]. *)
From Coq Require Import ZArith List Bool Lia FMapPositive Permutation.
From Coq Require Import Floats.SpecFloat.
From Verif Require Import Py Monad Utils Spec Geometry LinearRingM BoundM LocalMinimumM StateM
     PointNodeM RingM SweepM TopologyM WagyuM HoareP SweepFrameP SpecHeap SpecRings SpecActive SpecRun SpecHistory
     CalmP NodeFrameP RingedP VatP SweepRunP SweepInvP HistoryP PropSweep ChainP ChainBoundP ChainOpsP ChainWalkP ChainSweepP SpecChain.
Import ListNotations.
Local Open Scope Z_scope.

(** ** Proofs *)
Lemma start_chains fuel minimums bs u s0 : build_hot_pixels fuel minimums (init_st bs) = Ok (u, s0) -> exists P, chains P s0.
Proof.
  intros E. exists (fun _ => []). apply (chains_same _ (init_st bs)); [exact (nf_build_hot_pixels same_ringed fuel minimums _ _ _ E)|].
  split.
  - apply (well_init bs).
  - intros r X. destruct (X eq_refl).
  - intros r _. unfold first_of, ring_at, ring_of, node_at. cbn. unfold hget. rewrite PositiveMap.gempty. split; [reflexivity|].
    intros i. rewrite PositiveMap.gempty. discriminate.
Qed.
Lemma tip_end sd ps : ps <> [] -> is_end sd ps (tip sd ps p0).
Proof.
  intros N. destruct sd; cbn.
  - destruct ps as [|a ps]; [destruct (N eq_refl)|]. exists ps. reflexivity.
  - destruct (exists_last N) as (l & a & ->). exists l. unfold back. rewrite last_last. reflexivity.
Qed.
Lemma wk_open minimums k s : wk (entered minimums k) s -> open_chains minimums k s.
Proof.
  intros (_ & _ & _ & P & C & [H1 H2 H3 _ _ H6]).
  split.
  - intros i r (Ai & R). apply act_live in Ai. destruct (H1 i r Ai R) as (N & _). exists (P r). split; [exact (ch_path _ _ C r N)|].
    rewrite <- (H2 i r Ai (fun x => x) R). apply tip_end, N.
  - intros i j r (Ai & Ri) (Aj & Rj) N. apply act_live in Ai, Aj. exact (H3 i j r Ai Aj N Ri Rj).
  - intros i r (Ai & R). apply act_live in Ai. destruct (H6 i r Ai R) as [(j & N & Aj & Rj)|(j & Ej & Nj & Rj)].
    + left. exists j. split; [exact N|]. split; [apply act_live; exact Aj|exact Rj].
    + right. exists j. split; [exact Ej|]. split; [intros X; apply Nj, act_live, X|exact Rj].
Qed.

(** ** C50 *)
(** Between any two scanbeams of the sweep of any recorded rings, every ring held by an
    active bound is a chain of points one end of which is held by that bound, at the
    last point the bound has put out; no end is held twice; and no end is loose unless
    a bound has left the active list while still holding a ring. *)
Theorem C50_open_rings_hang_between_their_bounds :
  forall rv w rs fuel op sfk cfk u s0 y k s,
  built rv w rs ->
  build_hot_pixels fuel (lml_values (w_minimums w)) (init_st (lml_bounds (w_minimums w))) = Ok (u, s0) ->
  swept fuel op sfk cfk (lml_values (w_minimums w)) s0 y k s ->
  open_chains (lml_values (w_minimums w)) k s.
Proof.
  intros rv w rs fuel op sfk cfk u s0 y k s B E H. pose proof (built_well_recorded rv w rs B) as R0.
  destruct (start_inv w rs R0 fuel s0 u E) as (_ & HS).
  apply wk_open. exact (proj2 (wk_swept w rs R0 fuel op sfk cfk s0 y k s HS (start_chains _ _ _ _ _ E) H)).
Qed.
Print Assumptions C50_open_rings_hang_between_their_bounds.
(** No ring has more than two active holders. *)
Theorem C50_at_most_two_bounds_hold_a_ring :
  forall rv w rs fuel op sfk cfk u s0 y k s,
  built rv w rs ->
  build_hot_pixels fuel (lml_values (w_minimums w)) (init_st (lml_bounds (w_minimums w))) = Ok (u, s0) ->
  swept fuel op sfk cfk (lml_values (w_minimums w)) s0 y k s ->
  forall r a b c, holds s a r -> holds s b r -> holds s c r -> a = b \/ b = c \/ a = c.
Proof.
  intros rv w rs fuel op sfk cfk u s0 y k s B E H r a b c Ha Hb Hc.
  pose proof (oc_apart _ _ _ (C50_open_rings_hang_between_their_bounds _ _ _ _ _ _ _ _ _ _ _ _ B E H)) as O.
  destruct (Pos.eq_dec a b) as [|N1]; [auto|]. destruct (Pos.eq_dec b c) as [|N2]; [auto|]. destruct (Pos.eq_dec a c) as [|N3]; [auto|].
  exfalso. pose proof (O a b r Ha Hb N1). pose proof (O b c r Hb Hc N2). pose proof (O a c r Ha Hc N3).
  destruct (b_side (bget (s_bounds s) a)), (b_side (bget (s_bounds s) b)), (b_side (bget (s_bounds s) c)); congruence.
Qed.
Print Assumptions C50_at_most_two_bounds_hold_a_ring.

(** *** The sweep of [PropSweep.v]

    After three turns ring 1 is the chain (1,49) (-1,69) (2,98) and hangs between
    bounds 3 (left) and 1 (right), whose last points are (1,49) and (2,98); ring 2 is
    the chain (-5,98) (-1,69) and hangs between bounds 4 and 2. *)
Definition bound_view (s : st) (i : bid) := let b := bget (s_bounds s) i in (b_ring b, b_side b, b_last b).
Example C50_open_rings_example :
  live (snd (tw_at 3)) = [4; 2; 3; 1]%positive /\
  map (bound_view (snd (tw_at 3))) [4; 2; 3; 1]%positive
  = [(Some 2%positive, LEFT, Pt (-5) 98); (Some 2%positive, RIGHT, Pt (-1) 69);
     (Some 1%positive, LEFT, Pt 1 49); (Some 1%positive, RIGHT, Pt 2 98)] /\
  vertices (snd (tw_at 3)) [5; 4; 1]%positive = [Pt 1 49; Pt (-1) 69; Pt 2 98] /\
  first_of (snd (tw_at 3)) 1%positive = Some 5%positive /\
  open_chains tw_minimums 2 (snd (tw_at 3)).
Proof.
  split; [vm_compute; reflexivity|]. split; [vm_compute; reflexivity|]. split; [vm_compute; reflexivity|]. split; [vm_compute; reflexivity|].
  assert (X : fst (tw_at 3) = (49, 2%nat)) by (vm_compute; reflexivity).
  destruct tw_hot_ok as (u & E). pose proof (tw_at_swept 3) as H. rewrite X in H. cbn [fst snd] in H.
  exact (C50_open_rings_hang_between_their_bounds _ _ _ _ _ _ _ _ _ _ _ _ tw_built E H).
Qed.
(** One turn later bound 2 has left the list and still holds the back of ring 2, whose
    front is held by bound 4: the exception in the theorem cannot be dropped. *)
Theorem C50_both_ends_held_refuted :
  exists rv w rs fuel op sfk cfk u s0 y k s i r,
  built rv w rs /\
  build_hot_pixels fuel (lml_values (w_minimums w)) (init_st (lml_bounds (w_minimums w))) = Ok (u, s0) /\
  swept fuel op sfk cfk (lml_values (w_minimums w)) s0 y k s /\
  holds s i r /\ ~ exists j, j <> i /\ holds s j r.
Proof.
  destruct tw_hot_ok as (u & E).
  exists false, tw, [(tw_subject, SUBJECT); (tw_clip, CLIP)], 100%nat, XOR, EVEN_ODD, EVEN_ODD, u, tw_hot, 0, 2%nat, (snd (tw_at 4)), 4%positive, 2%positive.
  split; [exact tw_built|]. split; [exact E|].
  assert (Y : live (snd (tw_at 4)) = [4; 3; 1]%positive) by (vm_compute; reflexivity).
  assert (V : map (bound_view (snd (tw_at 4))) [4; 3; 1]%positive
    = [(Some 2%positive, LEFT, Pt (-5) 98); (Some 1%positive, LEFT, Pt 1 49); (Some 1%positive, RIGHT, Pt 2 98)]) by (vm_compute; reflexivity).
  split.
  { assert (X : fst (tw_at 4) = (0, 2%nat)) by (vm_compute; reflexivity). pose proof (tw_at_swept 4) as H. rewrite X in H. exact H. }
  unfold holds. rewrite Y. generalize dependent (snd (tw_at 4)). intros s Y V. cbn [map] in V. unfold bound_view in V. injection V as V1 _ _ V2 _ _ V3 _ _.
  split; [split; [left; reflexivity|exact V1]|].
  intros (j & N & Ij & Hj). cbn in Ij. destruct Ij as [<-|[<-|[<-|[]]]]; congruence.
Qed.
Print Assumptions C50_both_ends_held_refuted.
