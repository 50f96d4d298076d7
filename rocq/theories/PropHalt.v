(** * Property theorem C51: the collection of the hot pixels always ends *)
From Coq Require Import ZArith List Bool Lia FMapPositive.
From Verif Require Import Py Monad Utils Geometry LinearRingM BoundM LocalMinimumM StateM
     PointNodeM RingM SweepM TopologyM WagyuM Examples SpecBounds SpecHistory HistoryP VatP OriginP FuelP
     HaltP PropOrigin HotHaltP PropSweep.
Import ListNotations.
Local Open Scope Z_scope.

(** A program of the model takes a number of rounds its loops may make.  It ends
    when, from some number of rounds on, it gives one and the same answer (a value or
    an exception) whatever the number is. *)
Definition ends {A} (program : nat -> res A) : Prop :=
  exists rounds answer, answer <> NoFuel /\ forall fuel, (rounds <= fuel)%nat -> program fuel = answer.

Lemma halt_ends {S A} (m : nat -> M S A) s : mono m -> halt m s -> ends (fun fuel => m fuel s).
Proof. intros Hm (f & N). exists f, (m f s). split; [exact N|]. intros g L. apply mono_up; assumption. Qed.

Section Recorded.
Context (w : wagyu) (rs : list (linear_ring * polygon_kind)) (R0 : well_recorded w rs).
Definition all_bounds : list bid := flat_map (fun lm => [lm_left lm; lm_right lm]) (lml_values (w_minimums w)).
Lemma recorded_all i : recorded w i -> In i all_bounds.
Proof. intros (lm & I & H). apply in_flat_map. exists lm. split; [exact I|]. destruct H as [-> | ->]; cbn; auto. Qed.
Lemma init_inv (bs := lml_bounds (w_minimums w)) : inv (fun i => b_edges (bget bs i)) (recorded w) (fun _ => True) (init_st bs).
Proof.
  split; [|split; [intros i; reflexivity|exact I]]. split; [|constructor]. constructor; cbn.
  - intros i. unfold hget. rewrite PositiveMap.gempty. split; intros j Hj; discriminate.
  - intros i. unfold hget. rewrite PositiveMap.gempty. intros j Hj. discriminate.
  - constructor.
  - intros i. unfold hget. rewrite PositiveMap.gempty. constructor.
  - reflexivity.
Qed.
Lemma hot_ends : ends (fun fuel => build_hot_pixels fuel (lml_values (w_minimums w)) (init_st (lml_bounds (w_minimums w)))).
Proof.
  apply (halt_ends (fun fuel => build_hot_pixels fuel (lml_values (w_minimums w)))).
  - intros f f' L. apply fuel_build_hot_pixels, L.
  - apply (halt_build_hot (fun i => b_edges (bget (lml_bounds (w_minimums w)) i)) (recorded w) all_bounds).
    + exact (eds_chain w rs R0).
    + exact (eds_hor w rs R0).
    + exact recorded_all.
    + intros i e Ri I. exact (recorded_edge_well_made w rs i e R0 Ri I).
    + exact (minima_ok w rs R0).
    + exact init_inv.
Qed.
End Recorded.

(** ** C51: whatever rings were added to a Wagyu object, the first pass of every
    operation (which collects the hot pixels) ends. *)
Theorem C51_collecting_the_hot_pixels_ends : forall rv w rs, built rv w rs ->
  ends (fun fuel => build_hot_pixels fuel (lml_values (w_minimums w)) (init_st (lml_bounds (w_minimums w)))).
Proof. intros rv w rs B. exact (hot_ends w rs (built_well_recorded rv w rs B)). Qed.
Print Assumptions C51_collecting_the_hot_pixels_ends.

(** The twelve-edge example of [PropSweep]: the pass ends and its answer is the state
    the sweep starts from; 100 rounds are more than enough.  A loop that never leaves
    does not end in the sense of [ends]. *)
Example C51_example : built false tw [(tw_subject, SUBJECT); (tw_clip, CLIP)] /\
  exists rounds u, forall fuel, (rounds <= fuel)%nat ->
    build_hot_pixels fuel (lml_values (w_minimums tw)) (init_st (lml_bounds (w_minimums tw))) = Ok (u, tw_hot).
Proof.
  split; [exact tw_built|]. destruct (C51_collecting_the_hot_pixels_ends _ _ _ tw_built) as (n & a & N & H).
  destruct tw_hot_ok as (u & E). exists (Nat.max n 100), u. intros fuel L.
  rewrite (mono_up (fun f => build_hot_pixels f (lml_values (w_minimums tw))) (init_st (lml_bounds (w_minimums tw))) 100 fuel).
  - exact E.
  - intros f f' L'. apply fuel_build_hot_pixels, L'.
  - lia.
  - rewrite E. discriminate.
Qed.
Example C51_endless : ~ ends (fun fuel => loopM (S := unit) (R := unit) fuel (fun x : unit => ret (inl x)) tt tt).
Proof.
  intros (n & a & N & H). apply N. rewrite <- (H n (le_n n)). clear. induction n; [reflexivity|exact IHn].
Qed.
