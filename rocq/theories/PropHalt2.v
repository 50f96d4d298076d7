(** * Property theorem C52: the building of the rings always ends *)
From Coq Require Import ZArith List Bool Lia FMapPositive.
From RecordUpdate Require Import RecordSet.
From Verif Require Import Py Monad Utils Geometry LinearRingM BoundM LocalMinimumM StateM
     PointNodeM RingM SweepM TopologyM WagyuM Examples SpecBounds SpecHistory SpecActive SpecRings SpecTree SpecRun SpecOrigin HistoryP SweepFrameP BlindP
     SpecHeap CalmP VatP OriginP SweepInvP FuelP RelP RunRelP RingedP HaltP PropOrigin HoldP HotHaltP GroundP SweepHaltP PropHalt PropSweep.
Import ListNotations RecordSetNotations.
Local Open Scope Z_scope.
Local Open Scope m_scope.

(** the same state without the traces that earlier operations may have left in the bounds *)
Definition wiped (s : st) : st := s <| s_abl := [] |> <| s_bounds := PositiveMap.map (fun b => b <| b_ring := None |>) (s_bounds s) |>.
Lemma wiped_bget s i : bget (s_bounds (wiped s)) i = bget (s_bounds s) i <| b_ring := None |>.
Proof.
  unfold bget, hget, wiped. cbn. unfold PositiveMap.map. rewrite PositiveMap.gmapi. destruct (PositiveMap.find i (s_bounds s)); reflexivity.
Qed.

Section Recorded.
Context (w : wagyu) (rs : list (linear_ring * polygon_kind)) (R0 : well_recorded w rs) (op : operation_kind) (sfk cfk : fill_kind).
Notation bs := (lml_bounds (w_minimums w)).
Notation minimums := (lml_values (w_minimums w)).
Notation Rec := (recorded w).
Let eds (i : bid) : list edge := b_edges (bget bs i).

Lemma wiped_rel s : stc w s -> Rw (fun i => i) Rec true idk false none (s <| s_abl := [] |>) (wiped s).
Proof.
  intros HS. constructor; try contradiction; try (cbn; contradiction).
  - reflexivity.
  - reflexivity.
  - intros i Ri. rewrite wiped_bget. cbn [s_bounds]. unfold RelP.stat, idk. cbn.
    split; [reflexivity|]. split; [reflexivity|]. split; [reflexivity|]. split; [destruct (b_max (bget (s_bounds s) i)); reflexivity|]. split; [|discriminate].
    pose proof (HS i) as E. unfold static_of in E. injection E as E _ _ _. rewrite E.
    destruct R0 as [W1 _ W3 _ _ _]. destruct Ri as (lm & I1 & Hi). rewrite Forall_forall in W3. destruct (W3 lm I1) as (_ & N1 & N2 & _). destruct Hi; subst; assumption.
Qed.
Lemma own_minima : Forall2 (lmr (fun i => i) Rec) minimums minimums.
Proof.
  assert (G : forall l, (forall lm, In lm l -> In lm minimums) -> Forall2 (lmr (fun i => i) Rec) l l).
  { induction l as [|m l IH]; intros Hl; constructor; [|apply IH; intros; apply Hl; right; assumption].
    constructor; try reflexivity; exists m; (split; [apply Hl; left; reflexivity|auto]). }
  apply G. auto.
Qed.
Lemma wiped_same f s : stc w s -> execute_vatti f op sfk cfk minimums s = NoFuel -> execute_vatti f op sfk cfk minimums (wiped s) = NoFuel.
Proof.
  intros HS E. pose proof (same_same op sfk cfk) as [D1 D2 D3 D4 D5].
  pose proof (rl_execute_vatti (fun i => i) (fun i j H => H) Rec true idk false eq_refl op op sfk cfk sfk cfk D1 D2 D3 D4 D5 f none
    minimums minimums own_minima _ _ (wiped_rel s HS)) as G.
  rewrite <- vatti_any_abl, E in G. unfold orel in G. destruct (execute_vatti f op sfk cfk minimums (wiped s)) as [[? ?]| |]; [destruct G|destruct G|reflexivity].
Qed.
Lemma wiped_inv s : inv eds Rec (fun _ => True) s -> inv eds Rec (fun _ => True) (wiped s).
Proof.
  intros (V & H & _). split; [|split; [|exact I]].
  - eapply vat_frame; [|exact V]; repeat split.
  - intros i. rewrite wiped_bget. exact (H i).
Qed.
Lemma wiped_sound s : hold (init_st bs) s -> sound (sweep_start minimums (wiped s)).
Proof.
  intros (E1 & E2 & E3 & E4 & E5 & E6 & E7). cbn in E1, E2, E3, E4, E5, E6, E7.
  assert (Ei : forall i, ring_of (sweep_start minimums (wiped s)) i = None).
  { intros i. unfold ring_of, node_at. cbn. rewrite E2. unfold hget. rewrite PositiveMap.gempty. reflexivity. }
  assert (Er : forall r, the_ring (sweep_start minimums (wiped s)) r = new_ring).
  { intros r. unfold the_ring. cbn. rewrite E1. unfold hget. rewrite PositiveMap.gempty. reflexivity. }
  split.
  - apply (well_same (init_st bs)); [|apply well_init].
    assert (An : forall i, node_at (sweep_start minimums (wiped s)) i = node_at (init_st bs) i) by (intros i; unfold node_at; cbn; rewrite E2; reflexivity).
    assert (Ar : forall r, ring_at (sweep_start minimums (wiped s)) r = ring_at (init_st bs) r) by (intros r; unfold ring_at; cbn; rewrite E1; reflexivity).
    split; [exact An|]. split; [exact E3|]. split; [exact E4|]. split; [exact E6|]. intros r. rewrite Ar. split; reflexivity.
  - intros [o|] r L; unfold listed, kids in L.
    + rewrite Er in L. destruct L.
    + cbn in L. rewrite E5 in L. destruct L.
  - intros r. apply gr_some. unfold parent_of. rewrite Er. apply gr_none.
  - intros r q H. unfold parent_of in H. rewrite Er in H. discriminate.
  - intros i r H. change (s_bounds (sweep_start minimums (wiped s))) with (s_bounds (wiped s)) in H. rewrite wiped_bget in H. discriminate.
  - intros r b H. rewrite Er in H. discriminate.
  - cbn. constructor.
Qed.
Lemma mono_vatti : mono (fun f => execute_vatti f op sfk cfk minimums).
Proof. intros f f' L. apply fuel_execute_vatti, L. Qed.
Lemma halt_rings fuel0 u s0 : build_hot_pixels fuel0 minimums (init_st bs) = Ok (u, s0) -> halt (fun f => execute_vatti f op sfk cfk minimums) s0.
Proof.
  intros E. pose proof (start_inv w rs R0 _ _ _ E) as (HI & HS).
  pose proof (hd_build_hot_pixels fuel0 minimums _ _ _ E) as Ho.
  assert (H : halt (fun f => execute_vatti f op sfk cfk minimums) (wiped s0)).
  { eapply (halt_vatti w rs R0 op sfk cfk (all_bounds w) (recorded_all w)).
    - apply wiped_inv, HI.
    - intros i. rewrite wiped_bget. rewrite <- (HS i). reflexivity.
    - apply wiped_sound, Ho. }
  destruct H as (f & N). exists f. intros X. apply N. apply wiped_same; [exact HS|exact X].
Qed.
Lemma passes_halt : halt (fun f => build_hot_pixels f minimums ;; execute_vatti f op sfk cfk minimums) (init_st bs).
Proof.
  apply (halt_bind (fun f => build_hot_pixels f minimums) (fun f _ => execute_vatti f op sfk cfk minimums)).
  - intros f f' L. apply fuel_build_hot_pixels, L.
  - intros _. exact mono_vatti.
  - apply (halt_build_hot (fun i => b_edges (bget (lml_bounds (w_minimums w)) i)) (recorded w) (all_bounds w)).
    + exact (eds_chain w rs R0).
    + exact (eds_hor w rs R0).
    + exact (recorded_all w).
    + intros i e Ri I. exact (recorded_edge_well_made w rs i e R0 Ri I).
    + exact (minima_ok w rs R0).
    + exact (init_inv w).
  - intros f u s E. exact (halt_rings f u s E).
Qed.
End Recorded.

(** ** C52: whatever rings were added to a Wagyu object and whatever operations ran on
    it before, the second pass (which builds the rings, from the state the first pass
    leaves) ends for every operation and every pair of fill rules. *)
Theorem C52_the_building_of_the_rings_ends : forall rv w rs fuel0 u s0, built rv w rs ->
  build_hot_pixels fuel0 (lml_values (w_minimums w)) (init_st (lml_bounds (w_minimums w))) = Ok (u, s0) ->
  forall op sfk cfk, ends (fun fuel => execute_vatti fuel op sfk cfk (lml_values (w_minimums w)) s0).
Proof.
  intros rv w rs fuel0 u s0 B E op sfk cfk. apply (halt_ends (fun f => execute_vatti f op sfk cfk (lml_values (w_minimums w)))).
  - apply mono_vatti.
  - exact (halt_rings w rs (built_well_recorded rv w rs B) op sfk cfk _ _ _ E).
Qed.
Print Assumptions C52_the_building_of_the_rings_ends.

(** the two passes one after the other, from the start of the operation *)
Theorem C52_the_two_passes_end : forall rv w rs op sfk cfk, built rv w rs ->
  ends (fun fuel => (build_hot_pixels fuel (lml_values (w_minimums w)) ;;
                     execute_vatti fuel op sfk cfk (lml_values (w_minimums w)))%M (init_st (lml_bounds (w_minimums w)))).
Proof.
  intros rv w rs op sfk cfk B. apply (halt_ends (fun fuel => (build_hot_pixels fuel (lml_values (w_minimums w)) ;;
                     execute_vatti fuel op sfk cfk (lml_values (w_minimums w))))).
  - apply mono_bind; [intros f f' L; apply fuel_build_hot_pixels, L|intros _; apply mono_vatti].
  - exact (passes_halt w rs (built_well_recorded rv w rs B) op sfk cfk).
Qed.
Print Assumptions C52_the_two_passes_end.

(** The twelve-edge example of [PropSweep]: a pass with 100 rounds puts out ten points
    (symmetric difference), so every higher number of rounds gives the same. *)
Definition put_out {A} (x : res (A * st)) : option nat := match x with Ok (_, s) => Some (length (s_all s)) | _ => None end.
Lemma settled {A} (m : nat -> res (A * st)) n : (forall f f', (f <= f')%nat -> m f <> NoFuel -> m f' = m f) ->
  ends m -> put_out (m 100%nat) = Some n -> exists rounds u s, length (s_all s) = n /\ forall fuel, (rounds <= fuel)%nat -> m fuel = Ok (u, s).
Proof.
  intros Mo _ E. destruct (m 100%nat) as [[u s]| |] eqn:Em; try discriminate. injection E as E. exists 100%nat, u, s. split; [exact E|].
  intros fuel L. rewrite <- Em. apply Mo; [exact L|]. rewrite Em. discriminate.
Qed.
Example C52_example : built false tw [(tw_subject, SUBJECT); (tw_clip, CLIP)] /\
  (exists u, build_hot_pixels 100 (lml_values (w_minimums tw)) (init_st (lml_bounds (w_minimums tw))) = Ok (u, tw_hot)) /\
  exists rounds u s, length (s_all s) = 10%nat /\ forall fuel, (rounds <= fuel)%nat ->
    execute_vatti fuel XOR EVEN_ODD EVEN_ODD (lml_values (w_minimums tw)) tw_hot = Ok (u, s).
Proof.
  split; [exact tw_built|]. split; [exact tw_hot_ok|]. destruct tw_hot_ok as (u & E).
  apply (settled (fun fuel => execute_vatti fuel XOR EVEN_ODD EVEN_ODD (lml_values (w_minimums tw)) tw_hot)).
  - intros f f' L N. apply (mono_up (fun f => execute_vatti f XOR EVEN_ODD EVEN_ODD (lml_values (w_minimums tw)))); [|exact L|exact N]. apply mono_vatti.
  - exact (C52_the_building_of_the_rings_ends _ _ _ _ _ _ tw_built E XOR EVEN_ODD EVEN_ODD).
  - vm_compute. reflexivity.
Qed.
