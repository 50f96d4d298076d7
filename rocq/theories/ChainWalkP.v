(** * The chains of the sweep through a whole sweep *)
From Coq Require Import ZArith List Bool Lia FMapPositive.
From Coq Require Import Floats.SpecFloat.
From RecordUpdate Require Import RecordSet.
From Verif Require Import Py Monad Utils Geometry LinearRingM BoundM LocalMinimumM
     StateM PointNodeM RingM SweepM HoareP SweepFrameP SpecRings CalmP VatP WindingInvP SplitP RingedP NodeFrameP ListP ChainP ChainBoundP ChainOpsP.
Import ListNotations RecordSetNotations.
Open Scope Z_scope.
Local Open Scope m_scope.

Definition c0 (ent X : bid -> Prop) (s : st) : Prop := cx (fun _ _ => True) (fun _ _ => True) (fun _ => True) ent X s.
Definition no : bid -> Prop := fun _ => False.
Lemma c0_weak (ent X Y : bid -> Prop) s : (forall j, act s j -> ~ Y j -> ~ X j) -> c0 ent X s -> c0 ent Y s.
Proof. apply cx_weak. Qed.

(** nothing the chains depend on has changed *)
Definition idle (s s' : st) : Prop := same_ringed s s' /\ s_abl s' = s_abl s /\
  forall i, b_ring (bget (s_bounds s') i) = b_ring (bget (s_bounds s) i) /\ b_side (bget (s_bounds s') i) = b_side (bget (s_bounds s) i) /\
            b_last (bget (s_bounds s') i) = b_last (bget (s_bounds s) i).
#[export] Instance idle_pre : PreOrd idle.
Proof.
  split.
  - intros s. split; [apply R_refl|]. repeat split.
  - intros a b c (A1 & A2 & A3) (B1 & B2 & B3). split; [eapply R_trans; eassumption|]. split; [congruence|].
    intros i. destruct (A3 i) as (X1 & X2 & X3), (B3 i) as (Y1 & Y2 & Y3). repeat split; congruence.
Qed.
#[export] Hint Resolve idle_pre : pres.
Lemma idle_c0 ent X s s' : idle s s' -> c0 ent X s -> c0 ent X s'.
Proof.
  intros (SR & A & B) (K & P & C & En). split; [intros ? ? _ _; exact I|]. exists P. split; [exact (chains_same P s s' SR C)|].
  unfold act in *. rewrite A. apply (ends_same _ _ ent _ X P (bget (s_bounds s))); [| | |exact En].
  - intros i. split; apply B.
  - auto.
  - intros i r _ _ _. apply B.
Qed.
Lemma id_upd_bound i f : (forall b, b_ring (f b) = b_ring b /\ b_side (f b) = b_side b /\ b_last (f b) = b_last b) -> pres idle (upd_bound i f).
Proof.
  intros H s u s' E. destruct (upd_onlyb _ _ _ _ _ E) as (O & SR). split; [exact SR|]. split; [apply O|]. intros j.
  destruct (Pos.eq_dec j i) as [->|N]; [rewrite (onlyb_self _ _ _ _ O); apply H|rewrite (onlyb_other _ _ _ _ _ O N); auto].
Qed.
Lemma id_modify (f : st -> st) : (forall s, s_abl (f s) = s_abl s /\ s_bounds (f s) = s_bounds s /\ same_ringed s (f s)) -> pres idle (modify f).
Proof. intros H. apply pres_modify. intros s. destruct (H s) as (A & B & C). split; [exact C|]. split; [exact A|]. rewrite B. auto. Qed.
Ltac id_prim := first [apply id_upd_bound; intros; repeat split; reflexivity
                      |apply id_modify; intros; repeat split; reflexivity].
Ltac id_auto := repeat first [progress pres_step | id_prim].
Ltac id f := intros; unfold f; id_auto.
Lemma id_bd i : pres idle (bd i). Proof. id bd. Qed.
Lemma id_current_edge i : pres idle (current_edge i).
Proof. unfold current_edge. apply pres_bind; [exact _|apply id_bd|]. intros. id_auto. Qed.
Lemma id_next_edge i : pres idle (next_edge i).
Proof. unfold next_edge. apply pres_bind; [exact _|apply id_bd|]. intros. id_auto. Qed.
Lemma id_insort y : pres idle (insort_scan y). Proof. id insort_scan. Qed.
#[export] Hint Resolve id_bd id_current_edge id_next_edge id_insort : pres.
Lemma id_to_next i : pres idle (to_next_edge i). Proof. id to_next_edge. Qed.
Lemma id_update_x y : pres idle (update_current_x y). Proof. id update_current_x. Qed.
Lemma id_intermediate i y : pres idle (is_intermediate i y). Proof. id is_intermediate. Qed.
Lemma id_maxima i y : pres idle (is_maxima i y). Proof. id is_maxima. Qed.
Lemma id_abl_get k : pres idle (abl_get k). Proof. id abl_get. Qed.
#[export] Hint Resolve id_to_next id_update_x id_intermediate id_maxima id_abl_get : pres.
Lemma id_abl_bound k : pres idle (abl_bound k). Proof. id abl_bound. Qed.
#[export] Hint Resolve id_abl_bound : pres.
Lemma id_winding a b k : pres idle (set_winding_count a b k). Proof. id set_winding_count. Qed.
Lemma id_pop y : pres idle (pop_scanbeam y). Proof. id pop_scanbeam. Qed.
Lemma id_hpi f y : pres idle (update_current_hot_pixel_index f y). Proof. id update_current_hot_pixel_index. Qed.
#[export] Hint Resolve id_winding id_pop id_hpi : pres.

(** ** Two bounds cross *)
Section Cross.
Context (fuel : nat) (op : operation_kind) (sfk cfk : fill_kind) (ent : bid -> Prop).
Lemma crossing_cases c1 c2 k1 k2 a b c d : match crossing op sfk cfk c1 c2 k1 k2 a b c d with
  | ActMaximum | ActSwap => c1 = true /\ c2 = true | ActSwapFirst => c1 = true /\ c2 = false | ActSwapSecond => c1 = false /\ c2 = true
  | ActMinimum | ActSwapSides => c1 = false /\ c2 = false | ActNothing => True end.
Proof.
  unfold crossing. destruct c1, c2; cbn [andb].
  - match goal with |- context [if ?x then _ else _] => destruct x end; auto.
  - match goal with |- context [if ?x then _ else _] => destruct x end; auto.
  - match goal with |- context [if ?x then _ else _] => destruct x end; auto.
  - destruct (_ && _); [|auto]. destruct (negb _); [auto|]. destruct (_ && _); [|auto]. cbv zeta.
    match goal with |- context [if ?x then _ else _] => destruct x end; auto.
Qed.
Lemma some_true {A} (o : option A) : is_some o = true -> o <> None. Proof. destruct o; discriminate. Qed.
Lemma some_false {A} (o : option A) : is_some o = false -> o = None. Proof. destruct o; [discriminate|reflexivity]. Qed.
Lemma upd_two i j f g s u s' : i <> j -> (upd_bound i f ;; upd_bound j g) s = Ok (u, s') ->
  same_ringed s s' /\ s_abl s' = s_abl s /\ s_hp s' = s_hp s /\ bget (s_bounds s') i = f (bget (s_bounds s) i) /\ bget (s_bounds s') j = g (bget (s_bounds s) j) /\
  forall k, k <> i -> k <> j -> bget (s_bounds s') k = bget (s_bounds s) k.
Proof.
  intros N E. apply bind_ok in E as (v & t & Ea & E). destruct (upd_onlyb _ _ _ _ _ Ea) as (O1 & S1). destruct (upd_onlyb _ _ _ _ _ E) as (O2 & S2).
  split; [eapply R_trans; eassumption|]. split; [destruct O1 as (A1 & _), O2 as (A2 & _); congruence|]. split; [destruct O1 as (_ & A1 & _), O2 as (_ & A2 & _); congruence|].
  split; [rewrite (onlyb_other _ _ _ _ _ O2 N); apply (onlyb_self _ _ _ _ O1)|].
  split; [rewrite (onlyb_self _ _ _ _ O2), (onlyb_other _ _ _ _ _ O1) by congruence; reflexivity|].
  intros k K1 K2. rewrite (onlyb_other _ _ _ _ _ O2 K2). apply (onlyb_other _ _ _ _ _ O1 K1).
Qed.
Definition crossed (i j : bid) (s s' : st) : Prop := same_ringed s s' /\ s_abl s' = s_abl s /\ s_hp s' = s_hp s /\
  bget (s_bounds s') i = (bget (s_bounds s) i) <| b_side := b_side (bget (s_bounds s) j) |> <| b_ring := b_ring (bget (s_bounds s) j) |> /\
  bget (s_bounds s') j = (bget (s_bounds s) j) <| b_side := b_side (bget (s_bounds s) i) |> <| b_ring := b_ring (bget (s_bounds s) i) |> /\
  forall k, k <> i -> k <> j -> bget (s_bounds s') k = bget (s_bounds s) k.
Lemma swaps_run i j s u s' : i <> j -> (swap_sides i j ;; swap_rings i j) s = Ok (u, s') -> crossed i j s s'.
Proof.
  intros N E. apply bind_ok in E as (v & t & Ea & E). unfold swap_sides in Ea.
  apply bind_ok in Ea as (a & t0 & Eb & Ea). apply bd_Ok in Eb as (-> & ->). apply bind_ok in Ea as (b & t0 & Eb & Ea). apply bd_Ok in Eb as (-> & ->).
  apply (upd_two i j) in Ea; [|exact N]. destruct Ea as (S1 & A1 & H1 & Bi & Bj & Bo). unfold swap_rings in E.
  apply bind_ok in E as (a & t0 & Eb & E). apply bd_Ok in Eb as (-> & ->). apply bind_ok in E as (b & t0 & Eb & E). apply bd_Ok in Eb as (-> & ->).
  apply (upd_two i j) in E; [|exact N]. destruct E as (S2 & A2 & H2 & Ci & Cj & Co).
  split; [eapply R_trans; eassumption|]. split; [congruence|]. split; [congruence|]. rewrite Ci, Cj, Bi, Bj. split; [reflexivity|]. split; [reflexivity|].
  intros k K1 K2. rewrite Co, Bo by assumption. reflexivity.
Qed.
Lemma swaps_c0 p i j s u s' : i <> j -> c0 ent no s -> act s i -> act s j -> b_last (bget (s_bounds s) i) = p -> b_last (bget (s_bounds s) j) = p ->
  (swap_sides i j ;; swap_rings i j) s = Ok (u, s') -> c0 ent no s' /\ s_abl s' = s_abl s.
Proof.
  intros N (K & P & C & En) Ai Aj Li Lj E. destruct (swaps_run i j s u s' N E) as (SR & A & H & Bi & Bj & Bo).
  split; [|exact A]. split; [intros ? ? _ _; exact I|]. exists P. split; [exact (chains_same P s s' SR C)|]. unfold act in *. rewrite A.
  apply (ends_swap _ _ ent _ no P (bget (s_bounds s)) (bget (s_bounds s')) i j p En Ai Aj N); auto; rewrite ?Bi, ?Bj; auto.
Qed.
Lemma sides_c0 i j s u s' : i <> j -> c0 ent no s -> b_ring (bget (s_bounds s) i) = None -> b_ring (bget (s_bounds s) j) = None ->
  swap_sides i j s = Ok (u, s') -> c0 ent no s' /\ s_abl s' = s_abl s.
Proof.
  intros N (K & P & C & En) Ri Rj Ea. unfold swap_sides in Ea.
  apply bind_ok in Ea as (a & t0 & Eb & Ea). apply bd_Ok in Eb as (-> & ->). apply bind_ok in Ea as (b & t0 & Eb & Ea). apply bd_Ok in Eb as (-> & ->).
  apply (upd_two i j) in Ea; [|exact N]. destruct Ea as (S1 & A1 & H1 & Bi & Bj & Bo).
  split; [|exact A1]. split; [intros ? ? _ _; exact I|]. exists P. split; [exact (chains_same P s s' S1 C)|]. unfold act in *. rewrite A1.
  assert (Er : forall k, b_ring (bget (s_bounds s') k) = b_ring (bget (s_bounds s) k)).
  { intros k. destruct (Pos.eq_dec k i) as [->|K1]; [rewrite Bi; reflexivity|]. destruct (Pos.eq_dec k j) as [->|K2]; [rewrite Bj; reflexivity|]. rewrite Bo by assumption. reflexivity. }
  assert (Eq : forall k r, b_ring (bget (s_bounds s) k) = Some r -> bget (s_bounds s') k = bget (s_bounds s) k).
  { intros k r Rk. apply Bo; congruence. }
  destruct En as [H2 H3 H4 H5 H6 H7]. split.
  - intros k r Ak Rk. rewrite Er in Rk. destruct (H2 k r Ak Rk). auto.
  - intros k r Ak Xk Rk. rewrite Er in Rk. rewrite (Eq k r Rk). auto.
  - intros k l r Ak Al Nk Rk Rl. rewrite Er in Rk, Rl. rewrite (Eq k r Rk), (Eq l r Rl). eauto.
  - auto.
  - intros r Pr. left. exact I.
  - intros k r Ak Rk. rewrite Er in Rk. destruct (H7 k r Ak Rk) as [(l & Y1 & Y2 & Y3)|(l & Y)]; [left; exists l; rewrite Er; auto|right; exists l; rewrite Er; exact Y].
Qed.
Lemma add_c0 (X : bid -> Prop) i p s u s' : c0 ent X s -> act s i -> b_ring (bget (s_bounds s) i) <> None -> add_point i p s = Ok (u, s') ->
  c0 ent X s' /\ onlyb i ((bget (s_bounds s) i) <| b_last := p |>) s s'.
Proof. intros C A R E. apply (add_point_cx (fun _ _ => True) (fun _ _ => True) (fun _ => True) ent) with (u := u); auto. Qed.
Lemma last_c0 i p s u s' : c0 ent no s -> b_ring (bget (s_bounds s) i) = None -> upd_bound i (fun b => b <| b_last := p |>) s = Ok (u, s') ->
  c0 ent no s' /\ onlyb i ((bget (s_bounds s) i) <| b_last := p |>) s s'.
Proof.
  intros (K & P & C & En) R E. destruct (upd_onlyb _ _ _ _ _ E) as (O & SR). split; [|exact O].
  split; [intros ? ? _ _; exact I|]. exists P. split; [exact (chains_same P s s' SR C)|]. pose proof O as (A & _). unfold act in *. rewrite A.
  apply (ends_same _ _ ent _ no P (bget (s_bounds s))); [| | |exact En].
  - intros k. destruct (Pos.eq_dec k i) as [->|K1]; [rewrite (onlyb_self _ _ _ _ O); split; reflexivity|rewrite (onlyb_other _ _ _ _ _ O K1); split; reflexivity].
  - auto.
  - intros k r _ _ Rk. rewrite (onlyb_other _ _ _ _ _ O); [reflexivity|]. congruence.
Qed.
Lemma ob_actb i b s s' k : onlyb i b s s' -> act s k -> act s' k.
Proof. intros O. apply (onlyb_act _ _ _ _ _ O). Qed.
Lemma intersect_c0 p i j s u s' : c0 ent no s -> act s i -> act s j -> i <> j -> intersect_bounds fuel op sfk cfk p i j s = Ok (u, s') ->
  c0 ent no s' /\ s_abl s' = s_abl s.
Proof.
  intros C Ai Aj N E. unfold intersect_bounds in E.
  apply bind_ok in E as (b1 & t & Ea & E). apply bd_Ok in Ea as (-> & ->). apply bind_ok in E as (b2 & t & Ea & E). apply bd_Ok in Ea as (-> & ->).
  destruct (crossed_windings _ _ _ _) as [[wc1 owc1] [wc2 owc2]].
  apply bind_ok in E as (v1 & s1 & Ea & E). apply bind_ok in E as (v2 & s2 & Eb & E).
  assert (Id : idle s s2).
  { eapply R_trans; [eapply (id_upd_bound i); [|exact Ea]|eapply (id_upd_bound j); [|exact Eb]]; intros; repeat split. }
  pose proof (idle_c0 _ _ _ _ Id C) as C2. destruct Id as (_ & A2 & B2).
  assert (Ai2 : act s2 i) by (unfold act in *; rewrite A2; exact Ai). assert (Aj2 : act s2 j) by (unfold act in *; rewrite A2; exact Aj).
  destruct (B2 i) as (Ri & _). destruct (B2 j) as (Rj & _). rewrite <- Ri, <- Rj in E. rewrite <- A2. clear Ai Aj C Ea Eb A2 B2 Ri Rj v1 v2 s1.
  match type of E with match crossing _ _ _ ?c1 ?c2 ?k1 ?k2 ?a ?b ?c ?d with _ => _ end _ = _ => pose proof (crossing_cases c1 c2 k1 k2 a b c d) as Cs; destruct (crossing op sfk cfk c1 c2 k1 k2 a b c d) end.
  - destruct Cs as (R1 & R2). apply some_true in R1, R2.
    destruct (add_lmax_cx (fun _ _ => True) (fun _ _ => True) (fun _ => True) ent ltac:(auto) ltac:(auto) ltac:(auto) ltac:(auto) fuel p i j s2 u s' C2 Ai2 Aj2 N I I R1 R2 E) as (Z & Y). split; [exact Z|apply Y].
  - destruct Cs as (R1 & R2). apply some_true in R1, R2. apply bind_ok in E as (v1 & s3 & Ea & E). destruct (add_c0 no i p s2 v1 s3 C2 Ai2 R1 Ea) as (C3 & O3).
    apply bind_ok in E as (v2 & s4 & Eb & E).
    destruct (add_c0 no j p s3 v2 s4 C3 (ob_actb _ _ _ _ _ O3 Aj2)) as (C4 & O4); [rewrite (onlyb_other _ _ _ _ _ O3) by congruence; exact R2|exact Eb|].
    destruct (swaps_c0 p i j s4 u s' N C4 (ob_actb _ _ _ _ _ O4 (ob_actb _ _ _ _ _ O3 Ai2)) (ob_actb _ _ _ _ _ O4 (ob_actb _ _ _ _ _ O3 Aj2))) as (C5 & A5).
    + rewrite (onlyb_other _ _ _ _ _ O4 N), (onlyb_self _ _ _ _ O3). reflexivity.
    + rewrite (onlyb_self _ _ _ _ O4). reflexivity.
    + exact E.
    + split; [exact C5|]. destruct O3 as (X3 & _), O4 as (X4 & _). congruence.
  - destruct Cs as (R1 & R2). apply some_true in R1. apply some_false in R2. apply bind_ok in E as (v1 & s3 & Ea & E). destruct (add_c0 no i p s2 v1 s3 C2 Ai2 R1 Ea) as (C3 & O3).
    apply bind_ok in E as (v2 & s4 & Eb & E).
    destruct (last_c0 j p s3 v2 s4 C3) as (C4 & O4); [rewrite (onlyb_other _ _ _ _ _ O3) by congruence; exact R2|exact Eb|].
    destruct (swaps_c0 p i j s4 u s' N C4 (ob_actb _ _ _ _ _ O4 (ob_actb _ _ _ _ _ O3 Ai2)) (ob_actb _ _ _ _ _ O4 (ob_actb _ _ _ _ _ O3 Aj2))) as (C5 & A5).
    + rewrite (onlyb_other _ _ _ _ _ O4 N), (onlyb_self _ _ _ _ O3). reflexivity.
    + rewrite (onlyb_self _ _ _ _ O4). reflexivity.
    + exact E.
    + split; [exact C5|]. destruct O3 as (X3 & _), O4 as (X4 & _). congruence.
  - destruct Cs as (R1 & R2). apply some_true in R2. apply some_false in R1. apply bind_ok in E as (v1 & s3 & Ea & E). destruct (last_c0 i p s2 v1 s3 C2 R1 Ea) as (C3 & O3).
    apply bind_ok in E as (v2 & s4 & Eb & E).
    destruct (add_c0 no j p s3 v2 s4 C3 (ob_actb _ _ _ _ _ O3 Aj2)) as (C4 & O4); [rewrite (onlyb_other _ _ _ _ _ O3) by congruence; exact R2|exact Eb|].
    destruct (swaps_c0 p i j s4 u s' N C4 (ob_actb _ _ _ _ _ O4 (ob_actb _ _ _ _ _ O3 Ai2)) (ob_actb _ _ _ _ _ O4 (ob_actb _ _ _ _ _ O3 Aj2))) as (C5 & A5).
    + rewrite (onlyb_other _ _ _ _ _ O4 N), (onlyb_self _ _ _ _ O3). reflexivity.
    + rewrite (onlyb_self _ _ _ _ O4). reflexivity.
    + exact E.
    + split; [exact C5|]. destruct O3 as (X3 & _), O4 as (X4 & _). congruence.
  - destruct Cs as (R1 & R2). apply some_false in R1, R2.
    destruct (add_lmin_cx (fun _ _ => True) (fun _ _ => True) (fun _ => True) ent ltac:(auto) no p i j s2 u s' C2 Ai2 Aj2 N I I R1 R2 E) as (Z & Y). split; [exact Z|apply Y].
  - destruct Cs as (R1 & R2). apply some_false in R1, R2. exact (sides_c0 i j s2 u s' N C2 R1 R2 E).
  - apply ret_Ok in E as (_ & ->). auto.
Qed.
End Cross.
