(** * Property theorems: the counts between the scanbeams of a whole sweep (C24, C26, C40)

    The vocabulary is in [SpecSweep.v], [SpecActive.v], [SpecRun.v] and
    [SpecHistory.v]. *)
From Coq Require Import ZArith List Bool Lia FMapPositive Permutation.
From Coq Require Import Floats.SpecFloat.
From Verif Require Import Py Monad Utils Spec SortP Geometry LinearRingM BoundM LocalMinimumM StateM
     PointNodeM RingM SweepM TopologyM WagyuM HoareP SweepFrameP SpecBounds SpecSweep SpecActive
     SpecHistory SpecRun WindingP CalmP WindingInvP VatP PipP IntersectP OrderP OriginP AddRingP HistoryP
     PropOrigin SweepRunP SweepInvP.
Import ListNotations.
Local Open Scope Z_scope.

(** ** Proofs *)
Lemma execute_vatti_turns fuel op sfk cfk minimums s :
  execute_vatti fuel op sfk cfk minimums s
  = loopM fuel (scanbeam_turn fuel op sfk cfk (pure_sort_rev lm_lt minimums)) (0, 0%nat) (sweep_start minimums s).
Proof. reflexivity. Qed.

Lemma loop_inr {S A B} (body : A -> M S (A + B)) (P : A -> S -> Prop) (Q : S -> Prop) :
  (forall x s x' s', P x s -> body x s = Ok (inl x', s') -> P x' s') ->
  (forall x s b s', P x s -> body x s = Ok (inr b, s') -> Q s') ->
  forall n x s b s', P x s -> loopM n body x s = Ok (b, s') -> Q s'.
Proof.
  intros H1 H2. induction n as [|n IH]; intros x s b s' HP E; [discriminate|].
  rewrite loopM_S in E. destruct (body x s) as [[[x'|b'] s1]| |] eqn:E1; [| |discriminate..].
  - eapply IH; [|exact E]. eapply H1; eassumption.
  - injection E as -> ->. eapply H2; eassumption.
Qed.

(** the loop passes through every state between two turns *)
Lemma loop_passes fuel op sfk cfk minimums s0 y k s :
  swept fuel op sfk cfk minimums s0 y k s ->
  forall n b s1, loopM n (scanbeam_turn fuel op sfk cfk (pure_sort_rev lm_lt minimums)) (0, 0%nat) (sweep_start minimums s0) = Ok (b, s1) ->
  exists n', loopM n' (scanbeam_turn fuel op sfk cfk (pure_sort_rev lm_lt minimums)) (y, k) s = Ok (b, s1).
Proof.
  intros H. induction H as [|y k s y' k' s' _ IH E]; intros n b s1 L.
  - exists n. exact L.
  - destruct (IH n b s1 L) as (n' & L'). destruct n' as [|n']; [discriminate|]. rewrite loopM_S, E in L'. exists n'. exact L'.
Qed.

Section Global.
Context (rv : bool) (w : wagyu) (rs : list (linear_ring * polygon_kind)) (B : built rv w rs).
Context (fuel : nat) (op : operation_kind) (sfk cfk : fill_kind).
Notation minimums := (lml_values (w_minimums w)).
Notation bs := (lml_bounds (w_minimums w)).
Context (s0 : st) (u : unit) (E0 : build_hot_pixels fuel minimums (init_st bs) = Ok (u, s0)).
Let R0 := built_well_recorded rv w rs B.

Lemma between_swept y k s : swept fuel op sfk cfk minimums s0 y k s -> between w op sfk cfk true k s.
Proof.
  destruct (start_inv w rs R0 fuel s0 u E0) as (HI & HS). apply (G_swept w rs R0 fuel op sfk cfk true s0 y k s eq_refl HI HS).
Qed.
Lemma swept_right y k s : swept fuel op sfk cfk minimums s0 y k s -> left_in_pairs minimums k s -> active_right op sfk cfk s.
Proof.
  intros H L. destruct (between_swept y k s H) as (_ & HS & _ & _ & [(_ & A & _)|(i & m & P & Ei & Ni & Hm & _)]); [exact A|].
  exfalso. destruct (L i m Ei Ni) as (X & Y).
  { apply (paired_max w i s m HS P). }
  destruct Hm as [Hm|Hm]; auto.
Qed.
Lemma swept_sloped_right y k s :
  (forall pts kind es e, In (pts, kind) rs -> linear_ring_edges pts = Ok es -> In e es -> py (etop e) <> py (ebot e)) ->
  swept fuel op sfk cfk minimums s0 y k s -> active_right op sfk cfk s.
Proof.
  intros F H. destruct (between_swept y k s H) as (_ & HS & _ & _ & [(_ & A & _)|(i & m & P & Ei & Ni & Hm & _ & Sl)]); [exact A|].
  exfalso. apply Sl. intros l1 e Ee.
  assert (Rec : recorded w i) by (eapply entered_rec; exact Ei).
  destruct (recorded_edge w rs i e R0 Rec) as (pts & es & e' & I1 & I2 & I3 & I4).
  { rewrite Ee. apply in_or_app. right. left. reflexivity. }
  specialize (F _ _ _ _ I1 I2 I3). unfold undirected in I4.
  destruct (py (etop e') =? py (ebot e')) eqn:Q; [apply Z.eqb_eq in Q; contradiction|]. cbn [andb] in I4.
  destruct (py (etop e) =? py (ebot e)) eqn:Q'; [|apply Z.eqb_neq in Q'; exact Q']. apply Z.eqb_eq in Q'.
  destruct (px (etop e) <? px (ebot e)); cbn [andb] in I4; subst e'; cbn in F; congruence.
Qed.
Lemma pending_done ms k s s' : sweep_pending ms k s = Ok (false, s') -> s' = s /\ (length ms <= k)%nat.
Proof.
  intros E. unfold sweep_pending in E. apply bind_Ok in E. destruct E as (scan & s1 & E1 & E). apply gets_Ok in E1. destruct E1 as (-> & ->).
  apply ret_Ok in E. destruct E as (E & ->). split; [reflexivity|]. destruct (s_scan s); [|discriminate].
  symmetry in E. apply Nat.ltb_ge in E. exact E.
Qed.
Lemma lost_stays y k s n b s1 : between w op sfk cfk false k s ->
  loopM n (scanbeam_turn fuel op sfk cfk (pure_sort_rev lm_lt minimums)) (y, k) s = Ok (b, s1) -> live s1 <> [].
Proof.
  intros H. apply (loop_inr _ (fun x s => between w op sfk cfk false (snd x) s) (fun s1 => live s1 <> [])); [| |exact H].
  - intros [y1 k1] t [y2 k2] t' HB E. cbn [snd] in *. eapply (G_turn w rs R0); eassumption.
  - intros [y1 k1] t r t' HB E. cbn [snd] in *. unfold scanbeam_turn in E. apply bind_Ok in E. destruct E as (go & t1 & E1 & E).
    destruct go.
    + exfalso. repeat (apply bind_Ok in E; destruct E as (? & ? & _ & E)). apply ret_Ok in E. destruct E as (E & _). discriminate.
    + apply pending_done in E1. destruct E1 as (-> & Le). apply ret_Ok in E. destruct E as (_ & ->).
      destruct HB as (_ & _ & _ & _ & [(X & _)|(i & m & P & Ei & Ni & Hm & _)]); [discriminate|].
      assert (Em : entered minimums k1 m).
      { assert (Rm : recorded w m) by (eapply paired_rec; [exact R0|eapply entered_rec; exact Ei|exact P]).
        apply rec_in in Rm. destruct Rm as (x & Ix & Hx). exists x. split; [|exact Hx]. rewrite firstn_all2 by exact Le. exact Ix. }
      destruct Hm as [Hm|Hm]; [|contradiction]. intros Z. rewrite Z in Hm. exact Hm.
Qed.
Lemma swept_finished_right s1 u1 y k s : execute_vatti fuel op sfk cfk minimums s0 = Ok (u1, s1) -> live s1 = [] ->
  swept fuel op sfk cfk minimums s0 y k s -> active_right op sfk cfk s /\ left_in_pairs minimums k s.
Proof.
  intros E Z H. rewrite execute_vatti_turns in E. destruct (loop_passes _ _ _ _ _ _ _ _ _ H _ _ _ E) as (n & L).
  destruct (between_swept y k s H) as (HI & HS & N & Sub & [(_ & A & Fi)|Lo]).
  - split; [exact A|]. intros i j Ei Ni Hj. apply (Fi i j Ei Ni). eapply (max_paired w rs R0); [exact HS|eapply entered_rec; exact Ei|exact Hj].
  - exfalso. eapply lost_stays; [|exact L|exact Z]. split; [exact HI|]. split; [exact HS|]. split; [exact N|]. split; [exact Sub|]. right. exact Lo.
Qed.
Lemma swept_intersections y k s y1 s1 u1 s2 : swept fuel op sfk cfk minimums s0 y k s -> left_in_pairs minimums k s ->
  pop_scanbeam y s = Ok (y1, s1) -> process_intersections fuel op sfk cfk y1 s1 = Ok (u1, s2) ->
  active_right op sfk cfk s2 /\
  exists ids, s_abl s2 = map Some ids /\ Permutation (live s) ids /\ adjacent_ok (in_place s2) ids.
Proof.
  intros H L E1 E2. pose proof (swept_right y k s H L) as A. destruct (between_swept y k s H) as (HI & _ & _).
  assert (P : pres steady (pop_scanbeam y)) by (unfold pop_scanbeam; sd_auto).
  assert (A1 : active_right op sfk cfk s1) by (eapply steady_active; [exact (P _ _ _ E1)|exact A]).
  pose proof (tri_pop _ _ y _ (All_jab _) _ _ _ HI E1) as HI1.
  pose proof (positions_ok w rs R0 y1 s1 HI1) as Po.
  destruct (process_intersections_right fuel op sfk cfk y1 s1 s2 u1 A1 Po E2) as (X & ids & Y1 & Y2 & Y3).
  split; [exact X|]. exists ids. split; [exact Y1|]. split; [|exact Y3].
  replace (live s) with (live s1); [exact Y2|]. unfold live. f_equal. exact (proj1 (P _ _ _ E1)).
Qed.
End Global.

(** ** C24 *)
(** Between any two scanbeams of the sweep of any recorded rings, the active list is
    right (no bound twice, the counts of every bound are the winding numbers to its
    left, it carries an output ring iff membership changes across it), provided every
    bound that has left the list left together with its partner. *)
Theorem C24_counts_are_winding_numbers_between_scanbeams :
  forall rv w rs fuel op sfk cfk u s0 y k s,
  built rv w rs ->
  build_hot_pixels fuel (lml_values (w_minimums w)) (init_st (lml_bounds (w_minimums w))) = Ok (u, s0) ->
  swept fuel op sfk cfk (lml_values (w_minimums w)) s0 y k s ->
  left_in_pairs (lml_values (w_minimums w)) k s ->
  active_right op sfk cfk s.
Proof. intros rv w rs fuel op sfk cfk u s0 y k s B E H L. exact (swept_right rv w rs B fuel op sfk cfk s0 u E y k s H L). Qed.
Print Assumptions C24_counts_are_winding_numbers_between_scanbeams.
(** When no edge of the added rings is horizontal, no proviso is needed. *)
Theorem C24_counts_are_winding_numbers_without_horizontal_edges :
  forall rv w rs fuel op sfk cfk u s0 y k s,
  built rv w rs ->
  (forall pts kind es e, In (pts, kind) rs -> linear_ring_edges pts = Ok es -> In e es -> py (etop e) <> py (ebot e)) ->
  build_hot_pixels fuel (lml_values (w_minimums w)) (init_st (lml_bounds (w_minimums w))) = Ok (u, s0) ->
  swept fuel op sfk cfk (lml_values (w_minimums w)) s0 y k s ->
  active_right op sfk cfk s.
Proof. intros rv w rs fuel op sfk cfk u s0 y k s B F E H. exact (swept_sloped_right rv w rs B fuel op sfk cfk s0 u E y k s F H). Qed.
Print Assumptions C24_counts_are_winding_numbers_without_horizontal_edges.
(** Whatever the edges: when the sweep ends with an empty active list, the active list
    was right between any two scanbeams, and bounds left it in pairs. *)
Theorem C24_counts_are_winding_numbers_when_the_sweep_ends_empty :
  forall rv w rs fuel op sfk cfk u s0 u1 s1 y k s,
  built rv w rs ->
  build_hot_pixels fuel (lml_values (w_minimums w)) (init_st (lml_bounds (w_minimums w))) = Ok (u, s0) ->
  execute_vatti fuel op sfk cfk (lml_values (w_minimums w)) s0 = Ok (u1, s1) -> live s1 = [] ->
  swept fuel op sfk cfk (lml_values (w_minimums w)) s0 y k s ->
  active_right op sfk cfk s /\ left_in_pairs (lml_values (w_minimums w)) k s.
Proof. intros rv w rs fuel op sfk cfk u s0 u1 s1 y k s B E E1 Z H. exact (swept_finished_right rv w rs B fuel op sfk cfk s0 u E s1 u1 y k s E1 Z H). Qed.
Print Assumptions C24_counts_are_winding_numbers_when_the_sweep_ends_empty.

(** ** C26, C40 *)
(** On the way from one scan line to the next one, the intersections between the two
    lines leave the active list right and in the order of the positions on the new
    line. *)
Theorem C26_counts_after_the_intersections_of_any_scanbeam :
  forall rv w rs fuel op sfk cfk u s0 y k s y1 s1 u1 s2,
  built rv w rs ->
  build_hot_pixels fuel (lml_values (w_minimums w)) (init_st (lml_bounds (w_minimums w))) = Ok (u, s0) ->
  swept fuel op sfk cfk (lml_values (w_minimums w)) s0 y k s -> left_in_pairs (lml_values (w_minimums w)) k s ->
  pop_scanbeam y s = Ok (y1, s1) -> process_intersections fuel op sfk cfk y1 s1 = Ok (u1, s2) ->
  active_right op sfk cfk s2.
Proof.
  intros rv w rs fuel op sfk cfk u s0 y k s y1 s1 u1 s2 B E H L E1 E2.
  exact (proj1 (swept_intersections rv w rs B fuel op sfk cfk s0 u E y k s y1 s1 u1 s2 H L E1 E2)).
Qed.
Print Assumptions C26_counts_after_the_intersections_of_any_scanbeam.
Theorem C40_active_list_is_ordered_on_every_scan_line :
  forall rv w rs fuel op sfk cfk u s0 y k s y1 s1 u1 s2,
  built rv w rs ->
  build_hot_pixels fuel (lml_values (w_minimums w)) (init_st (lml_bounds (w_minimums w))) = Ok (u, s0) ->
  swept fuel op sfk cfk (lml_values (w_minimums w)) s0 y k s -> left_in_pairs (lml_values (w_minimums w)) k s ->
  pop_scanbeam y s = Ok (y1, s1) -> process_intersections fuel op sfk cfk y1 s1 = Ok (u1, s2) ->
  exists ids, s_abl s2 = map Some ids /\ Permutation (live s) ids /\ adjacent_ok (in_place s2) ids.
Proof.
  intros rv w rs fuel op sfk cfk u s0 y k s y1 s1 u1 s2 B E H L E1 E2.
  exact (proj2 (swept_intersections rv w rs B fuel op sfk cfk s0 u E y k s y1 s1 u1 s2 H L E1 E2)).
Qed.
Print Assumptions C40_active_list_is_ordered_on_every_scan_line.

(** *** A sweep that meets the hypotheses, and then loses a bound

    A subject triangle whose top side is horizontal and a clip quadrilateral. *)
Definition tw_subject : linear_ring := [Pt 2 98; Pt (-10) 0; Pt 0 0].
Definition tw_clip : linear_ring := [Pt (-1) (-49); Pt 1 49; Pt (-5) 98; Pt (-20) (-49)].
Definition tw_add (w : wagyu) (r : linear_ring) (k : polygon_kind) : wagyu :=
  match w_add_linear_ring w r k with Ok (_, w') => w' | _ => w end.
Definition tw_of (r : linear_ring) : wagyu := tw_add (tw_add (new_wagyu false) r SUBJECT) tw_clip CLIP.
Definition tw : wagyu := tw_of tw_subject.
Definition tw_minimums := lml_values (w_minimums tw).
Definition tw_hot : st :=
  match build_hot_pixels 100 tw_minimums (init_st (lml_bounds (w_minimums tw))) with
  | Ok (_, s) => s | _ => init_st (lml_bounds (w_minimums tw)) end.
Fixpoint tw_turns (n : nat) (x : Z * nat) (s : st) : (Z * nat) * st :=
  match n with
  | O => (x, s)
  | S n => match scanbeam_turn 100 XOR EVEN_ODD EVEN_ODD (pure_sort_rev lm_lt tw_minimums) x s with
           | Ok (inl x', s') => tw_turns n x' s'
           | _ => (x, s)
           end
  end.
Definition tw_at (n : nat) : (Z * nat) * st := tw_turns n (0, 0%nat) (sweep_start tw_minimums tw_hot).
Lemma tw_add_built w rs r k : (exists b w', w_add_linear_ring w r k = Ok (b, w')) ->
  built false w rs -> built false (tw_add w r k) (rs ++ [(r, k)]).
Proof. intros (b & w' & E) B. unfold tw_add. rewrite E. eapply built_ring; eassumption. Qed.
Lemma tw_built : built false tw [(tw_subject, SUBJECT); (tw_clip, CLIP)].
Proof.
  apply (tw_add_built _ [(tw_subject, SUBJECT)]); [do 2 eexists; vm_compute; reflexivity|].
  apply (tw_add_built _ []); [do 2 eexists; vm_compute; reflexivity|]. apply built_new.
Qed.
Lemma tw_hot_ok : exists u, build_hot_pixels 100 (lml_values (w_minimums tw)) (init_st (lml_bounds (w_minimums tw))) = Ok (u, tw_hot).
Proof.
  unfold tw_hot, tw_minimums. destruct (build_hot_pixels 100 _ _) as [[u s]| |] eqn:E; [exists u; reflexivity| |];
    (assert (X : match build_hot_pixels 100 (lml_values (w_minimums tw)) (init_st (lml_bounds (w_minimums tw))) with Ok _ => true | _ => false end = true)
      by (vm_compute; reflexivity)); rewrite E in X; discriminate.
Qed.
Lemma tw_turns_swept n : forall y k s, swept 100 XOR EVEN_ODD EVEN_ODD tw_minimums tw_hot y k s ->
  forall y' k' s', tw_turns n (y, k) s = ((y', k'), s') -> swept 100 XOR EVEN_ODD EVEN_ODD tw_minimums tw_hot y' k' s'.
Proof.
  induction n as [|n IH]; intros y k s H y' k' s' E; cbn [tw_turns] in E.
  - injection E as -> -> ->. exact H.
  - destruct (scanbeam_turn 100 XOR EVEN_ODD EVEN_ODD (pure_sort_rev lm_lt tw_minimums) (y, k) s) as [[[[y1 k1]|r] s1]| |] eqn:Et.
    + eapply IH; [|exact E]. eapply swept_turn; eassumption.
    + injection E as -> -> ->. exact H.
    + injection E as -> -> ->. exact H.
    + injection E as -> -> ->. exact H.
Qed.
Lemma tw_at_swept n : swept 100 XOR EVEN_ODD EVEN_ODD tw_minimums tw_hot (fst (fst (tw_at n))) (snd (fst (tw_at n))) (snd (tw_at n)).
Proof.
  destruct (tw_at n) as [[y k] s] eqn:E. cbn [fst snd]. eapply tw_turns_swept; [apply swept_start|]. exact E.
Qed.
(** after three turns all the bounds are active (so none has left), in the order
    4, 2, 3, 1, with counts that are right *)
Example C24_between_scanbeams_example :
  fst (tw_at 3) = (49, 2%nat) /\ live (snd (tw_at 3)) = [4; 2; 3; 1]%positive /\
  left_in_pairs tw_minimums 2 (snd (tw_at 3)) /\
  active_right XOR EVEN_ODD EVEN_ODD (snd (tw_at 3)).
Proof.
  assert (X : fst (tw_at 3) = (49, 2%nat)) by (vm_compute; reflexivity).
  assert (Y : live (snd (tw_at 3)) = [4; 2; 3; 1]%positive) by (vm_compute; reflexivity).
  assert (L : left_in_pairs tw_minimums 2 (snd (tw_at 3))).
  { intros i j (m & Im & Hi) Ni _. exfalso. apply Ni. rewrite Y.
    assert (M : firstn 2 (pure_sort_rev lm_lt tw_minimums) = [LM 2%positive 1%positive 98 false; LM 4%positive 3%positive 98 false] \/
                firstn 2 (pure_sort_rev lm_lt tw_minimums) = [LM 4%positive 3%positive 98 false; LM 2%positive 1%positive 98 false]).
    { vm_compute. auto. }
    destruct M as [M|M]; rewrite M in Im; cbn in Im; destruct Im as [<-|[<-|[]]]; cbn in Hi; destruct Hi as [->| ->]; cbn; auto. }
  split; [exact X|]. split; [exact Y|]. split; [exact L|].
  destruct tw_hot_ok as (u & E). pose proof (tw_at_swept 3) as H. rewrite X in H. cbn [fst snd] in H.
  exact (C24_counts_are_winding_numbers_between_scanbeams _ _ _ _ _ _ _ _ _ _ _ _ tw_built E H L).
Qed.
(** One turn later bound 2 has reached the end of the horizontal top side without
    meeting its partner 1, and is gone: the counts of bound 3 are wrong.  So the
    proviso of the first theorem cannot be dropped. *)
Theorem C24_between_scanbeams_refuted_without_the_proviso :
  exists rv w rs fuel op sfk cfk u s0 y k s,
  built rv w rs /\
  build_hot_pixels fuel (lml_values (w_minimums w)) (init_st (lml_bounds (w_minimums w))) = Ok (u, s0) /\
  swept fuel op sfk cfk (lml_values (w_minimums w)) s0 y k s /\
  ~ active_right op sfk cfk s.
Proof.
  destruct tw_hot_ok as (u & E).
  exists false, tw, [(tw_subject, SUBJECT); (tw_clip, CLIP)], 100%nat, XOR, EVEN_ODD, EVEN_ODD, u, tw_hot, 0, 2%nat, (snd (tw_at 4)).
  split; [exact tw_built|]. split; [exact E|]. split.
  - assert (X : fst (tw_at 4) = (0, 2%nat)) by (vm_compute; reflexivity).
    pose proof (tw_at_swept 4) as H. rewrite X in H. exact H.
  - intros (_ & L).
    assert (Y : live (snd (tw_at 4)) = [4; 3; 1]%positive) by (vm_compute; reflexivity).
    destruct (L [4%positive] 3%positive [1%positive] Y) as (_ & C & _).
    destruct C as (_ & C). revert C. vm_compute. discriminate.
Qed.
Print Assumptions C24_between_scanbeams_refuted_without_the_proviso.
