(** * Intersections of subject rings only: nothing is ever put out *)
From Coq Require Import ZArith List Bool Lia FMapPositive.
From RecordUpdate Require Import RecordSet.
From Verif Require Import Py Monad Utils Geometry LinearRingM BoundM LocalMinimumM
     StateM PointNodeM RingM SweepM TopologyM HoareP WagyuM SpecHistory SweepFrameP.
Import ListNotations RecordSetNotations.
Open Scope Z_scope.
Local Open Scope m_scope.

(** a bound that never contributes: subject, outside of every clip ring, no chain *)
Definition idle (b : bound) : Prop := b_kind b = SUBJECT /\ b_owc b = 0 /\ b_ring b = None.
Record blank (s : st) : Prop := {
  bl_idle : forall i, idle (bget (s_bounds s) i);
  bl_rings : s_rnext s = 1%positive;
  bl_nodes : s_all s = [];
  bl_kids : s_children s = []
}.
Definition keeps (s s' : st) : Prop := blank s -> blank s'.
#[export] Instance keeps_pre : PreOrd keeps.
Proof. split; unfold keeps; auto. Qed.
Lemma keeps_bd {A} i (k : bound -> prog A) : (forall b, idle b -> pres keeps (k b)) -> pres keeps (bind (bd i) k).
Proof. intros H s a s' E J. unfold bind, bd, gets in E. exact (H _ (bl_idle _ J i) s a s' E J). Qed.
Lemma keeps_get {A} (k : st -> prog A) : (forall s, blank s -> pres keeps (k s)) -> pres keeps (bind get k).
Proof. intros H s a s' E J. unfold bind, get in E. exact (H s J s a s' E J). Qed.
Lemma keeps_upd i f : (forall b, idle b -> idle (f b)) -> pres keeps (upd_bound i f).
Proof.
  intros H. apply pres_modify. intros s [J1 J2 J3 J4]. constructor; cbn; auto.
  intros j. rewrite bget_hset. destruct (Pos.eqb_spec i j) as [->|_]; auto.
Qed.
Lemma keeps_mod f : (forall s, s_bounds (f s) = s_bounds s /\ s_rnext (f s) = s_rnext s /\ s_all (f s) = s_all s /\ s_children (f s) = s_children s) ->
  pres keeps (modify f).
Proof. intros H. apply pres_modify. intros s [J1 J2 J3 J4]. destruct (H s) as (E1 & E2 & E3 & E4). constructor; rewrite ?E1, ?E2, ?E3, ?E4; auto. Qed.
Ltac ks_step :=
  cbv zeta;
  match goal with
  | |- forall _, _ => intro
  | |- pres _ (bind (bd _) _) => apply keeps_bd; let b := fresh "b" in let H := fresh "Hb" in intros b H; pose proof (proj2 (proj2 H)); repeat match goal with E : b_ring _ = None |- _ => rewrite !E; revert E end; intros; cbn [is_some is_none negb andb orb]
  | |- pres _ (bind get _) => apply keeps_get; let s := fresh "s" in let J := fresh "J" in intros s J
  | |- pres _ (upd_bound _ _) => apply keeps_upd; let b := fresh "b" in intros b (?H1 & ?H2 & ?H3); repeat split; cbn; solve [assumption | reflexivity | congruence]
  | |- pres _ (modify _) => apply keeps_mod; intros ?s; repeat split; reflexivity
  | |- _ => pres_step
  end.
Ltac ks := repeat ks_step.

Lemma ks_bd i : pres keeps (bd i). Proof. apply pres_gets. typeclasses eauto. Qed.
#[local] Hint Resolve ks_bd : pres.
Lemma ks_current_edge i : pres keeps (current_edge i). Proof. unfold current_edge. ks. Qed.
Lemma ks_next_edge i : pres keeps (next_edge i). Proof. unfold next_edge. ks. Qed.
Lemma ks_abl_get k : pres keeps (abl_get k). Proof. unfold abl_get. ks. Qed.
#[local] Hint Resolve ks_current_edge ks_next_edge ks_abl_get : pres.
Lemma ks_abl_bound k : pres keeps (abl_bound k). Proof. unfold abl_bound. ks. Qed.
#[local] Hint Resolve ks_abl_bound : pres.
Lemma ks_abl_set k o : pres keeps (abl_set k o). Proof. unfold abl_set. ks. Qed.
Lemma ks_abl_compact : pres keeps abl_compact. Proof. unfold abl_compact. ks. Qed.
Lemma ks_abl_ids : pres keeps abl_ids. Proof. unfold abl_ids. ks. Qed.
Lemma ks_is_intermediate i y : pres keeps (is_intermediate i y). Proof. unfold is_intermediate. ks. Qed.
Lemma ks_is_maxima i y : pres keeps (is_maxima i y). Proof. unfold is_maxima. ks. Qed.
Lemma ks_push_hp p : pres keeps (push_hp p). Proof. unfold push_hp. ks. Qed.
Lemma ks_insort y : pres keeps (insort_scan y). Proof. unfold insort_scan. ks. Qed.
#[local] Hint Resolve ks_abl_set ks_abl_compact ks_abl_ids ks_is_intermediate ks_is_maxima ks_push_hp ks_insort : pres.
Lemma ks_abl_swap k o : pres keeps (abl_swap k o). Proof. unfold abl_swap. ks. Qed.
#[local] Hint Resolve ks_abl_swap : pres.
Lemma ks_to_next_edge i : pres keeps (to_next_edge i). Proof. unfold to_next_edge. ks. Qed.
Lemma ks_insert_bound i j : pres keeps (insert_bound_into_abl i j). Proof. unfold insert_bound_into_abl. ks. Qed.
Lemma ks_compare i j : pres keeps (intersection_compare i j). Proof. unfold intersection_compare. ks. Qed.
Lemma ks_update_current_x y : pres keeps (update_current_x y). Proof. unfold update_current_x. ks. Qed.
#[local] Hint Resolve ks_to_next_edge ks_insert_bound ks_compare ks_update_current_x : pres.
Lemma ks_init_bound i sd : pres keeps (init_bound i sd). Proof. unfold init_bound. ks. Qed.
#[local] Hint Resolve ks_init_bound : pres.
Lemma ks_initialize m : pres keeps (initialize m). Proof. unfold initialize. ks. Qed.
Lemma ks_hp_swap i j : pres keeps (hot_pixels_on_swap i j). Proof. unfold hot_pixels_on_swap. ks. Qed.
#[local] Hint Resolve ks_initialize ks_hp_swap : pres.
Lemma ks_hp_intersections f y : pres keeps (process_hot_pixel_intersections f y). Proof. unfold process_hot_pixel_intersections. ks. Qed.
Lemma ks_start_bound i : pres keeps (start_bound i). Proof. unfold start_bound. ks. Qed.
#[local] Hint Resolve ks_hp_intersections ks_start_bound : pres.
Lemma ks_minima_hp f y ms k : pres keeps (insert_minima_hot_pixel f y ms k). Proof. unfold insert_minima_hot_pixel. ks. Qed.
Lemma ks_shift y d i : forall l k, pres keeps (shift_bound y d i k l).
Proof. induction l as [|j l IH]; intros k; cbn [shift_bound]; ks. Qed.
#[local] Hint Resolve ks_minima_hp ks_shift : pres.
Lemma ks_horizontals y k : pres keeps (horizontals_at_top_scanbeam y k). Proof. unfold horizontals_at_top_scanbeam. ks. Qed.
#[local] Hint Resolve ks_horizontals : pres.
Lemma ks_hp_edges_of f y i k : pres keeps (hot_pixel_edges_of f y i k). Proof. unfold hot_pixel_edges_of. ks. Qed.
#[local] Hint Resolve ks_hp_edges_of : pres.
Lemma ks_hp_edges f y : pres keeps (process_hot_pixel_edges f y). Proof. unfold process_hot_pixel_edges. ks. Qed.
Lemma ks_sort_hp f : pres keeps (sort_hot_pixels f). Proof. unfold sort_hot_pixels. ks. Qed.
Lemma ks_pop y : pres keeps (pop_scanbeam y). Proof. unfold pop_scanbeam. ks. Qed.
Lemma ks_pending ms k : pres keeps (sweep_pending ms k). Proof. unfold sweep_pending. ks. Qed.
#[local] Hint Resolve ks_hp_edges ks_sort_hp ks_pop ks_pending : pres.
Lemma ks_build_hot_pixels f ms : pres keeps (build_hot_pixels f ms). Proof. unfold build_hot_pixels. ks. Qed.

Section V.
Context (f : nat) (sfk cfk : fill_kind).
Lemma idle_counts l k wd : k = SUBJECT -> Forall idle l -> snd (winding_counts sfk cfk l k wd) = 0.
Proof.
  intros -> F. unfold winding_counts. destruct l as [|b l]; [reflexivity|].
  destruct (rev (b :: l)) as [|x m] eqn:Ev; [destruct (app_cons_not_nil (rev l) [] b); symmetry; exact Ev|].
  assert (Hx : idle x). { rewrite Forall_forall in F. apply F. rewrite in_rev, Ev. left. reflexivity. }
  destruct Hx as (H1 & H2 & _). cbn [split_same_kind]. rewrite H1. cbn. rewrite H2. destruct (even_odd_fill _ _ _), (even_odd_alt_fill _ _ _); reflexivity.
Qed.
Lemma ks_set_winding_count k : pres keeps (set_winding_count sfk cfk k).
Proof.
  unfold set_winding_count. ks_step; [ks|]. ks_step. ks_step.
  pose proof (idle_counts (flat_map (fun o => match o with Some j => [bget (s_bounds s) j] | None => [] end) (firstn k (s_abl s))) (b_kind b) (b_wd b) (proj1 Hb)) as G.
  assert (F : Forall idle (flat_map (fun o => match o with Some j => [bget (s_bounds s) j] | None => [] end) (firstn k (s_abl s)))).
  { rewrite Forall_forall. intros x Hx. apply in_flat_map in Hx. destruct Hx as ([j|] & _ & Hx); [|contradiction]. destruct Hx as [<-|[]]. apply (bl_idle _ J). }
  specialize (G F). destruct (winding_counts _ _ _ _ _) as [wc owc]. cbn in G. subst owc. ks.
Qed.
Hint Resolve ks_set_winding_count : pres.
Lemma ks_swap_sides i j : pres keeps (swap_sides i j). Proof. unfold swap_sides. ks. Qed.
Hint Resolve ks_swap_sides : pres.
Lemma idle_crossed b c : idle b -> idle c -> snd (fst (crossed_windings sfk cfk b c)) = 0 /\ snd (snd (crossed_windings sfk cfk b c)) = 0.
Proof. intros (H1 & H2 & _) (K1 & K2 & _). unfold crossed_windings. rewrite H1, K1. cbn. destruct (even_odd_fill _ _ _); cbn; auto. Qed.
Lemma idle_crossing a b : crossing INTERSECTION sfk cfk false false SUBJECT SUBJECT a 0 b 0 = ActSwapSides \/
  crossing INTERSECTION sfk cfk false false SUBJECT SUBJECT a 0 b 0 = ActNothing.
Proof.
  unfold crossing. cbn [andb kind_eqb negb].
  replace (norm_winding (alt_fill_of sfk cfk SUBJECT) 0 >? 0) with false by (destruct cfk; reflexivity). cbn [andb].
  destruct (_ && _); [|auto]. destruct (_ && _); auto.
Qed.
Lemma ks_intersect_bounds p i j : pres keeps (intersect_bounds f INTERSECTION sfk cfk p i j).
Proof.
  unfold intersect_bounds. apply keeps_bd. intros b Hb. apply keeps_bd. intros c Hc.
  destruct (idle_crossed b c Hb Hc) as (G1 & G2). destruct (crossed_windings _ _ _ _) as [[wc1 owc1] [wc2 owc2]]. cbn in G1, G2. subst.
  destruct Hb as (-> & _ & ->), Hc as (-> & _ & ->). ks_step; [ks|]. ks_step; [ks|].
  cbn [is_some is_none negb]. destruct (idle_crossing wc1 wc2) as [-> | ->]; ks.
Qed.
Hint Resolve ks_intersect_bounds : pres.
Lemma ks_insert_lm i j : pres keeps (insert_lm_left_and_right_bound INTERSECTION sfk cfk i j).
Proof.
  unfold insert_lm_left_and_right_bound. do 4 (ks_step; [ks|]). apply keeps_bd. intros b (B1 & B2 & B3). ks_step; [ks|]. apply keeps_bd. intros c (C1 & C2 & C3).
  assert (E : is_contributing INTERSECTION sfk cfk (b_kind c) (b_wc c) (b_owc c) = false).
  { rewrite C1, C2. unfold is_contributing. destruct (negb _); [reflexivity|]. destruct cfk; reflexivity. }
  rewrite E. ks.
Qed.
Hint Resolve ks_insert_lm : pres.
Lemma ks_insert_minima oh y ms k : pres keeps (insert_local_minima f INTERSECTION sfk cfk oh y ms k).
Proof. unfold insert_local_minima. ks. Qed.
Lemma ks_in_lt a b : pres keeps (in_lt a b). Proof. unfold in_lt. ks. Qed.
Lemma ks_build_intersect_list : pres keeps (build_intersect_list f).
Proof.
  intros s l s' E J. unfold build_intersect_list in E. destruct (abl_ids s) as [[ids s1]| |]; try discriminate.
  cbv zeta in E. destruct (bubble_sort _ _ _ _ _) as [[r x]| |]; try discriminate. injection E as <- <-. exact J.
Qed.
Hint Resolve ks_insert_minima ks_in_lt ks_build_intersect_list : pres.
Lemma ks_pil : forall c l, pres keeps (process_intersect_list f INTERSECTION sfk cfk l c).
Proof. induction c as [|c IH]; intros l; cbn [process_intersect_list]; ks. Qed.
Hint Resolve ks_pil : pres.
Lemma ks_process_intersections y : pres keeps (process_intersections f INTERSECTION sfk cfk y).
Proof. unfold process_intersections. ks. Qed.
Lemma ks_update_hpi y : pres keeps (update_current_hot_pixel_index f y).
Proof. unfold update_current_hot_pixel_index. ks. Qed.
Hint Resolve ks_process_intersections ks_update_hpi : pres.
Lemma ks_ltr stop i : forall n k, pres keeps (add_hot_pixels_ltr n stop i k).
Proof. induction n as [|n IH]; intros k; cbn [add_hot_pixels_ltr]; ks. Qed.
Hint Resolve ks_ltr : pres.
Lemma ks_ltr_step i y mx mi j x : pres keeps (ltr_step f INTERSECTION sfk cfk i y mx mi j x).
Proof. unfold ltr_step. destruct x as [[k h] sh]. ks. Qed.
Hint Resolve ks_ltr_step : pres.
Lemma ks_ltr_loop i y mx mi : forall js x, pres keeps (ltr_loop f INTERSECTION sfk cfk i y mx mi js x).
Proof. induction js as [|j js IH]; intros x; cbn [ltr_loop]; ks. Qed.
Lemma ks_finish i k : pres keeps (finish_horizontal i k). Proof. unfold finish_horizontal. ks. Qed.
Hint Resolve ks_ltr_loop ks_finish : pres.
Lemma ks_phl y k : pres keeps (process_horizontal_left_to_right f INTERSECTION sfk cfk y k).
Proof. unfold process_horizontal_left_to_right. ks. Qed.
Lemma ks_rtl stop i : forall k, pres keeps (add_hot_pixels_rtl stop i k).
Proof. induction k as [|k IH]; cbn [add_hot_pixels_rtl]; ks. Qed.
Hint Resolve ks_phl ks_rtl : pres.
Lemma ks_rtl_step i y mx mi j x : pres keeps (rtl_step f INTERSECTION sfk cfk i y mx mi j x).
Proof. unfold rtl_step. destruct x as [k h]. ks. Qed.
Hint Resolve ks_rtl_step : pres.
Lemma ks_rtl_loop i y mx mi : forall js x, pres keeps (rtl_loop f INTERSECTION sfk cfk i y mx mi js x).
Proof. induction js as [|j js IH]; intros x; cbn [rtl_loop]; ks. Qed.
Hint Resolve ks_rtl_loop : pres.
Lemma ks_phr y k : pres keeps (process_horizontal_right_to_left f INTERSECTION sfk cfk y k).
Proof. unfold process_horizontal_right_to_left. ks. Qed.
Hint Resolve ks_phr : pres.
Lemma ks_ph y k : pres keeps (process_horizontal f INTERSECTION sfk cfk y k). Proof. unfold process_horizontal. ks. Qed.
Hint Resolve ks_ph : pres.
Lemma ks_phs y : pres keeps (process_horizontals f INTERSECTION sfk cfk y). Proof. unfold process_horizontals. ks. Qed.
Lemma ks_maxima_walk k m : pres keeps (maxima_walk f INTERSECTION sfk cfk k m).
Proof.
  unfold maxima_walk. ks_step; [ks|]. generalize false. generalize (range (S k) a). intros js. revert k.
  induction js as [|j js IH]; intros k b; ks.
Qed.
Hint Resolve ks_phs ks_maxima_walk : pres.
Lemma ks_do_maxima k m : pres keeps (do_maxima f INTERSECTION sfk cfk k m). Proof. unfold do_maxima. ks. Qed.
Hint Resolve ks_do_maxima : pres.
Lemma ks_top_step y k i : pres keeps (top_step f INTERSECTION sfk cfk y k i). Proof. unfold top_step. ks. Qed.
Hint Resolve ks_top_step : pres.
Lemma ks_process_edges y ms k : pres keeps (process_edges_at_top_of_scanbeam f INTERSECTION sfk cfk y ms k).
Proof. unfold process_edges_at_top_of_scanbeam. ks. Qed.
Hint Resolve ks_process_edges : pres.
Lemma ks_execute_vatti ms : pres keeps (execute_vatti f INTERSECTION sfk cfk ms).
Proof. unfold execute_vatti. ks. Qed.
End V.
Lemma blank_topology f rv s m s' : blank s -> (correct_topology f ;; build_result f rv) s = Ok (m, s') -> m = [].
Proof.
  intros [J1 J2 J3 J4] E. destruct f as [|f]; [|].
  - unfold bind in E. destruct (correct_topology 0 s) as [[u s1]| |]; discriminate.
  - unfold bind in E at 1.
    assert (T : correct_topology (S f) s = Ok (tt, s <| s_all := [] |>)).
    { unfold correct_topology, sort_all_nodes, correct_orientations, correct_collinear_edges, correct_self_intersections, correct_tree,
        sorted_rings, reversed_sorted_rings, correct_chained_rings, all_rings, py_sort_rev. unfold bind, gets, get. rewrite J3. cbn.
      do 5 (rewrite ?J2; change (Pos.to_nat 1) with 1%nat; cbn).
      unfold bind; cbn. do 3 (rewrite ?J2; change (Pos.to_nat 1) with 1%nat; cbn). reflexivity. }
    rewrite T in E. unfold build_result, bind, gets in E. cbn in E. rewrite J4 in E. injection E as <- _. reflexivity.
Qed.
Lemma solo_run f sfk cfk rv ms B r s' : (forall i, idle (bget B i)) -> run f INTERSECTION sfk cfk rv ms (init_st B) = Ok (r, s') -> r = [].
Proof.
  intros HB E. unfold run in E. unfold bind at 1 2 in E.
  destruct (build_hot_pixels f ms (init_st B)) as [[u s1]| |] eqn:E1; try discriminate.
  destruct (execute_vatti f INTERSECTION sfk cfk ms s1) as [[u2 s2]| |] eqn:E2; try discriminate.
  eapply blank_topology; [|exact E]. eapply ks_execute_vatti; [exact E2|]. eapply ks_build_hot_pixels; [exact E1|].
  constructor; try reflexivity. exact HB.
Qed.

(** a new object that was given subject rings only *)
Definition all_idle (L : lm_list) : Prop := forall i, idle (bget (lml_bounds L) i).
Lemma idle_hset B i b : (forall j, idle (bget B j)) -> idle b -> forall j, idle (bget (hset B i b) j).
Proof. intros H Hb j. rewrite bget_hset. destruct (Pos.eqb i j); auto. Qed.
Lemma idle_body es o l L : all_idle L ->
  match add_minima_body SUBJECT (es, o, l, L) with
  | Ok (inl (_, _, _, L')) => all_idle L'
  | Ok (inr (_, _, L')) => all_idle L'
  | _ => True
  end.
Proof.
  intros H. unfold add_minima_body. destruct es as [|e es]; [exact H|]. destruct (one_minimum _) as [[m rest]| |]; cbn; auto.
  assert (G : forall j, idle (bget (hset (hset (lml_bounds L) (lml_next L) (min_bound m SUBJECT l)) (Pos.succ (lml_next L)) (max_bound m SUBJECT)) j)).
  { apply idle_hset; [apply idle_hset; [exact H|]|]; repeat split. }
  unfold all_idle. cbn. destruct l as [j|]; [|exact G]. apply idle_hset; [exact G|]. exact (G j).
Qed.
Lemma idle_loop n : forall es o l L, all_idle L ->
  match loopR n (add_minima_body SUBJECT) (es, o, l, L) with Ok (_, _, L') => all_idle L' | _ => True end.
Proof.
  induction n as [|n IH]; intros es o l L H; [exact I|]. cbn [loopR]. pose proof (idle_body es o l L H) as G.
  destruct (add_minima_body SUBJECT (es, o, l, L)) as [[[[[es' o'] l'] L']|[[o' l'] L']]| |]; cbn; auto. apply IH, G.
Qed.
Lemma idle_add L pts b L' : all_idle L -> add_linear_ring L pts SUBJECT = Ok (b, L') -> all_idle L'.
Proof.
  intros H E. unfold add_linear_ring in E. destruct (linear_ring_edges pts) as [es| |]; cbn [rbind] in E; try discriminate.
  destruct es as [|e es]; [injection E as _ <-; exact H|]. cbv zeta in E. set (n := S _) in E. pose proof (idle_loop n (start_on_local_maximum (e :: es)) None None L H) as G.
  destruct (loopR n (add_minima_body SUBJECT) _) as [[[o l] L1]| |]; cbn [rbind] in E; try discriminate. clearbody n.
  destruct o as [o|], l as [l|]; try discriminate. injection E as _ <-. unfold all_idle. cbn.
  assert (G1 : forall j, idle (bget (hset (lml_bounds L1) l (bget (lml_bounds L1) l <| b_max := Some o |>)) j)) by (apply idle_hset; [exact G|exact (G l)]).
  apply idle_hset; [exact G1|]. exact (G1 o).
Qed.
