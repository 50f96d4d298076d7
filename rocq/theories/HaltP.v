(** * Programs of the model that stop: given enough fuel they answer *)
From Coq Require Import ZArith List Bool Lia FMapPositive.
From Coq Require Import Floats.SpecFloat.
From RecordUpdate Require Import RecordSet.
From Verif Require Import Py Monad Utils Geometry LinearRingM BoundM LocalMinimumM StateM
     PointNodeM RingM SweepM TopologyM WagyuM HoareP FuelP.
Import ListNotations RecordSetNotations.
Open Scope Z_scope.
Local Open Scope m_scope.

Definition halt {S A} (m : nat -> M S A) (s : S) : Prop := exists f, m f s <> NoFuel.
Definition mono {S A} (m : nat -> M S A) : Prop := forall f f', (f <= f')%nat -> lem (m f) (m f').
Definition fin {S A} (m : M S A) : Prop := forall s, m s <> NoFuel.
Definition rfin {A} (r : res A) : Prop := r <> NoFuel.

Lemma mono_const {S A} (m : M S A) : mono (fun _ => m).
Proof. intros f f' _. apply lem_refl. Qed.
Lemma mono_bind {S A B} (m : nat -> M S A) (k : nat -> A -> M S B) : mono m -> (forall a, mono (fun f => k f a)) ->
  mono (fun f => bind (m f) (k f)).
Proof. intros H K f f' L. apply lem_bind; [apply H, L|]. intros a. apply (K a), L. Qed.
Lemma halt_fin {S A} (m : M S A) s : fin m -> halt (fun _ => m) s.
Proof. intros F. exists O. apply F. Qed.
Lemma mono_up {S A} (m : nat -> M S A) s f f' : mono m -> (f <= f')%nat -> m f s <> NoFuel -> m f' s = m f s.
Proof. intros H L N. destruct (H f f' L s) as [E|E]; congruence. Qed.
Lemma halt_bind {S A B} (m : nat -> M S A) (k : nat -> A -> M S B) s : mono m -> (forall a, mono (fun f => k f a)) ->
  halt m s -> (forall f a s', m f s = Ok (a, s') -> halt (fun f => k f a) s') -> halt (fun f => bind (m f) (k f)) s.
Proof.
  intros Hm Hk (f & N) K. destruct (m f s) as [[a s']|e|] eqn:E; [| |congruence].
  - destruct (K f a s' E) as (g & Ng). exists (Nat.max f g). unfold bind.
    rewrite (mono_up m s f (Nat.max f g) Hm) by (try lia; congruence). rewrite E.
    rewrite (mono_up (fun f => k f a) s' g (Nat.max f g) (Hk a)) by (try lia; exact Ng). exact Ng.
  - exists f. unfold bind. rewrite E. discriminate.
Qed.
(** the answer of a program that stops, when it is an answer *)
Lemma halt_loop {S X R} (body : nat -> X -> M S (X + R)) (P : X -> S -> Prop) (mu : X -> S -> nat) :
  (forall x, mono (fun f => body f x)) ->
  (forall x s, P x s -> halt (fun f => body f x) s) ->
  (forall f x s x' s', P x s -> body f x s = Ok (inl x', s') -> P x' s' /\ (mu x' s' < mu x s)%nat) ->
  forall x s, P x s -> halt (fun f => loopM f (body f) x) s.
Proof.
  intros Hm Hh Hd x s. remember (mu x s) as n eqn:En. revert x s En.
  induction n as [n IH] using lt_wf_ind. intros x s En H. destruct (Hh x s H) as (f & N).
  destruct (body f x s) as [[[x'|r] s']|e|] eqn:E; [| | |congruence].
  - destruct (Hd f x s x' s' H E) as (H' & L). destruct (IH _ ltac:(subst n; exact L) x' s' eq_refl H') as (g & Ng).
    exists (Datatypes.S (Nat.max f g)). cbn [loopM]. unfold bind at 1.
    assert (Eq : body (Datatypes.S (Nat.max f g)) x s = Ok (inl x', s')).
    { rewrite (mono_up (fun f => body f x) s f (Datatypes.S (Nat.max f g)) (Hm x)) by (try lia; congruence). exact E. }
    rewrite Eq.
    destruct (lem_loop g (Nat.max f g) (body g) (body (Datatypes.S (Nat.max f g))) x' ltac:(lia) ltac:(intros z; apply (Hm z); lia) s') as [C|C];
      congruence.
  - exists (Datatypes.S f). cbn [loopM]. unfold bind at 1.
    rewrite (mono_up (fun f => body f x) s f (Datatypes.S f) (Hm x)) by (try lia; congruence). rewrite E. discriminate.
  - exists (Datatypes.S f). cbn [loopM]. unfold bind at 1.
    rewrite (mono_up (fun f => body f x) s f (Datatypes.S f) (Hm x)) by (try lia; congruence). rewrite E. discriminate.
Qed.

(** ** Programs without loops *)
Lemma fin_ret {S A} (a : A) : fin (S := S) (ret a). Proof. intros s. discriminate. Qed.
Lemma fin_raise {S A} e : fin (S := S) (A := A) (raise e). Proof. intros s. discriminate. Qed.
Lemma fin_get {S} : fin (S := S) get. Proof. intros s. discriminate. Qed.
Lemma fin_gets {S A} (f : S -> A) : fin (gets f). Proof. intros s. discriminate. Qed.
Lemma fin_modify {S} (f : S -> S) : fin (modify f). Proof. intros s. discriminate. Qed.
Lemma fin_lift {S A} (r : res A) : rfin r -> fin (S := S) (lift r).
Proof. intros H s. unfold lift. destruct r; [discriminate|discriminate|]. exfalso. apply H. reflexivity. Qed.
Lemma fin_bind {S A B} (m : M S A) (k : A -> M S B) : fin m -> (forall a, fin (k a)) -> fin (bind m k).
Proof. intros H K s. unfold bind. destruct (m s) as [[a s']| |] eqn:E; [apply K|discriminate|]. exfalso. apply (H s E). Qed.
Lemma fin_for {S A} (l : list A) (b : A -> M S unit) : (forall a, fin (b a)) -> fin (forM l b).
Proof. intros H. induction l; cbn; [apply fin_ret|]. apply fin_bind; auto. Qed.
Lemma fin_deref {A} (o : option A) : fin (deref o). Proof. destruct o; [apply fin_ret|apply fin_raise]. Qed.
Lemma rfin_ok {A} (a : A) : rfin (Ok a). Proof. discriminate. Qed.
Lemma rfin_raise {A} e : rfin (A := A) (Raise e). Proof. discriminate. Qed.
Lemma rfin_bind {A B} (m : res A) (k : A -> res B) : rfin m -> (forall a, rfin (k a)) -> rfin (rbind m k).
Proof. intros H K. unfold rbind. destruct m; [apply K|discriminate|]. exfalso. apply H. reflexivity. Qed.
Create HintDb fin.
Ltac fi_step :=
  match goal with
  | |- fin (ret _) => apply fin_ret
  | |- fin (raise _) => apply fin_raise
  | |- fin get => apply fin_get
  | |- fin (gets _) => apply fin_gets
  | |- fin (modify _) => apply fin_modify
  | |- fin (lift _) => apply fin_lift
  | |- fin (bind _ _) => apply fin_bind; [|intros ?]
  | |- fin (forM _ _) => apply fin_for; intros ?
  | |- fin (deref _) => apply fin_deref
  | |- rfin (Ok _) => apply rfin_ok
  | |- rfin (Raise _) => apply rfin_raise
  | |- rfin (rbind _ _) => apply rfin_bind; [|intros ?]
  | |- _ => solve [auto 2 with fin nocore]
  | |- fin (match ?x with _ => _ end) => destruct x
  | |- rfin (match ?x with _ => _ end) => destruct x
  | |- fin (let _ := _ in _) => cbv zeta
  | |- rfin (let _ := _ in _) => cbv zeta
  end.
Ltac fi := cbv beta; repeat (fi_step; cbv beta).

Lemma rf_nth {A} (l : list A) k : rfin (nth_res l k). Proof. unfold nth_res. fi. Qed.
Lemma rf_py_nth {A} (l : list A) k : rfin (py_nth l k). Proof. unfold py_nth. fi; unfold nth_res; fi. Qed.
#[export] Hint Resolve rf_nth rf_py_nth : fin.
Lemma rf_float_of_Z z : rfin (float_of_Z z). Proof. unfold float_of_Z. fi. Qed.
#[export] Hint Resolve rf_float_of_Z : fin.

Lemma rf_truediv a b : rfin (int_truediv a b). Proof. unfold int_truediv. fi. Qed.
#[export] Hint Resolve rf_truediv : fin.
Lemma rf_to_float x : rfin (num_to_float x). Proof. unfold num_to_float. fi. Qed.
#[export] Hint Resolve rf_to_float : fin.
Lemma rf_arith f g x y : rfin (num_arith f g x y). Proof. unfold num_arith. fi. Qed.
#[export] Hint Resolve rf_arith : fin.
Lemma rf_add x y : rfin (num_add x y). Proof. apply rf_arith. Qed.
Lemma rf_sub x y : rfin (num_sub x y). Proof. apply rf_arith. Qed.
Lemma rf_mul x y : rfin (num_mul x y). Proof. apply rf_arith. Qed.
#[export] Hint Resolve rf_add rf_sub rf_mul : fin.
Lemma rf_ffloor x : rfin (float_floor x). Proof. unfold float_floor. fi. Qed.
#[export] Hint Resolve rf_ffloor : fin.
Lemma rf_floor x : rfin (num_floor x). Proof. unfold num_floor. fi. Qed.
Lemma rf_ceil x : rfin (num_ceil x). Proof. unfold num_ceil. fi. Qed.
#[export] Hint Resolve rf_floor rf_ceil : fin.
Lemma rf_almost x y : rfin (almost_equal x y). Proof. unfold almost_equal. fi. Qed.
#[export] Hint Resolve rf_almost : fin.
Lemma rf_float_gt x y : rfin (float_gt x y). Proof. unfold float_gt. fi. Qed.
Lemma rf_float_lt x y : rfin (float_lt x y). Proof. unfold float_lt. fi. Qed.
#[export] Hint Resolve rf_float_gt rf_float_lt : fin.
Lemma rf_half_up x : rfin (round_half_up x). Proof. unfold round_half_up, check_digits. fi. Qed.
#[export] Hint Resolve rf_half_up : fin.
Lemma rf_rmin x : rfin (round_towards_min x). Proof. unfold round_towards_min. fi. Qed.
Lemma rf_rmax x : rfin (round_towards_max x). Proof. unfold round_towards_max. fi. Qed.
#[export] Hint Resolve rf_rmin rf_rmax : fin.
Lemma rf_round_point x : rfin (round_point x). Proof. unfold round_point. fi. Qed.
Lemma rf_mk_edge a b : rfin (mk_edge a b). Proof. unfold mk_edge. destruct (py a <? py b); cbv zeta; fi. Qed.
Lemma rf_edge_and a b : rfin (edge_and a b). Proof. unfold edge_and. fi. Qed.
Lemma rf_current_x e y : rfin (get_current_x e y). Proof. unfold get_current_x. fi. Qed.
Lemma rf_x_at e y : rfin (x_at_range e y). Proof. unfold x_at_range. fi. Qed.
#[export] Hint Resolve rf_round_point rf_mk_edge rf_edge_and rf_current_x rf_x_at : fin.
Lemma rf_min_x e y : rfin (get_min_x e y). Proof. unfold get_min_x. fi. Qed.
Lemma rf_max_x e y : rfin (get_max_x e y). Proof. unfold get_max_x. fi. Qed.
Lemma rf_cur_edge b : rfin (cur_edge_of b). Proof. apply rf_nth. Qed.
Lemma rf_next_edge b : rfin (next_edge_of b). Proof. apply rf_nth. Qed.
#[export] Hint Resolve rf_min_x rf_max_x rf_cur_edge rf_next_edge : fin.

Lemma fin_nd i : fin (nd i). Proof. apply fin_gets. Qed.
Lemma fin_rg i : fin (rg i). Proof. apply fin_gets. Qed.
Lemma fin_bd i : fin (bd i). Proof. apply fin_gets. Qed.
Lemma fin_upd_node i f : fin (upd_node i f). Proof. apply fin_modify. Qed.
Lemma fin_upd_ring i f : fin (upd_ring i f). Proof. apply fin_modify. Qed.
Lemma fin_upd_bound i f : fin (upd_bound i f). Proof. apply fin_modify. Qed.
Lemma fin_set_next i o : fin (set_next i o). Proof. apply fin_modify. Qed.
Lemma fin_set_prev i o : fin (set_prev i o). Proof. apply fin_modify. Qed.
Lemma fin_set_nring i o : fin (set_nring i o). Proof. apply fin_modify. Qed.
Lemma fin_push p : fin (push_hp p). Proof. apply fin_modify. Qed.
Lemma fin_insort y : fin (insort_scan y). Proof. apply fin_modify. Qed.
Lemma fin_compact : fin abl_compact. Proof. apply fin_modify. Qed.
#[export] Hint Resolve fin_nd fin_rg fin_bd fin_upd_node fin_upd_ring fin_upd_bound fin_set_next fin_set_prev fin_set_nring fin_push fin_insort fin_compact fin_deref : fin.
Lemma fin_node_point i : fin (node_point i). Proof. unfold node_point. fi. Qed.
Lemma fin_next_of i : fin (next_of i). Proof. unfold next_of. fi. Qed.
Lemma fin_prev_of i : fin (prev_of i). Proof. unfold prev_of. fi. Qed.
Lemma fin_node_eq i j : fin (node_eq i j). Proof. unfold node_eq. fi. Qed.
Lemma fin_children o : fin (children_of o). Proof. unfold children_of. fi. Qed.
Lemma fin_set_children o l : fin (set_children o l). Proof. unfold set_children. fi. Qed.
Lemma fin_abl_get k : fin (abl_get k). Proof. unfold abl_get. fi. Qed.
#[export] Hint Resolve fin_node_point fin_next_of fin_prev_of fin_node_eq fin_children fin_set_children fin_abl_get : fin.
Lemma fin_abl_bound k : fin (abl_bound k). Proof. unfold abl_bound. fi. Qed.
Lemma fin_abl_set k o : fin (abl_set k o). Proof. unfold abl_set. fi. Qed.
#[export] Hint Resolve fin_abl_bound fin_abl_set : fin.
Lemma fin_abl_swap i j : fin (abl_swap i j). Proof. unfold abl_swap. fi. Qed.
Lemma fin_current_edge i : fin (current_edge i). Proof. unfold current_edge. fi. Qed.
Lemma fin_next_edge i : fin (next_edge i). Proof. unfold next_edge. fi. Qed.
#[export] Hint Resolve fin_abl_swap fin_current_edge fin_next_edge : fin.
Lemma fin_place_before i j : fin (place_before i j). Proof. unfold place_before. fi. Qed.
Lemma fin_points_slope i j : fin (points_slope i j). Proof. unfold points_slope. fi. Qed.
#[export] Hint Resolve fin_place_before fin_points_slope : fin.
Lemma fin_create_ring : fin create_ring. Proof. unfold create_ring. fi. Qed.
Lemma fin_create_node r p b : fin (create_point_node r p b). Proof. unfold create_point_node. fi. Qed.
Lemma fin_remove_child r o : fin (remove_from_children r o). Proof. unfold remove_from_children. fi. Qed.
Lemma fin_set_child r o : fin (set_to_children r o). Proof. unfold set_to_children. fi. Qed.
Lemma fin_clear_child o k : fin (clear_child_at o k). Proof. unfold clear_child_at. fi. Qed.
Lemma fin_set_stats o k : fin (set_stats o k). Proof. unfold set_stats. fi. Qed.
Lemma fin_reset_stats o : fin (reset_stats o). Proof. unfold reset_stats. fi. Qed.
#[export] Hint Resolve fin_create_ring fin_create_node fin_remove_child fin_set_child fin_clear_child fin_set_stats fin_reset_stats : fin.

(** the sweep *)
Lemma fin_winding a b k : fin (set_winding_count a b k). Proof. unfold set_winding_count. fi. Qed.
Lemma fin_intermediate i y : fin (is_intermediate i y). Proof. unfold is_intermediate. fi. Qed.
Lemma fin_maxima i y : fin (is_maxima i y). Proof. unfold is_maxima. fi. Qed.
Lemma fin_to_next i : fin (to_next_edge i). Proof. unfold to_next_edge. fi. Qed.
Lemma rf_insert_location l r : rfin (bound_insert_location l r). Proof. unfold bound_insert_location. fi. Qed.
#[export] Hint Resolve fin_winding fin_intermediate fin_maxima fin_to_next rf_insert_location : fin.
Lemma rf_find_insert h l a : rfin (find_insert h l a). Proof. induction a; cbn [find_insert]; fi. Qed.
#[export] Hint Resolve rf_find_insert : fin.
Lemma fin_insert_abl l r : fin (insert_bound_into_abl l r). Proof. unfold insert_bound_into_abl. fi. Qed.
Lemma fin_compare i j : fin (intersection_compare i j). Proof. unfold intersection_compare. fi. Qed.
Lemma fin_update_x y : fin (update_current_x y). Proof. unfold update_current_x. fi. Qed.
Lemma fin_init_bound i y : fin (init_bound i y). Proof. unfold init_bound. fi. Qed.
#[export] Hint Resolve fin_insert_abl fin_compare fin_update_x fin_init_bound : fin.
Lemma fin_initialize m : fin (initialize m). Proof. unfold initialize. fi. Qed.
Lemma fin_ids : fin abl_ids. Proof. unfold abl_ids. apply fin_bind; [apply fin_gets|intros l]. apply fin_lift. induction l as [|o l IH]; fi. Qed.
Lemma fin_hp_swap i j : fin (hot_pixels_on_swap i j). Proof. unfold hot_pixels_on_swap. fi. Qed.
Lemma fin_start_bound i : fin (start_bound i). Proof. unfold start_bound. fi. Qed.
#[export] Hint Resolve fin_initialize fin_ids fin_hp_swap fin_start_bound : fin.
Lemma fin_shift y d i idx : forall k, fin (shift_bound y d i k idx). Proof. induction idx; intros k; cbn [shift_bound]; fi. Qed.
#[export] Hint Resolve fin_shift : fin.
Lemma fin_horizontals_at y k : fin (horizontals_at_top_scanbeam y k). Proof. unfold horizontals_at_top_scanbeam. fi. Qed.
Lemma fin_pop y : fin (pop_scanbeam y). Proof. unfold pop_scanbeam. fi. Qed.
Lemma fin_pending ms k : fin (sweep_pending ms k). Proof. unfold sweep_pending. fi. Qed.
Lemma fin_hole_state i : fin (set_hole_state i). Proof. unfold set_hole_state. fi. Qed.
#[export] Hint Resolve fin_horizontals_at fin_pop fin_pending fin_hole_state : fin.
Lemma fin_first i p : fin (add_first_point i p). Proof. unfold add_first_point. fi. Qed.
Lemma fin_put i p : fin (put_point i p). Proof. unfold put_point. fi. Qed.
#[export] Hint Resolve fin_first fin_put : fin.
Lemma fin_hp_walk i a b c d l : fin (hot_pixel_walk i a b c d l). Proof. induction l; cbn [hot_pixel_walk]; fi. Qed.
#[export] Hint Resolve fin_hp_walk : fin.
Lemma fin_hp_ltr y a b i g c : fin (hot_pixel_set_left_to_right y a b i g c). Proof. unfold hot_pixel_set_left_to_right. fi. Qed.
Lemma fin_hp_rtl y a b i g c : fin (hot_pixel_set_right_to_left y a b i g c). Proof. unfold hot_pixel_set_right_to_left. fi. Qed.
Lemma rf_hp_start hp y k : rfin (hp_start hp y k). Proof. induction k; cbn [hp_start]; fi. Qed.
#[export] Hint Resolve fin_hp_ltr fin_hp_rtl rf_hp_start : fin.
Lemma fin_swap_sides i j : fin (swap_sides i j). Proof. unfold swap_sides. fi. Qed.
Lemma fin_swap_rings i j : fin (swap_rings i j). Proof. unfold swap_rings. fi. Qed.
#[export] Hint Resolve fin_swap_sides fin_swap_rings : fin.
(** the walk over the hot pixels goes forward *)
Lemma fin_loop_up {S R} (n : nat) (b : nat -> M S (nat + R)) : (forall k, fin (b k)) ->
  (forall k s k' s', b k s = Ok (inl k', s') -> (k < k')%nat /\ (k < n)%nat) ->
  forall f k, (n - k < f)%nat -> fin (loopM f b k).
Proof.
  intros F U f. induction f as [|f IH]; intros k L s; [lia|]. cbn [loopM]. unfold bind.
  destruct (b k s) as [[[k'|r] s']| |] eqn:E; try discriminate; [|exfalso; exact (F k s E)].
  destruct (U _ _ _ _ E). apply IH. lia.
Qed.
Lemma group_end_up hp k h y : nth_error hp k = Some h -> py h = y -> (k < group_end hp y k)%nat.
Proof.
  intros E Ey. unfold group_end. assert (Es : exists t, skipn k hp = h :: t).
  { revert k E. induction hp as [|a hp IH]; intros [|k] E; cbn in *; try discriminate; [injection E as ->; eauto|auto]. }
  destruct Es as (t & ->). cbn [find_if]. rewrite Ey, Z.eqb_refl. cbn [negb]. lia.
Qed.
Lemma fin_insert_path i p c : fin (insert_hot_pixels_in_path i p c).
Proof.
  unfold insert_hot_pixels_in_path. apply fin_bind; [fi|intros b]. destruct (point_eqb p (b_last b)); [fi|]. cbv zeta.
  apply fin_bind; [fi|intros s]. apply fin_bind; [fi|intros k0]. apply fin_bind; [|intros ?; fi].
  apply fin_loop_up with (n := length (s_hp s)); [| |lia].
  - intros k. fi.
  - intros k t k' t' E. destruct (nth_error (s_hp s) k) as [h|] eqn:Eh; [|discriminate].
    assert (Lk : (k < length (s_hp s))%nat) by (apply nth_error_Some; congruence). split; [|exact Lk]. cbv zeta in E.
    destruct (py h >? py (b_last b)); [injection E as <- _; lia|]. destruct (py h <? py p); [discriminate|].
    unfold bind in E. match type of E with match ?m with _ => _ end = _ => destruct m as [[u t1]| |] end; [|discriminate|discriminate].
    injection E as <- _. eapply group_end_up; [exact Eh|reflexivity].
Qed.
#[export] Hint Resolve fin_insert_path : fin.
Lemma fin_to_ring i p : fin (add_point_to_ring i p). Proof. unfold add_point_to_ring. fi. Qed.
#[export] Hint Resolve fin_to_ring : fin.
Lemma fin_add_point i p : fin (add_point i p). Proof. unfold add_point. fi. Qed.
#[export] Hint Resolve fin_add_point : fin.
Lemma fin_local_minimum p i j : fin (add_local_minimum_point p i j). Proof. unfold add_local_minimum_point. fi. Qed.
#[export] Hint Resolve fin_local_minimum : fin.
Lemma fin_insert_lm op a b l r : fin (insert_lm_left_and_right_bound op a b l r). Proof. unfold insert_lm_left_and_right_bound. fi. Qed.
#[export] Hint Resolve fin_insert_lm : fin.
Lemma fin_ltr_pixels n st i : (forall q, rfin (st q)) -> forall k, fin (add_hot_pixels_ltr n st i k).
Proof. intros H. induction n; intros k; cbn [add_hot_pixels_ltr]; fi. Qed.
Lemma fin_rtl_pixels st i : (forall q, rfin (st q)) -> forall k, fin (add_hot_pixels_rtl st i k).
Proof. intros H. induction k; cbn [add_hot_pixels_rtl]; fi. Qed.
Lemma fin_finish i k : fin (finish_horizontal i k). Proof. unfold finish_horizontal. fi. Qed.
#[export] Hint Resolve fin_finish : fin.
Lemma rf_adjacent l n : rfin (adjacent_at l n). Proof. unfold adjacent_at. cbv zeta. fi. Qed.
#[export] Hint Resolve rf_adjacent : fin.
Lemma rf_find_adjacent a l : forall k, rfin (find_adjacent a l k). Proof. induction l; intros k; cbn [find_adjacent]; fi. Qed.
#[export] Hint Resolve rf_find_adjacent : fin.
Lemma fin_in_lt a b : fin (in_lt a b). Proof. unfold in_lt. fi. Qed.
#[export] Hint Resolve fin_in_lt : fin.
Section Sorts.
Context {S A : Type} (c : A -> A -> M S bool) (H : forall a b, fin (c a b)).
#[local] Hint Resolve H : fin.
Lemma fin_count_run d x l : fin (count_run c d x l). Proof. revert x. induction l; intros x; cbn [count_run]; fi. Qed.
Lemma fin_bin_search n pre x lo hi : fin (bin_search c n pre x lo hi). Proof. revert lo hi. induction n; intros lo hi; cbn [bin_search]; fi. Qed.
Lemma fin_binary_insertion pre l : fin (binary_insertion c pre l).
Proof. revert pre. induction l; intros pre; cbn [binary_insertion]; [apply fin_ret|]. apply fin_bind; [apply fin_bin_search|auto]. Qed.
Lemma fin_py_sort l : fin (py_sort c l).
Proof.
  unfold py_sort. destruct l as [|x [|y l]]; try apply fin_ret. apply fin_bind; [apply H|intros d].
  apply fin_bind; [apply fin_count_run|]. intros [run rest]. apply fin_binary_insertion.
Qed.
Context (w : A -> A -> M S unit) (Hw : forall a b, fin (w a b)).
#[local] Hint Resolve Hw : fin.
Lemma fin_bubble_pass l : forall x, fin (bubble_pass c w x l).
Proof. induction l; intros x; cbn [bubble_pass]; fi. Qed.
End Sorts.
