(** * The fuel of the model only bounds the number of steps

    Every loop of the model takes a bound on its number of iterations and
    answers [NoFuel] when the bound is reached.  Here: raising the bound never
    changes an answer other than [NoFuel]. *)
From Coq Require Import ZArith List Bool Lia FMapPositive.
From Coq Require Import Floats.SpecFloat.
From RecordUpdate Require Import RecordSet.
From Verif Require Import Py Monad Utils Geometry LinearRingM BoundM LocalMinimumM StateM
     PointNodeM RingM SweepM TopologyM WagyuM.
Import ListNotations RecordSetNotations.
Local Open Scope m_scope.

Definition ler {A} (a b : res A) : Prop := a = NoFuel \/ a = b.
Definition lem {S A} (m m' : M S A) : Prop := forall s, ler (m s) (m' s).

Lemma ler_refl {A} (a : res A) : ler a a. Proof. right; reflexivity. Qed.
Lemma lem_refl {S A} (m : M S A) : lem m m. Proof. intros s. apply ler_refl. Qed.
Lemma ler_rbind {A B} (m m' : res A) (k k' : A -> res B) :
  ler m m' -> (forall a, ler (k a) (k' a)) -> ler (rbind m k) (rbind m' k').
Proof.
  intros [->| ->] H; [left; reflexivity|]. destruct m'; cbn; [apply H|right; reflexivity|left; reflexivity].
Qed.
Lemma lem_bind {S A B} (m m' : M S A) (k k' : A -> M S B) :
  lem m m' -> (forall a, lem (k a) (k' a)) -> lem (bind m k) (bind m' k').
Proof.
  intros H K s. unfold bind. destruct (H s) as [E|E]; rewrite E; [left; reflexivity|].
  destruct (m' s) as [[a s']| |]; [apply K|right; reflexivity|left; reflexivity].
Qed.
Lemma lem_lift {S A} (r r' : res A) : ler r r' -> lem (S := S) (lift r) (lift r').
Proof. intros [->| ->] s; [left|right]; reflexivity. Qed.
Lemma lem_nofuel {S A} (m : M S A) : lem nofuel m. Proof. intros s. left. reflexivity. Qed.
Lemma lem_loop {S X R} f f' (b b' : X -> M S (X + R)) x :
  (f <= f')%nat -> (forall x, lem (b x) (b' x)) -> lem (loopM f b x) (loopM f' b' x).
Proof.
  intros L H. revert f' L x. induction f as [|f IH]; intros f' L x; [apply lem_nofuel|].
  destruct f' as [|f']; [lia|]. cbn. apply lem_bind; [apply H|]. intros [y|r]; [apply IH; lia|apply lem_refl].
Qed.
Lemma ler_loopR {X R} f f' (b : X -> res (X + R)) x : (f <= f')%nat -> ler (loopR f b x) (loopR f' b x).
Proof.
  revert f' x. induction f as [|f IH]; intros f' x L; [left; reflexivity|].
  destruct f' as [|f']; [lia|]. cbn. destruct (b x) as [[y|r]|e|]; try (right; reflexivity); apply IH; lia.
Qed.
Lemma lem_for {S A} (l : list A) (b b' : A -> M S unit) : (forall x, lem (b x) (b' x)) -> lem (forM l b) (forM l b').
Proof. intros H. induction l; cbn; [apply lem_refl|]. apply lem_bind; auto. Qed.
Lemma lem_for_break {S A R} (l : list A) (b b' : A -> M S (option R)) :
  (forall x, lem (b x) (b' x)) -> lem (for_breakM l b) (for_breakM l b').
Proof. intros H. induction l; cbn; [apply lem_refl|]. apply lem_bind; auto. intros [r|]; [apply lem_refl|auto]. Qed.
Lemma lem_forM_acc {A B} (l : list A) (f f' : A -> B -> prog B) b :
  (forall x b, lem (f x b) (f' x b)) -> lem (forM_acc l f b) (forM_acc l f' b).
Proof. intros H. revert b. induction l; intros b; cbn; [apply lem_refl|]. apply lem_bind; auto. Qed.
Lemma lem_mapM {A B} (f f' : A -> prog B) l : (forall x, lem (f x) (f' x)) -> lem (mapM f l) (mapM f' l).
Proof. intros H. induction l; cbn; [apply lem_refl|]. apply lem_bind; auto. intros a0. apply lem_bind; auto. intros; apply lem_refl. Qed.
Lemma lem_filterM {A} (f f' : A -> prog bool) l : (forall x, lem (f x) (f' x)) -> lem (filterM f l) (filterM f' l).
Proof. intros H. induction l; cbn; [apply lem_refl|]. apply lem_bind; auto. intros a0. apply lem_bind; auto. intros; apply lem_refl. Qed.

Ltac fu_step :=
  match goal with
  | |- lem ?a ?a => apply lem_refl
  | |- ler ?a ?a => apply ler_refl
  | |- lem nofuel _ => apply lem_nofuel
  | |- lem (bind _ _) (bind _ _) => apply lem_bind; [|intros ?]
  | |- lem (lift _) (lift _) => apply lem_lift
  | |- lem (loopM _ _ _) (loopM _ _ _) => apply lem_loop; [first [assumption|lia]|intros ?]
  | |- ler (loopR _ _ _) (loopR _ _ _) => apply ler_loopR; assumption
  | |- lem (forM _ _) (forM _ _) => apply lem_for; intros ?
  | |- lem (for_breakM _ _) (for_breakM _ _) => apply lem_for_break; intros ?
  | |- lem (forM_acc _ _ _) (forM_acc _ _ _) => apply lem_forM_acc; intros ? ?
  | |- lem (mapM _ _) (mapM _ _) => apply lem_mapM; intros ?
  | |- lem (filterM _ _) (filterM _ _) => apply lem_filterM; intros ?
  | |- _ => solve [auto with fuel]
  | |- lem (match ?x with _ => _ end) _ => destruct x
  | |- lem (let _ := _ in _) _ => cbv zeta
  | |- lem ((fun _ => _) _) _ => cbv beta
  end.
Create HintDb fuel.
Ltac fu := cbv beta; repeat (fu_step; cbv beta).

Lemma lem_bubble_pass {S A} (c c' : A -> A -> M S bool) (w w' : A -> A -> M S unit) x l :
  (forall a b, lem (c a b) (c' a b)) -> (forall a b, lem (w a b) (w' a b)) ->
  lem (bubble_pass c w x l) (bubble_pass c' w' x l).
Proof.
  intros Hc Hw. revert x. induction l as [|y l IH]; intros x; cbn [bubble_pass]; [apply lem_refl|].
  fu.
Qed.
Lemma lem_bubble_sort {S A} f f' (c : A -> A -> M S bool) (w : A -> A -> M S unit) l :
  (f <= f')%nat -> lem (bubble_sort c w f l) (bubble_sort c w f' l).
Proof. intros L. unfold bubble_sort. fu. Qed.
Lemma ler_quicksort {A} f f' (c : A -> A -> bool) l : (f <= f')%nat -> ler (quicksort c f l) (quicksort c f' l).
Proof. intros L. unfold quicksort. destruct (length l <? 2)%nat; fu. Qed.
#[export] Hint Resolve lem_bubble_sort ler_quicksort : fuel.

Section PySort.
Context {S A : Type} (c c' : A -> A -> M S bool) (H : forall a b, lem (c a b) (c' a b)).
Lemma lem_count_run d x l : lem (count_run c d x l) (count_run c' d x l).
Proof. revert x. induction l; intros x; cbn [count_run]; fu. Qed.
Lemma lem_bin_search n pre x lo hi : lem (bin_search c n pre x lo hi) (bin_search c' n pre x lo hi).
Proof. revert lo hi. induction n; intros lo hi; cbn [bin_search]; fu. Qed.
Lemma lem_binary_insertion pre l : lem (binary_insertion c pre l) (binary_insertion c' pre l).
Proof. revert pre. induction l; intros pre; cbn [binary_insertion]; [apply lem_refl|]. apply lem_bind; [apply lem_bin_search|auto]. Qed.
Lemma lem_py_sort l : lem (py_sort c l) (py_sort c' l).
Proof.
  unfold py_sort. destruct l as [|x [|y l]]; try apply lem_refl. apply lem_bind; [apply H|intros d].
  apply lem_bind; [apply lem_count_run|]. intros [run rest]. apply lem_binary_insertion.
Qed.
Lemma lem_py_sort_rev l : lem (py_sort_rev c l) (py_sort_rev c' l).
Proof. unfold py_sort_rev. apply lem_bind; [apply lem_py_sort|]. intros; apply lem_refl. Qed.
End PySort.
#[export] Hint Resolve lem_py_sort lem_py_sort_rev : fuel.

Section Mono.
Context (f f' : nat) (L : (f <= f')%nat).
Lemma fuel_iter_nodes s (b b' : nid -> prog unit) : (forall x, lem (b x) (b' x)) -> lem (iter_nodes f s b) (iter_nodes f' s b').
Proof. intros H. unfold iter_nodes. fu. Qed.
#[local] Hint Resolve fuel_iter_nodes : fuel.
Lemma fuel_collect : forall dir start, lem (collect f dir start) (collect f' dir start).
Proof. intros. unfold collect. fu. Qed.
#[local] Hint Resolve fuel_collect : fuel.
Lemma fuel_nodes_list : forall start, lem (nodes_list f start) (nodes_list f' start).
Proof. intros. unfold nodes_list. fu. Qed.
#[local] Hint Resolve fuel_nodes_list : fuel.
Lemma fuel_nodes_list_rev : forall start, lem (nodes_list_rev f start) (nodes_list_rev f' start).
Proof. intros. unfold nodes_list_rev. fu. Qed.
#[local] Hint Resolve fuel_nodes_list_rev : fuel.
Lemma fuel_reverse_nodes : forall i, lem (reverse_nodes f i) (reverse_nodes f' i).
Proof. intros. unfold reverse_nodes. apply fuel_iter_nodes; intros; fu. Qed.
#[local] Hint Resolve fuel_reverse_nodes : fuel.
Lemma fuel_node_stats : forall i, lem (node_stats f i) (node_stats f' i).
Proof. intros. unfold node_stats. fu. Qed.
#[local] Hint Resolve fuel_node_stats : fuel.
Lemma fuel_skip_equal : forall dir i, lem (skip_equal f dir i) (skip_equal f' dir i).
Proof. intros. unfold skip_equal. fu. Qed.
#[local] Hint Resolve fuel_skip_equal : fuel.
Lemma fuel_is_bottom_to : forall i j, lem (is_bottom_to f i j) (is_bottom_to f' i j).
Proof. intros. unfold is_bottom_to. fu. Qed.
#[local] Hint Resolve fuel_is_bottom_to : fuel.
Lemma fuel_bottom_scan : forall i, lem (bottom_scan f i) (bottom_scan f' i).
Proof. intros. unfold bottom_scan. fu. Qed.
#[local] Hint Resolve fuel_bottom_scan : fuel.
Lemma fuel_skip_to_equal : forall i j, lem (skip_to_equal f i j) (skip_to_equal f' i j).
Proof. intros. unfold skip_to_equal. fu. Qed.
#[local] Hint Resolve fuel_skip_to_equal : fuel.
Lemma fuel_bottom_node : forall i, lem (bottom_node f i) (bottom_node f' i).
Proof. intros. unfold bottom_node. fu. Qed.
#[local] Hint Resolve fuel_bottom_node : fuel.
Lemma fuel_point_in_polygon : forall pt i, lem (point_in_polygon f pt i) (point_in_polygon f' pt i).
Proof. intros. unfold point_in_polygon. fu. Qed.
#[local] Hint Resolve fuel_point_in_polygon : fuel.
Lemma fuel_slide : forall dir i j k, lem (slide f dir i j k) (slide f' dir i j k).
Proof. intros. unfold slide. fu. Qed.
#[local] Hint Resolve fuel_slide : fuel.
Lemma fuel_collinear_search : forall i j, lem (collinear_search f i j) (collinear_search f' i j).
Proof. intros. unfold collinear_search. fu. Qed.
#[local] Hint Resolve fuel_collinear_search : fuel.
Lemma fuel_skip_repeats : forall dir b i j, lem (skip_repeats f dir b i j) (skip_repeats f' dir b i j).
Proof. intros. unfold skip_repeats. fu. Qed.
#[local] Hint Resolve fuel_skip_repeats : fuel.
Lemma fuel_collinear_path : forall i j, lem (collinear_path f i j) (collinear_path f' i j).
Proof. intros. unfold collinear_path. fu. Qed.
#[local] Hint Resolve fuel_collinear_path : fuel.
Lemma fuel_detach_until : forall i j, lem (detach_until f i j) (detach_until f' i j).
Proof. intros. unfold detach_until. fu. Qed.
#[local] Hint Resolve fuel_detach_until : fuel.
Lemma fuel_detach_do : forall i j, lem (detach_do f i j) (detach_do f' i j).
Proof. intros. unfold detach_do. fu. Qed.
#[local] Hint Resolve fuel_detach_do : fuel.
Lemma fuel_fix_collinear_path : forall p, lem (fix_collinear_path f p) (fix_collinear_path f' p).
Proof. intros. unfold fix_collinear_path. fu. Qed.
#[local] Hint Resolve fuel_fix_collinear_path : fuel.
Lemma fuel_iter_children o (b b' : nat -> rid -> prog unit) : (forall k x, lem (b k x) (b' k x)) -> lem (iter_children f o b) (iter_children f' o b').
Proof. intros H. unfold iter_children. fu. Qed.
#[local] Hint Resolve fuel_iter_children : fuel.
Lemma fuel_recalculate_stats : forall r, lem (recalculate_stats f r) (recalculate_stats f' r).
Proof. intros. unfold recalculate_stats. fu. Qed.
#[local] Hint Resolve fuel_recalculate_stats : fuel.
Lemma fuel_ensure_stats : forall r, lem (ensure_stats f r) (ensure_stats f' r).
Proof. intros. unfold ensure_stats. fu. Qed.
#[local] Hint Resolve fuel_ensure_stats : fuel.
Lemma fuel_ring_area : forall r, lem (ring_area f r) (ring_area f' r).
Proof. intros. unfold ring_area. fu. Qed.
#[local] Hint Resolve fuel_ring_area : fuel.
Lemma fuel_ring_is_hole : forall r, lem (ring_is_hole f r) (ring_is_hole f' r).
Proof. intros. unfold ring_is_hole. fu. Qed.
#[local] Hint Resolve fuel_ring_is_hole : fuel.
Lemma fuel_ring_size : forall r, lem (ring_size f r) (ring_size f' r).
Proof. intros. unfold ring_size. fu. Qed.
#[local] Hint Resolve fuel_ring_size : fuel.
Lemma fuel_ring_depth : forall r, lem (ring_depth f r) (ring_depth f' r).
Proof. intros. unfold ring_depth. fu. Qed.
#[local] Hint Resolve fuel_ring_depth : fuel.
Lemma fuel_is_descendant_of : forall r o, lem (is_descendant_of f r o) (is_descendant_of f' r o).
Proof. intros. unfold is_descendant_of. fu. Qed.
#[local] Hint Resolve fuel_is_descendant_of : fuel.
Lemma fuel_update_points : forall r, lem (update_points f r) (update_points f' r).
Proof. intros. unfold update_points. fu. all: apply fuel_iter_nodes; intros; fu. Qed.
#[local] Hint Resolve fuel_update_points : fuel.
Lemma fuel_sorted_nodes : forall r, lem (sorted_nodes f r) (sorted_nodes f' r).
Proof. intros. unfold sorted_nodes. fu. Qed.
#[local] Hint Resolve fuel_sorted_nodes : fuel.
Lemma fuel_ensure_bottom : forall r, lem (ensure_bottom f r) (ensure_bottom f' r).
Proof. intros. unfold ensure_bottom. fu. Qed.
#[local] Hint Resolve fuel_ensure_bottom : fuel.
Lemma fuel_lowermost_ring : forall r o, lem (lowermost_ring f r o) (lowermost_ring f' r o).
Proof. intros. unfold lowermost_ring. fu. Qed.
#[local] Hint Resolve fuel_lowermost_ring : fuel.
Lemma fuel_is_convex : forall i, lem (is_convex f i) (is_convex f' i).
Proof. intros. unfold is_convex. fu. Qed.
#[local] Hint Resolve fuel_is_convex : fuel.
Lemma fuel_inside_or_outside_special : forall i j, lem (inside_or_outside_special f i j) (inside_or_outside_special f' i j).
Proof. intros. unfold inside_or_outside_special. fu. Qed.
#[local] Hint Resolve fuel_inside_or_outside_special : fuel.
Lemma fuel_inside_of : forall r o, lem (inside_of f r o) (inside_of f' r o).
Proof. intros. unfold inside_of. fu. Qed.
#[local] Hint Resolve fuel_inside_of : fuel.
Lemma fuel_orientation_clash : forall r p, lem (orientation_clash f r p) (orientation_clash f' r p).
Proof. intros. unfold orientation_clash. fu. Qed.
#[local] Hint Resolve fuel_orientation_clash : fuel.
Lemma fuel_assign_as_child : forall r p, lem (assign_as_child f r p) (assign_as_child f' r p).
Proof. intros. unfold assign_as_child. fu. Qed.
#[local] Hint Resolve fuel_assign_as_child : fuel.
Lemma fuel_assign_as_sibling : forall r p, lem (assign_as_sibling f r p) (assign_as_sibling f' r p).
Proof. intros. unfold assign_as_sibling. fu. Qed.
#[local] Hint Resolve fuel_assign_as_sibling : fuel.
Lemma fuel_reassign_as_child : forall r p, lem (reassign_as_child f r p) (reassign_as_child f' r p).
Proof. intros. unfold reassign_as_child. fu. Qed.
#[local] Hint Resolve fuel_reassign_as_child : fuel.
Lemma fuel_reassign_children_if_necessary : forall r o l, lem (reassign_children_if_necessary f r o l) (reassign_children_if_necessary f' r o l).
Proof. intros. unfold reassign_children_if_necessary. apply fuel_iter_children. intros; fu. Qed.
#[local] Hint Resolve fuel_reassign_children_if_necessary : fuel.
Lemma fuel_remove_ring_go : forall d d' r a b, (d <= d')%nat -> lem (remove_ring f d r a b) (remove_ring f' d' r a b).
Proof.
  induction d as [|d IH]; intros d' r a b Ld; [apply lem_nofuel|]. destruct d' as [|d']; [lia|].
  assert (IH' : forall r a b, lem (remove_ring f d r a b) (remove_ring f' d' r a b)) by (intros; apply IH; lia).
  cbn [remove_ring]. apply lem_bind.
  - apply fuel_iter_children. intros. fu.
  - intros _. fu.
Qed.
Lemma fuel_remove_ring : forall r a b, lem (remove_ring f f r a b) (remove_ring f' f' r a b).
Proof. intros. apply fuel_remove_ring_go. exact L. Qed.
#[local] Hint Resolve fuel_remove_ring : fuel.
Lemma fuel_remove_ring_and_points_go : forall d d' r a b, (d <= d')%nat -> lem (remove_ring_and_points f d r a b) (remove_ring_and_points f' d' r a b).
Proof.
  induction d as [|d IH]; intros d' r a b Ld; [apply lem_nofuel|]. destruct d' as [|d']; [lia|].
  assert (IH' : forall r a b, lem (remove_ring_and_points f d r a b) (remove_ring_and_points f' d' r a b)) by (intros; apply IH; lia).
  cbn [remove_ring_and_points]. apply lem_bind.
  - apply fuel_iter_children. intros. fu.
  - intros _. unfold clear_nodes. fu.
Qed.
Lemma fuel_remove_ring_and_points : forall r a b, lem (remove_ring_and_points f f r a b) (remove_ring_and_points f' f' r a b).
Proof. intros. apply fuel_remove_ring_and_points_go. exact L. Qed.
#[local] Hint Resolve fuel_remove_ring_and_points : fuel.
Lemma fuel_replace_ring : forall r o, lem (replace_ring f r o) (replace_ring f' r o).
Proof. intros. unfold replace_ring. fu. all: apply fuel_iter_children; intros; fu. Qed.
#[local] Hint Resolve fuel_replace_ring : fuel.
Lemma fuel_find_parent_in_tree_go : forall d d' r a, (d <= d')%nat -> lem (find_parent_in_tree f d r a) (find_parent_in_tree f' d' r a).
Proof.
  induction d as [|d IH]; intros d' r a Ld; [apply lem_nofuel|]. destruct d' as [|d']; [lia|].
  assert (IH' : forall r a, lem (find_parent_in_tree f d r a) (find_parent_in_tree f' d' r a)) by (intros; apply IH; lia).
  cbn [find_parent_in_tree]. fu.
Qed.
Lemma fuel_find_parent_in_tree : forall r a, lem (find_parent_in_tree f f r a) (find_parent_in_tree f' f' r a).
Proof. intros. apply fuel_find_parent_in_tree_go. exact L. Qed.
#[local] Hint Resolve fuel_find_parent_in_tree : fuel.
Lemma fuel_process_hot_pixel_intersections : forall y, lem (process_hot_pixel_intersections f y) (process_hot_pixel_intersections f' y).
Proof. intros. unfold process_hot_pixel_intersections. fu. Qed.
#[local] Hint Resolve fuel_process_hot_pixel_intersections : fuel.
Lemma fuel_insert_minima_hot_pixel : forall y ms k, lem (insert_minima_hot_pixel f y ms k) (insert_minima_hot_pixel f' y ms k).
Proof. intros. unfold insert_minima_hot_pixel. fu. Qed.
#[local] Hint Resolve fuel_insert_minima_hot_pixel : fuel.
Lemma fuel_hot_pixel_edges_of : forall y i k, lem (hot_pixel_edges_of f y i k) (hot_pixel_edges_of f' y i k).
Proof. intros. unfold hot_pixel_edges_of. fu. Qed.
#[local] Hint Resolve fuel_hot_pixel_edges_of : fuel.
Lemma fuel_process_hot_pixel_edges : forall y, lem (process_hot_pixel_edges f y) (process_hot_pixel_edges f' y).
Proof. intros. unfold process_hot_pixel_edges. fu. Qed.
#[local] Hint Resolve fuel_process_hot_pixel_edges : fuel.
Lemma fuel_sort_hot_pixels : lem (sort_hot_pixels f ) (sort_hot_pixels f' ).
Proof. intros. unfold sort_hot_pixels. fu. Qed.
#[local] Hint Resolve fuel_sort_hot_pixels : fuel.
Lemma fuel_build_hot_pixels : forall ms, lem (build_hot_pixels f ms) (build_hot_pixels f' ms).
Proof. intros. unfold build_hot_pixels. fu. Qed.
#[local] Hint Resolve fuel_build_hot_pixels : fuel.
Lemma fuel_join_chains : forall a b i j, lem (join_chains f a b i j) (join_chains f' a b i j).
Proof. intros. unfold join_chains. fu. Qed.
#[local] Hint Resolve fuel_join_chains : fuel.
Lemma fuel_append_ring : forall i j, lem (append_ring f i j) (append_ring f' i j).
Proof. intros. unfold append_ring. fu. Qed.
#[local] Hint Resolve fuel_append_ring : fuel.
Lemma fuel_add_local_maximum_point : forall p i j, lem (add_local_maximum_point f p i j) (add_local_maximum_point f' p i j).
Proof. intros. unfold add_local_maximum_point. fu. Qed.
#[local] Hint Resolve fuel_add_local_maximum_point : fuel.
Context (op : operation_kind) (sfk cfk : fill_kind).
Lemma fuel_intersect_bounds : forall p i j, lem (intersect_bounds f op sfk cfk p i j) (intersect_bounds f' op sfk cfk p i j).
Proof. intros. unfold intersect_bounds. fu. Qed.
#[local] Hint Resolve fuel_intersect_bounds : fuel.
Lemma fuel_insert_local_minima : forall b y ms k, lem (insert_local_minima f op sfk cfk b y ms k) (insert_local_minima f' op sfk cfk b y ms k).
Proof. intros. unfold insert_local_minima. fu. Qed.
#[local] Hint Resolve fuel_insert_local_minima : fuel.
Lemma fuel_build_intersect_list : lem (build_intersect_list f) (build_intersect_list f').
Proof.
  intros s. unfold build_intersect_list. destruct (abl_ids s) as [[ids s']| |]; try (right; reflexivity).
  match goal with |- ler (match bubble_sort ?c ?w f ids [] with _ => _ end) _ => destruct (lem_bubble_sort f f' c w ids L []) as [E|E] end;
    rewrite E; [left|right]; reflexivity.
Qed.
#[local] Hint Resolve fuel_build_intersect_list : fuel.
Lemma fuel_process_intersect_list : forall l n, lem (process_intersect_list f op sfk cfk l n) (process_intersect_list f' op sfk cfk l n).
Proof. intros l n. revert l. induction n; intros [|x l]; cbn [process_intersect_list]; fu. Qed.
#[local] Hint Resolve fuel_process_intersect_list : fuel.
Lemma fuel_process_intersections : forall y, lem (process_intersections f op sfk cfk y) (process_intersections f' op sfk cfk y).
Proof. intros. unfold process_intersections. fu. Qed.
#[local] Hint Resolve fuel_process_intersections : fuel.
Lemma fuel_update_current_hot_pixel_index : forall y, lem (update_current_hot_pixel_index f  y) (update_current_hot_pixel_index f'  y).
Proof. intros. unfold update_current_hot_pixel_index. fu. Qed.
#[local] Hint Resolve fuel_update_current_hot_pixel_index : fuel.
Lemma fuel_ltr_step : forall i y b m j x, lem (ltr_step f op sfk cfk i y b m j x) (ltr_step f' op sfk cfk i y b m j x).
Proof. intros. unfold ltr_step. fu. Qed.
#[local] Hint Resolve fuel_ltr_step : fuel.
Lemma fuel_ltr_loop : forall i y b m js x, lem (ltr_loop f op sfk cfk i y b m js x) (ltr_loop f' op sfk cfk i y b m js x).
Proof. intros i y b m js. induction js; intros x; cbn [ltr_loop]; fu. Qed.
#[local] Hint Resolve fuel_ltr_loop : fuel.
Lemma fuel_process_horizontal_left_to_right : forall y k, lem (process_horizontal_left_to_right f op sfk cfk y k) (process_horizontal_left_to_right f' op sfk cfk y k).
Proof. intros. unfold process_horizontal_left_to_right. fu. Qed.
#[local] Hint Resolve fuel_process_horizontal_left_to_right : fuel.
Lemma fuel_rtl_step : forall i y b m j x, lem (rtl_step f op sfk cfk i y b m j x) (rtl_step f' op sfk cfk i y b m j x).
Proof. intros. unfold rtl_step. fu. Qed.
#[local] Hint Resolve fuel_rtl_step : fuel.
Lemma fuel_rtl_loop : forall i y b m js x, lem (rtl_loop f op sfk cfk i y b m js x) (rtl_loop f' op sfk cfk i y b m js x).
Proof. intros i y b m js. induction js; intros x; cbn [rtl_loop]; fu. Qed.
#[local] Hint Resolve fuel_rtl_loop : fuel.
Lemma fuel_process_horizontal_right_to_left : forall y k, lem (process_horizontal_right_to_left f op sfk cfk y k) (process_horizontal_right_to_left f' op sfk cfk y k).
Proof. intros. unfold process_horizontal_right_to_left. fu. Qed.
#[local] Hint Resolve fuel_process_horizontal_right_to_left : fuel.
Lemma fuel_process_horizontal : forall y k, lem (process_horizontal f op sfk cfk y k) (process_horizontal f' op sfk cfk y k).
Proof. intros. unfold process_horizontal. fu. Qed.
#[local] Hint Resolve fuel_process_horizontal : fuel.
Lemma fuel_process_horizontals : forall y, lem (process_horizontals f op sfk cfk y) (process_horizontals f' op sfk cfk y).
Proof. intros. unfold process_horizontals. fu. Qed.
#[local] Hint Resolve fuel_process_horizontals : fuel.
Lemma fuel_maxima_walk : forall k m, lem (maxima_walk f op sfk cfk k m) (maxima_walk f' op sfk cfk k m).
Proof.
  intros k m. unfold maxima_walk. apply lem_bind; [apply lem_refl|intros n]. generalize (range (S k) n) as js. intros js.
  generalize false as sk. revert k. induction js as [|j js IH]; intros k sk; [apply lem_refl|]. fu.
Qed.
#[local] Hint Resolve fuel_maxima_walk : fuel.
Lemma fuel_do_maxima : forall k m, lem (do_maxima f op sfk cfk k m) (do_maxima f' op sfk cfk k m).
Proof. intros. unfold do_maxima. fu. Qed.
#[local] Hint Resolve fuel_do_maxima : fuel.
Lemma fuel_top_step : forall y k i, lem (top_step f op sfk cfk y k i) (top_step f' op sfk cfk y k i).
Proof. intros. unfold top_step. fu. Qed.
#[local] Hint Resolve fuel_top_step : fuel.
Lemma fuel_process_edges_at_top_of_scanbeam : forall y ms k, lem (process_edges_at_top_of_scanbeam f op sfk cfk y ms k) (process_edges_at_top_of_scanbeam f' op sfk cfk y ms k).
Proof. intros. unfold process_edges_at_top_of_scanbeam. fu. Qed.
#[local] Hint Resolve fuel_process_edges_at_top_of_scanbeam : fuel.
Lemma fuel_execute_vatti : forall ms, lem (execute_vatti f op sfk cfk ms) (execute_vatti f' op sfk cfk ms).
Proof. intros. unfold execute_vatti. fu. Qed.
#[local] Hint Resolve fuel_execute_vatti : fuel.
Lemma fuel_node_lt : forall a b, lem (node_lt f a b) (node_lt f' a b).
Proof. intros. unfold node_lt. fu. Qed.
#[local] Hint Resolve fuel_node_lt : fuel.
Lemma fuel_sort_all_nodes : lem (sort_all_nodes f) (sort_all_nodes f').
Proof. unfold sort_all_nodes. fu. all: apply lem_py_sort; intros; fu. Qed.
#[local] Hint Resolve fuel_sort_all_nodes : fuel.
Lemma fuel_ring_lt : forall a b, lem (ring_lt f a b) (ring_lt f' a b).
Proof. intros. unfold ring_lt. fu. Qed.
#[local] Hint Resolve fuel_ring_lt : fuel.
Lemma fuel_sorted_rings : lem (sorted_rings f) (sorted_rings f').
Proof. unfold sorted_rings. fu. all: apply lem_py_sort; intros; fu. Qed.
#[local] Hint Resolve fuel_sorted_rings : fuel.
Lemma fuel_reversed_sorted_rings : lem (reversed_sorted_rings f) (reversed_sorted_rings f').
Proof. unfold reversed_sorted_rings. fu. all: apply lem_py_sort_rev; intros; fu. Qed.
#[local] Hint Resolve fuel_reversed_sorted_rings : fuel.
Lemma fuel_correct_orientation : forall r, lem (correct_orientation f r) (correct_orientation f' r).
Proof. intros. unfold correct_orientation. fu. Qed.
#[local] Hint Resolve fuel_correct_orientation : fuel.
Lemma fuel_correct_orientations : lem (correct_orientations f ) (correct_orientations f' ).
Proof. intros. unfold correct_orientations. fu. Qed.
#[local] Hint Resolve fuel_correct_orientations : fuel.
Lemma fuel_correct_self_intersection : forall i j, lem (correct_self_intersection f i j) (correct_self_intersection f' i j).
Proof. intros. unfold correct_self_intersection. fu. Qed.
#[local] Hint Resolve fuel_correct_self_intersection : fuel.
Lemma fuel_correct_repeated_points : forall ns a b l, lem (correct_repeated_points f ns a b l) (correct_repeated_points f' ns a b l).
Proof. intros. unfold correct_repeated_points. fu. Qed.
#[local] Hint Resolve fuel_correct_repeated_points : fuel.
Lemma fuel_find_and_correct_repeated_points : forall r, lem (find_and_correct_repeated_points f r) (find_and_correct_repeated_points f' r).
Proof. intros. unfold find_and_correct_repeated_points. fu. Qed.
#[local] Hint Resolve fuel_find_and_correct_repeated_points : fuel.
Lemma fuel_usable_ring : forall r, lem (usable_ring f r) (usable_ring f' r).
Proof. intros. unfold usable_ring. fu. Qed.
#[local] Hint Resolve fuel_usable_ring : fuel.
Lemma fuel_positive_area : forall r, lem (positive_area f r) (positive_area f' r).
Proof. intros. unfold positive_area. fu. Qed.
#[local] Hint Resolve fuel_positive_area : fuel.
Lemma fuel_try_prev_ring : forall o r b ns p, lem (try_prev_ring f o r b ns p) (try_prev_ring f' o r b ns p).
Proof. intros. unfold try_prev_ring. fu. Qed.
#[local] Hint Resolve fuel_try_prev_ring : fuel.
Lemma fuel_place_new_ring : forall o b ns l r, lem (place_new_ring f o b ns l r) (place_new_ring f' o b ns l r).
Proof. intros. unfold place_new_ring. fu. Qed.
#[local] Hint Resolve fuel_place_new_ring : fuel.
Lemma fuel_place_new_rings : forall o b ns l before, lem (place_new_rings f o b ns before l) (place_new_rings f' o b ns before l).
Proof. intros o b ns l. induction l; intros before; cbn [place_new_rings]; fu. Qed.
#[local] Hint Resolve fuel_place_new_rings : fuel.
Lemma fuel_keyed : forall l,
  lem ((fix go l := match l with [] => ret [] | r :: l' => (a <- ring_area f r ;; k <- go l' ;; ret ((r, f_abs a) :: k)) end) l)
      ((fix go l := match l with [] => ret [] | r :: l' => (a <- ring_area f' r ;; k <- go l' ;; ret ((r, f_abs a) :: k)) end) l).
Proof. induction l as [|r l IH]; [apply lem_refl|]. fu. Qed.
Lemma fuel_assign_new_ring_parents : forall o l, lem (assign_new_ring_parents f o l) (assign_new_ring_parents f' o l).
Proof. intros. unfold assign_new_ring_parents. fu. all: apply fuel_keyed. Qed.
#[local] Hint Resolve fuel_assign_new_ring_parents : fuel.
Lemma fuel_correct_ring_self_intersections : forall r b, lem (correct_ring_self_intersections f r b) (correct_ring_self_intersections f' r b).
Proof. intros. unfold correct_ring_self_intersections. fu. Qed.
#[local] Hint Resolve fuel_correct_ring_self_intersections : fuel.
Lemma fuel_correct_self_intersections : forall b, lem (correct_self_intersections f b) (correct_self_intersections f' b).
Proof. intros. unfold correct_self_intersections. fu. Qed.
#[local] Hint Resolve fuel_correct_self_intersections : fuel.
Lemma fuel_drop_equal : forall dir drop i, lem (drop_equal f dir drop i) (drop_equal f' dir drop i).
Proof. intros. unfold drop_equal. fu. Qed.
#[local] Hint Resolve fuel_drop_equal : fuel.
Lemma fuel_remove_duplicate_points : forall i j, lem (remove_duplicate_points f i j) (remove_duplicate_points f' i j).
Proof. intros. unfold remove_duplicate_points. fu. Qed.
#[local] Hint Resolve fuel_remove_duplicate_points : fuel.
Lemma fuel_collinear_different_rings : forall i j, lem (collinear_different_rings f i j) (collinear_different_rings f' i j).
Proof. intros. unfold collinear_different_rings. fu. Qed.
#[local] Hint Resolve fuel_collinear_different_rings : fuel.
Lemma fuel_collinear_same_ring : forall i j, lem (collinear_same_ring f i j) (collinear_same_ring f' i j).
Proof. intros. unfold collinear_same_ring. fu. Qed.
#[local] Hint Resolve fuel_collinear_same_ring : fuel.
Lemma fuel_process_collinear_edges : forall i j, lem (process_collinear_edges f i j) (process_collinear_edges f' i j).
Proof. intros. unfold process_collinear_edges. fu. Qed.
#[local] Hint Resolve fuel_process_collinear_edges : fuel.
Lemma fuel_correct_collinear_repeats : forall ns a b, lem (correct_collinear_repeats f ns a b) (correct_collinear_repeats f' ns a b).
Proof. intros. unfold correct_collinear_repeats. fu. Qed.
#[local] Hint Resolve fuel_correct_collinear_repeats : fuel.
Lemma lem_for_repeats ns (g g' : nat -> nat -> prog unit) : (forall a b, lem (g a b) (g' a b)) -> lem (for_repeats ns g) (for_repeats ns g').
Proof. intros H. unfold for_repeats. fu. Qed.
Lemma fuel_correct_collinear_edges : lem (correct_collinear_edges f) (correct_collinear_edges f').
Proof. unfold correct_collinear_edges. fu. all: apply lem_for_repeats; intros; fu. Qed.
#[local] Hint Resolve fuel_correct_collinear_edges : fuel.
Lemma fuel_find_parent : forall r l, lem (find_parent f r l) (find_parent f' r l).
Proof. intros r l. induction l; cbn [find_parent]; fu. Qed.
#[local] Hint Resolve fuel_find_parent : fuel.
Lemma fuel_correct_tree_ring : forall l r, lem (correct_tree_ring f l r) (correct_tree_ring f' l r).
Proof. intros. unfold correct_tree_ring. fu. Qed.
#[local] Hint Resolve fuel_correct_tree_ring : fuel.
Lemma fuel_correct_tree_loop : forall l before, lem (correct_tree_loop f before l) (correct_tree_loop f' before l).
Proof. intros l. induction l; intros before; cbn [correct_tree_loop]; fu. Qed.
#[local] Hint Resolve fuel_correct_tree_loop : fuel.
Lemma fuel_correct_tree : lem (correct_tree f ) (correct_tree f' ).
Proof. intros. unfold correct_tree. fu. Qed.
#[local] Hint Resolve fuel_correct_tree : fuel.
Lemma fuel_loop_scan : forall p o q a b l, lem (loop_scan f p o q a b l) (loop_scan f' p o q a b l).
Proof. intros p o q a b l. induction l as [|[x y] l IH]; cbn [loop_scan]; fu. Qed.
#[local] Hint Resolve fuel_loop_scan : fuel.
Lemma fuel_find_intersect_loop_go : forall d d' p o q v a b, (d <= d')%nat ->
  lem (find_intersect_loop f d p o q v a b) (find_intersect_loop f' d' p o q v a b).
Proof.
  induction d as [|d IH]; intros d' p o q v a b Ld; [apply lem_nofuel|]. destruct d' as [|d']; [lia|].
  assert (IH' : forall p o q v a b, lem (find_intersect_loop f d p o q v a b) (find_intersect_loop f' d' p o q v a b)) by (intros; apply IH; lia).
  cbn [find_intersect_loop]. apply lem_bind; [apply lem_refl|intros prs]. apply lem_bind; [apply fuel_loop_scan|intros [[x|] kept]]; [apply lem_refl|].
  cbn [fst snd]. cbv zeta. apply lem_bind; [apply lem_refl|intros _]. generalize (q :: v) as vis. induction kept as [|[x y] l IHl]; intros vis; [apply lem_refl|]. fu.
Qed.
Lemma fuel_find_intersect_loop : forall p o q v a b, lem (find_intersect_loop f f p o q v a b) (find_intersect_loop f' f' p o q v a b).
Proof. intros. apply fuel_find_intersect_loop_go. exact L. Qed.
#[local] Hint Resolve fuel_find_intersect_loop : fuel.
Lemma fuel_chain_scan : forall p o q a l v, lem (chain_scan f p o q a l v) (chain_scan f' p o q a l v).
Proof. intros p o q a l. induction l as [|[x y] l IH]; intros v; cbn [chain_scan]; fu. Qed.
#[local] Hint Resolve fuel_chain_scan : fuel.
Lemma fuel_origin_swap : forall o a b l, lem (origin_swap f o a b l) (origin_swap f' o a b l).
Proof. intros o a b l. induction l as [|[r [x y]] l IH]; cbn [origin_swap]; fu. Qed.
#[local] Hint Resolve fuel_origin_swap : fuel.
Lemma fuel_give_children : forall a b, lem (give_children f a b) (give_children f' a b).
Proof. intros. unfold give_children. apply fuel_iter_children. intros; fu. Qed.
#[local] Hint Resolve fuel_give_children : fuel.
Lemma fuel_moved_pairs : forall l, lem (moved_pairs f l) (moved_pairs f' l).
Proof. intros l. induction l as [|[x y] l IH]; cbn [moved_pairs]; fu. Qed.
#[local] Hint Resolve fuel_moved_pairs : fuel.
Lemma fuel_origin_pairs : forall o l, lem (origin_pairs f o l) (origin_pairs f' o l).
Proof. intros o l. induction l as [|[x y] l IH]; cbn [origin_pairs]; fu. Qed.
#[local] Hint Resolve fuel_origin_pairs : fuel.
Lemma fuel_reconnect : forall p o a b l, lem (reconnect f p o a b l) (reconnect f' p o a b l).
Proof. intros. unfold reconnect. fu. Qed.
#[local] Hint Resolve fuel_reconnect : fuel.
Lemma fuel_process_single_intersection : forall i j, lem (process_single_intersection f i j) (process_single_intersection f' i j).
Proof. intros. unfold process_single_intersection. fu. Qed.
#[local] Hint Resolve fuel_process_single_intersection : fuel.
Lemma fuel_correct_chained_repeats : forall ns a b, lem (correct_chained_repeats f ns a b) (correct_chained_repeats f' ns a b).
Proof. intros. unfold correct_chained_repeats. fu. Qed.
#[local] Hint Resolve fuel_correct_chained_repeats : fuel.
Lemma fuel_correct_chained_rings : lem (correct_chained_rings f) (correct_chained_rings f').
Proof. unfold correct_chained_rings. fu. all: apply lem_for_repeats; intros; fu. Qed.
#[local] Hint Resolve fuel_correct_chained_rings : fuel.
Lemma fuel_correct_topology : lem (correct_topology f ) (correct_topology f' ).
Proof. intros. unfold correct_topology. fu. Qed.
#[local] Hint Resolve fuel_correct_topology : fuel.
Lemma fuel_ring_output : forall b r, lem (ring_output f b r) (ring_output f' b r).
Proof. intros. unfold ring_output. fu. Qed.
#[local] Hint Resolve fuel_ring_output : fuel.
Lemma fuel_rings_to_polygons_go : forall d d' b l, (d <= d')%nat -> lem (rings_to_polygons f d b l) (rings_to_polygons f' d' b l).
Proof.
  induction d as [|d IH]; intros d' b l Ld; [apply lem_nofuel|]. destruct d' as [|d']; [lia|].
  assert (IH' : forall b l, lem (rings_to_polygons f d b l) (rings_to_polygons f' d' b l)) by (intros; apply IH; lia).
  cbn [rings_to_polygons]. fu.
Qed.
Lemma fuel_rings_to_polygons : forall b l, lem (rings_to_polygons f f b l) (rings_to_polygons f' f' b l).
Proof. intros. apply fuel_rings_to_polygons_go. exact L. Qed.
#[local] Hint Resolve fuel_rings_to_polygons : fuel.
Lemma fuel_build_result : forall b, lem (build_result f b) (build_result f' b).
Proof. intros. unfold build_result. fu. Qed.
#[local] Hint Resolve fuel_build_result : fuel.
Lemma fuel_run : forall b ms, lem (run f op sfk cfk b ms) (run f' op sfk cfk b ms).
Proof. intros. unfold run. fu. Qed.
#[local] Hint Resolve fuel_run : fuel.
Lemma fuel_execute : forall w, ler (execute f w op sfk cfk) (execute f' w op sfk cfk).
Proof.
  intros w. unfold execute. destruct (lml_values (w_minimums w)); [right; reflexivity|].
  apply ler_rbind; [apply fuel_run|]. intros [r s]. right. reflexivity.
Qed.
End Mono.

(** the answer of [execute] is the same for any two sufficient bounds *)
Lemma execute_fuel_irrelevant : forall f1 f2 w op sfk cfk,
  execute f1 w op sfk cfk <> NoFuel -> execute f2 w op sfk cfk <> NoFuel ->
  execute f1 w op sfk cfk = execute f2 w op sfk cfk.
Proof.
  intros f1 f2 w op sfk cfk N1 N2. destruct (Nat.le_ge_cases f1 f2) as [L|L].
  - destruct (fuel_execute _ _ L op sfk cfk w); congruence.
  - destruct (fuel_execute _ _ L op sfk cfk w); congruence.
Qed.

