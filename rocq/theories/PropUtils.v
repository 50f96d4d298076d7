(** * Property theorems: utilities (C15-C19, C23, C27, C35, C38, C39)

    Only statements; every proof is [exact] of a lemma or a computation. *)
From Coq Require Import ZArith List Bool Lia Permutation Sorting.Sorted FMapPositive.
From Coq Require Import Floats.SpecFloat.
From RecordUpdate Require Import RecordSet.
From Verif Require Import Py Monad Utils Spec Geometry LinearRingM BoundM LocalMinimumM StateM
     PointNodeM RingM SweepM SortP QuickP ListP UlpP MiscP ScanP HotPixelP.
Import ListNotations RecordSetNotations.
Local Open Scope Z_scope.

(** ** C15 *)
(** For a total comparator [bubble_sort] terminates, its result is a permutation
    of the input with every adjacent pair in order, and the recorded calls of
    [on_swap] are exactly the adjacent out-of-order exchanges that lead from the
    input to the result. *)
Theorem C15_bubble_sort_sorts_and_reports_swaps :
  forall (A : Type) (cmp : A -> A -> bool),
  (forall a b, cmp a b = true \/ cmp b a = true) ->
  forall (l : list A) (fuel : nat), (inversions cmp l < fuel)%nat ->
  exists l' log,
    bubble_sort (cmpM cmp) (@logM A) fuel l [] = Ok (l', log) /\
    Permutation l l' /\
    LocallySorted (fun a b => cmp a b = true) l' /\
    swap_run cmp l log l'.
Proof. exact bubble_sort_report. Qed.
Print Assumptions C15_bubble_sort_sorts_and_reports_swaps.

(** With a transitive comparator the result is sorted and the number of swaps
    reported is the number of inversions of the input. *)
Theorem C15_bubble_sort_swaps_once_per_inversion :
  forall (A : Type) (cmp : A -> A -> bool),
  (forall a b, cmp a b = true \/ cmp b a = true) ->
  (forall a b c, cmp a b = true -> cmp b c = true -> cmp a c = true) ->
  forall (l : list A) (fuel : nat), (inversions cmp l < fuel)%nat ->
  exists l' log,
    bubble_sort (cmpM cmp) (@logM A) fuel l [] = Ok (l', log) /\
    StronglySorted (fun a b => cmp a b = true) l' /\
    length log = inversions cmp l.
Proof. exact bubble_sort_inversions. Qed.
Print Assumptions C15_bubble_sort_swaps_once_per_inversion.

(** Whatever the callbacks do (they may mutate state, raise, disagree with
    themselves), a returned list is a permutation of the input. *)
Theorem C15_bubble_sort_permutes_for_any_callbacks :
  forall (St A : Type) (cmp : A -> A -> M St bool) (on_swap : A -> A -> M St unit)
         (fuel : nat) (l : list A) (s : St) (l' : list A) (s' : St),
  bubble_sort cmp on_swap fuel l s = Ok (l', s') -> Permutation l l'.
Proof. exact (@bubble_sort_perm). Qed.
Print Assumptions C15_bubble_sort_permutes_for_any_callbacks.

Example C15_example :
  (forall a b, (a <=? b) = true \/ (b <=? a) = true) /\
  (forall a b c, (a <=? b) = true -> (b <=? c) = true -> (a <=? c) = true) /\
  inversions Z.leb [3; 1; 2] = 2%nat /\
  bubble_sort (cmpM Z.leb) (@logM Z) 3 [3; 1; 2] []
  = Ok ([1; 2; 3], [(3, 1); (3, 2)]).
Proof. repeat split; try (intros; rewrite ?Z.leb_le in *; lia). Qed.

(** ** C16 *)
Theorem C16_quicksort_sorts :
  forall (A : Type) (cmp : A -> A -> bool),
  (forall a b, cmp a b = true \/ cmp b a = true) ->
  (forall a b c, cmp a b = true -> cmp b c = true -> cmp a c = true) ->
  forall (l : list A) (fuel : nat), (3 ^ length l < fuel)%nat ->
  exists l', quicksort cmp fuel l = Ok l' /\ Permutation l l' /\
             StronglySorted (fun a b => cmp b a = true) l'.
Proof. exact (@quicksort_sorts). Qed.
Print Assumptions C16_quicksort_sorts.
Theorem C16_quicksort_permutes_for_any_comparator :
  forall (A : Type) (cmp : A -> A -> bool) (fuel : nat) (l l' : list A),
  quicksort cmp fuel l = Ok l' -> Permutation l l'.
Proof. exact (@quicksort_perm). Qed.
Print Assumptions C16_quicksort_permutes_for_any_comparator.
Example C16_example :
  quicksort Z.leb 100 [3; 1; 2; 1] = Ok [3; 2; 1; 1].
Proof. reflexivity. Qed.

(** ** C17 *)
Theorem C17_insort_unique_keeps_strictly_increasing_set :
  forall (l : list Z) (v : Z), StronglySorted Z.lt l ->
  StronglySorted Z.lt (insort_unique l v) /\
  (forall x, In x (insort_unique l v) <-> x = v \/ In x l) /\
  (In v l -> insort_unique l v = l).
Proof. exact insort_unique_set. Qed.
Print Assumptions C17_insort_unique_keeps_strictly_increasing_set.
Example C17_example :
  StronglySorted Z.lt [1; 4; 9] /\ insort_unique [1; 4; 9] 5 = [1; 4; 5; 9]
  /\ insort_unique [1; 4; 9] 4 = [1; 4; 9].
Proof. repeat split; repeat constructor. Qed.

(** ** C18 *)
(** Element [i] of the rotation by [k] is element [i + k] (mod the length) of
    the list, for every [|k| < len]; the length is kept. *)
Theorem C18_rotate_sequence_is_cyclic_shift :
  forall (A : Type) (l : list A) (k : Z),
  (Z.abs k < Z.of_nat (length l) ->
   length (rotate_sequence l k) = length l /\
   forall i : nat, (i < length l)%nat ->
     nth_error (rotate_sequence l k) i
     = nth_error l (Z.to_nat ((Z.of_nat i + k) mod Z.of_nat (length l)))) /\
  (Z.of_nat (length l) <= Z.abs k -> rotate_sequence l k = l) /\
  rotate_sequence (rotate_sequence l k) (- k) = l.
Proof. exact rotate_all. Qed.
Print Assumptions C18_rotate_sequence_is_cyclic_shift.
Theorem C18_find_if_returns_first_index :
  forall (A : Type) (p : A -> bool) (l : list A),
  (find_if p l <= length l)%nat /\
  (forall i x, (i < find_if p l)%nat -> nth_error l i = Some x -> p x = false) /\
  (forall x, nth_error l (find_if p l) = Some x -> p x = true) /\
  (find_if p l = length l <-> forall x, In x l -> p x = false).
Proof. exact find_if_all. Qed.
Print Assumptions C18_find_if_returns_first_index.
Example C18_example :
  rotate_sequence [1; 2; 3; 4] 1 = [2; 3; 4; 1] /\
  rotate_sequence [1; 2; 3; 4] (-1) = [4; 1; 2; 3] /\
  find_if Z.even [1; 3; 4; 6] = 2%nat.
Proof. repeat split. Qed.

(** ** C19 *)
(** Two numbers are almost equal iff at most four steps "to the next binary64
    number" lead from one to the other. *)
Theorem C19_almost_equal_is_four_ulps :
  forall f g, is_number f -> is_number g ->
  (almost_equal (NF f) (NF g) = Ok true
   <-> exists n : nat, (n <= 4)%nat /\ (steps n f g \/ steps n g f)).
Proof. exact almost_equal_iff_steps. Qed.
Print Assumptions C19_almost_equal_is_four_ulps.
(** Exactly one of almost-equal, greater, less holds, greater/less agree with the
    IEEE order, and greater-or-equal is greater or almost-equal. *)
Theorem C19_float_comparisons_are_a_trichotomy :
  forall f g, is_number f -> is_number g ->
  exists e gt lt,
    almost_equal (NF f) (NF g) = Ok e /\ float_gt (NF f) (NF g) = Ok gt /\
    float_lt (NF f) (NF g) = Ok lt /\ float_ge (NF f) (NF g) = Ok (gt || e) /\
    (e = true /\ gt = false /\ lt = false \/
     e = false /\ gt = true /\ lt = false /\ flt g f \/
     e = false /\ gt = false /\ lt = true /\ flt f g).
Proof. exact float_trichotomy. Qed.
Print Assumptions C19_float_comparisons_are_a_trichotomy.
Theorem C19_almost_equal_reflexive_symmetric :
  forall x y, almost_equal (NF x) (NF x) = Ok true /\
              almost_equal (NF x) (NF y) = almost_equal (NF y) (NF x) /\
              almost_equal (NF (S754_zero true)) (NF (S754_zero false)) = Ok true.
Proof. exact almost_equal_laws. Qed.
Print Assumptions C19_almost_equal_reflexive_symmetric.
(** It is not an equivalence: transitivity fails (as for any tolerance). *)
Theorem C19_almost_equal_transitive_refuted :
  exists f g h, is_number f /\ is_number g /\ is_number h /\
    almost_equal (NF f) (NF g) = Ok true /\ almost_equal (NF g) (NF h) = Ok true /\
    almost_equal (NF f) (NF h) = Ok false.
Proof. exact almost_equal_not_transitive. Qed.
Print Assumptions C19_almost_equal_transitive_refuted.
Example C19_example :
  is_number f_half /\ is_number f_one /\ float_lt (NF f_half) (NF f_one) = Ok true.
Proof. repeat split. Qed.

(** ** C23 *)
Theorem C23_box_containment_is_a_partial_order :
  (forall a, box_inside_of a a = true) /\
  (forall a b c, box_inside_of a b = true -> box_inside_of b c = true ->
                 box_inside_of a c = true) /\
  (forall a b, box_inside_of a b = true -> box_inside_of b a = true ->
               box_eqb a b = true /\ a = b).
Proof. exact box_order. Qed.
Print Assumptions C23_box_containment_is_a_partial_order.
(** On non-empty boxes containment is inclusion of the point sets. *)
Theorem C23_box_containment_is_inclusion :
  forall a b, px (bmin a) <= px (bmax a) -> py (bmin a) <= py (bmax a) ->
  (box_inside_of a b = true <->
   forall x y, px (bmin a) <= x <= px (bmax a) -> py (bmin a) <= y <= py (bmax a) ->
               px (bmin b) <= x <= px (bmax b) /\ py (bmin b) <= y <= py (bmax b)).
Proof. exact box_inside_inclusion. Qed.
Print Assumptions C23_box_containment_is_inclusion.
Example C23_example :
  box_inside_of (Box (Pt 1 1) (Pt 2 3)) (Box (Pt 0 1) (Pt 2 4)) = true /\
  box_inside_of (Box (Pt 0 1) (Pt 2 4)) (Box (Pt 1 1) (Pt 2 3)) = false.
Proof. split; reflexivity. Qed.

(** ** C27 *)
(** [pixel_lt]: larger y first, then smaller x. *)
Theorem C27_hot_pixels_sorted_without_duplicates :
  forall (s : st) (fuel : nat), (3 ^ length (s_hp s) < fuel)%nat ->
  exists hp', sort_hot_pixels fuel s = Ok (tt, s <| s_hp := hp' |>) /\
    (forall p, In p hp' <-> In p (s_hp s)) /\
    StronglySorted (fun a b => py b < py a \/ py b = py a /\ px a < px b) hp'.
Proof. exact (fun s fuel => sort_hot_pixels_spec fuel s). Qed.
Print Assumptions C27_hot_pixels_sorted_without_duplicates.
Example C27_example :
  match sort_hot_pixels 1000 (init_st (PositiveMap.empty _)
          <| s_hp := [Pt 1 2; Pt 0 5; Pt 1 2; Pt 0 2] |>) with
  | Ok (_, s) => s_hp s = [Pt 0 5; Pt 0 2; Pt 1 2]
  | _ => False
  end.
Proof. reflexivity. Qed.

(** ** C35: refuted *)
(** [insert] never inserts: whatever the recursion limit, it raises
    RecursionError. *)
Theorem C35_local_minimum_list_insert_refuted :
  forall (depth : nat) (L : lm_list) (i : Z) (m : local_minimum),
  lml_insert depth L i m = Raise RecursionError.
Proof. exact lml_insert_raises. Qed.
Print Assumptions C35_local_minimum_list_insert_refuted.

(** ** C38 *)
(** The queue starts sorted, with the y levels of the minima. *)
Theorem C38_initial_scanbeams :
  forall ms, Permutation (map lm_y ms) (scanbeams_of ms) /\
             StronglySorted Z.le (scanbeams_of ms).
Proof. exact scanbeams_of_spec. Qed.
Print Assumptions C38_initial_scanbeams.
(** Any history of pushes (at or below the current level) and pops starting from
    a sorted queue: pops never go up, no level is skipped (whatever is still
    queued is at or below the current level) and nothing is lost or invented.
    With [strict = true] (distinct levels, pushes strictly below) no level is
    popped twice. *)
Theorem C38_scanbeam_history :
  forall strict s y pushes pops s' y',
  scan_history strict s y pushes pops s' y' ->
  StronglySorted (le_or_lt strict) (s_scan s) ->
  Forall (fun v => le_or_lt strict v y) (s_scan s) ->
  StronglySorted (ge_or_gt strict) (y :: pops) /\
  StronglySorted (le_or_lt strict) (s_scan s') /\
  Forall (fun v => le_or_lt strict v y') (s_scan s') /\
  (forall v, In v pops \/ In v (s_scan s') <-> In v (s_scan s) \/ In v pushes) /\
  y' = last pops y.
Proof. exact scan_history_spec. Qed.
Print Assumptions C38_scanbeam_history.
(** "each level once" is not what the initial queue gives: two minima on the same
    level leave the level in the queue twice. *)
Theorem C38_levels_distinct_refuted :
  exists ms, ~ NoDup (scanbeams_of ms).
Proof. exact scanbeams_duplicates. Qed.
Print Assumptions C38_levels_distinct_refuted.
Example C38_example :
  scan_history true (init_st (PositiveMap.empty _) <| s_scan := [1; 5] |>) 6 [3] [5; 3]
               (init_st (PositiveMap.empty _) <| s_scan := [1] |>) 3.
Proof.
  eapply hist_pop; [discriminate|reflexivity|].
  eapply hist_push; [|reflexivity|]; [cbn; lia|].
  eapply hist_pop; [discriminate|reflexivity|]. apply hist_end.
Qed.

(** ** C39 *)
Theorem C39_to_int32_wraps :
  forall v, - 2 ^ 31 <= to_int32 v < 2 ^ 31 /\ (exists k, v = to_int32 v + k * 2 ^ 32) /\
  forall w, - 2 ^ 31 <= w < 2 ^ 31 -> (exists k, v = w + k * 2 ^ 32) -> to_int32 v = w.
Proof. exact to_int32_all. Qed.
Print Assumptions C39_to_int32_wraps.
Example C39_example : to_int32 (2 ^ 31) = - 2 ^ 31 /\ to_int32 7 = 7.
Proof. split; reflexivity. Qed.
