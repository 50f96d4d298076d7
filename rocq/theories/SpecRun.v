(** * Specification vocabulary: the scanbeams of a whole sweep *)
From Coq Require Import ZArith List Bool.
From RecordUpdate Require Import RecordSet.
From Verif Require Import Py Monad Utils Geometry LinearRingM BoundM LocalMinimumM
     StateM PointNodeM RingM SweepM SpecActive.
Import ListNotations RecordSetNotations.
Open Scope Z_scope.
Local Open Scope m_scope.

Section Run.
Context (fuel : nat) (op : operation_kind) (sfk cfk : fill_kind).
(** one turn of the loop of [execute_vatti] (ring_manager.py:715-739): [y] is the
    current scan line and [k] the number of local minima already used *)
Definition scanbeam_turn (ms : list local_minimum) (x : Z * nat) : prog (Z * nat + unit) :=
  let '(y, k) := x in
  (go <- sweep_pending ms k ;;
   if (go : bool) then
     (y' <- pop_scanbeam y ;;
      process_intersections fuel op sfk cfk y' ;;
      update_current_hot_pixel_index fuel y' ;;
      k' <- process_edges_at_top_of_scanbeam fuel op sfk cfk y' ms k ;;
      k'' <- insert_local_minima fuel op sfk cfk false y' ms k' ;;
      ret (inl (y', k'')))
   else ret (inr tt)).
(** the assignments before the loop (ring_manager.py:703-714) *)
Definition sweep_start (minimums : list local_minimum) (s : st) : st :=
  s <| s_scan := scanbeams_of minimums |> <| s_abl := [] |> <| s_hpi := 0%nat |>.
(** the states between two turns of the loop *)
Inductive swept (minimums : list local_minimum) (s0 : st) : Z -> nat -> st -> Prop :=
| swept_start : swept minimums s0 0 0 (sweep_start minimums s0)
| swept_turn y k s y' k' s' : swept minimums s0 y k s ->
    scanbeam_turn (pure_sort_rev lm_lt minimums) (y, k) s = Ok (inl (y', k'), s') ->
    swept minimums s0 y' k' s'.
End Run.

(** the bounds of the first [k] local minima, in the order in which they are used *)
Definition entered (minimums : list local_minimum) (k : nat) (i : bid) : Prop :=
  exists m, In m (firstn k (pure_sort_rev lm_lt minimums)) /\ (i = lm_left m \/ i = lm_right m).
(** no bound has left the active list without its partner *)
Definition left_in_pairs (minimums : list local_minimum) (k : nat) (s : st) : Prop :=
  forall i j, entered minimums k i -> ~ In i (live s) -> b_max (bget (s_bounds s) i) = Some j ->
  entered minimums k j /\ ~ In j (live s).
