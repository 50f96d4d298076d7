(** * wagyu/local_minimum.py *)
From Coq Require Import ZArith List Bool Lia FMapPositive.
From Coq Require Import Floats.SpecFloat.
From RecordUpdate Require Import RecordSet.
From Verif Require Import Py Monad Utils Geometry LinearRingM BoundM.
Import ListNotations RecordSetNotations.
Open Scope Z_scope.

#[export] Instance eta_bound : Settable _ :=
  settable! mkBound <b_edges; b_cur; b_next; b_last; b_ring; b_cx; b_pos; b_wc;
                     b_owc; b_wd; b_kind; b_side; b_max>.

(** ** Object heaps: total maps from identities to records. *)
Definition heap (A : Type) := PositiveMap.t A.
Definition hget {A} (d : A) (h : heap A) (i : positive) : A :=
  match PositiveMap.find i h with Some a => a | None => d end.
Definition hset {A} (h : heap A) (i : positive) (a : A) : heap A :=
  PositiveMap.add i a h.
Definition dummy_bound : bound := new_bound [].
Definition bget := hget dummy_bound.

(** [LocalMinimum] (local_minimum.py:18-31) *)
Record local_minimum := LM {
  lm_left : bid; lm_right : bid; lm_y : Z; lm_hor : bool
}.

(** [LocalMinimum.__lt__] (local_minimum.py:41-45): tuple order, False < True *)
Definition lm_lt (a b : local_minimum) : bool :=
  (lm_y a <? lm_y b)
  || ((lm_y a =? lm_y b) && (negb (lm_hor a) && lm_hor b)).

(** [LocalMinimumList] together with the bounds it owns; [lml_next] is the next
    fresh identity. *)
Record lm_list := LML {
  lml_values : list local_minimum;
  lml_bounds : heap bound;
  lml_next : bid
}.
Definition empty_lm_list : lm_list := LML [] (PositiveMap.empty _) 1%positive.

(** [LocalMinimumList.scanbeams] (local_minimum.py:91-93) *)
Definition scanbeams_of (l : list local_minimum) : list Z :=
  pure_sort Z.ltb (map lm_y l).

(** [to_local_maximum_index] (local_minimum.py:180-201) *)
Fixpoint local_max_scan (p : edge) (p_hor y_dec : bool) (l : list edge) (i : nat) : nat :=
  match l with
  | [] => i
  | e :: l' =>
      let e_hor := is_horizontal e in
      if negb p_hor && negb e_hor && point_eqb (etop e) (etop p) then i
      else if negb e_hor && p_hor then
        if y_dec && (point_eqb (etop e) (ebot p) || point_eqb (etop e) (etop p)) then i
        else local_max_scan e e_hor y_dec l' (S i)
      else if negb y_dec && negb p_hor && e_hor
              && (point_eqb (etop p) (etop e) || point_eqb (etop p) (ebot e))
      then local_max_scan e e_hor true l' (S i)
      else local_max_scan e e_hor y_dec l' (S i)
  end.
Definition local_maximum_index (edges : list edge) : nat :=
  match last_opt edges with
  | None => 0
  | Some p => local_max_scan p (is_horizontal p) false edges 0
  end.

(** [to_edges_starting_on_local_maximum] (local_minimum.py:174-177) *)
Definition start_on_local_maximum (edges : list edge) : list edge :=
  if (2 <? length edges)%nat
  then rotate_sequence edges (Z.of_nat (local_maximum_index edges))
  else edges.

(** [to_first_non_horizontal_index] (local_minimum.py:204-207); StopIteration is
    turned into RuntimeError by the caller (local_minimum.py:120-122) *)
Definition first_non_horizontal (l : list edge) : option nat :=
  let i := find_if (fun e => negb (is_horizontal e)) l in
  if (i =? length l)%nat then None else Some i.

(** One iteration of the [while edges] loop (local_minimum.py:104-166), without
    the linking of [maximum_bound]: (to_minimum edges, to_maximum edges,
    minimum_is_left, minimum_has_horizontal, y, remaining edges). *)
Record minimum_spec := MS {
  ms_min : list edge; ms_max : list edge;
  ms_min_left : bool; ms_hor : bool; ms_y : Z
}.
Definition one_minimum (edges : list edge) : res (minimum_spec * list edge) :=
  ('(mn, rest) <- towards_minimum edges ;;
   match rest with
   | [] => Raise (RuntimeError SingleBound)
   | _ =>
     '(mx, rest') <- towards_maximum rest ;;
     let mn := fix_horizontals mn in
     let mx := fix_horizontals mx in
     match first_non_horizontal mx, first_non_horizontal mn with
     | Some kx, Some kn =>
         emx <- nth_res mx kx ;;
         emn <- nth_res mn kn ;;
         let hor := (0 <? kx)%nat || (0 <? kn)%nat in
         let '(mn', mx', min_left) :=
             if hor then
               if px (ebot emx) >? px (ebot emn) then
                 let '(mn', mx') := move_horizontals mn mx in (mn', mx', true)
               else
                 let '(mx', mn') := move_horizontals mx mn in (mn', mx', false)
             else (mn, mx, num_leb (NF (eslope emx)) (NF (eslope emn))) in
         front <- nth_res mn' 0 ;;
         Ok (MS mn' mx' min_left hor (py (ebot front)), rest')
     | _, _ => Raise (RuntimeError HorizontalOnlyBound)
     end
   end)%res.

(** the bounds of one local minimum (local_minimum.py:133-166) *)
Definition min_bound (m : minimum_spec) (kind : polygon_kind) (max : option bid) : bound :=
  new_bound (ms_min m)
    <| b_kind := kind |>
    <| b_side := if ms_min_left m then LEFT else RIGHT |>
    <| b_wd := -1 |>
    <| b_max := max |>.
Definition max_bound (m : minimum_spec) (kind : polygon_kind) : bound :=
  new_bound (ms_max m)
    <| b_kind := kind |>
    <| b_side := if ms_min_left m then RIGHT else LEFT |>
    <| b_wd := 1 |>.

(** The [while edges] loop (local_minimum.py:104-166).  [first]/[last] are
    [first_minimum]/[last_maximum].  [to_minimum] gets identity [next],
    [to_maximum] gets [next + 1]. *)
Definition add_minima_body (kind : polygon_kind)
  (x : list edge * option bid * option bid * lm_list)
  : res ((list edge * option bid * option bid * lm_list)
         + (option bid * option bid * lm_list)) :=
  let '(edges, first, last, L) := x in
  match edges with
  | [] => Ok (inr (first, last, L))
  | _ =>
    ('(m, rest) <- one_minimum edges ;;
     let imin := lml_next L in
     let imax := Pos.succ imin in
     let bs1 := hset (lml_bounds L) imin (min_bound m kind last) in
     let bs2 := hset bs1 imax (max_bound m kind) in
     let bs3 := match last with
                | None => bs2
                | Some j => hset bs2 j (bget bs2 j <| b_max := Some imin |>)
                end in
     let lm := if ms_min_left m then LM imin imax (ms_y m) (ms_hor m)
               else LM imax imin (ms_y m) (ms_hor m) in
     let first' := match last with None => Some imin | Some _ => first end in
     Ok (inl (rest, first', Some imax,
              LML (lml_values L ++ [lm]) bs3 (Pos.succ imax))))%res
  end.

(** [LocalMinimumList.add_linear_ring] (local_minimum.py:95-168) *)
Definition add_linear_ring (L : lm_list) (pts : list point) (kind : polygon_kind)
  : res (bool * lm_list) :=
  (edges <- linear_ring_edges pts ;;
   match edges with
   | [] => Ok (false, L)
   | _ =>
     let edges := start_on_local_maximum edges in
     r <- loopR (S (length edges)) (add_minima_body kind) (edges, None, None, L) ;;
     let '(first, last, L') := r in
     match first, last with
     | Some f, Some l =>
         let bs1 := hset (lml_bounds L') l (bget (lml_bounds L') l <| b_max := Some f |>) in
         let bs2 := hset bs1 f (bget bs1 f <| b_max := Some l |>) in
         Ok (true, LML (lml_values L') bs2 (lml_next L'))
     | _, _ => Raise AttributeError
     end
   end)%res.

(** [LocalMinimumList.insert] (local_minimum.py:170-171) calls itself; CPython
    bounds the recursion ([fuel] is the remaining recursion depth). *)
Fixpoint lml_insert (fuel : nat) (L : lm_list) (index : Z) (v : local_minimum)
  : res lm_list :=
  match fuel with
  | O => Raise RecursionError
  | S fuel' => lml_insert fuel' L index v
  end.

(** [LocalMinimumList.clear] (collections.abc.MutableSequence.clear: pop until
    IndexError, via [__getitem__(-1)] and [__delitem__(-1)],
    local_minimum.py:74-83) *)
Definition lml_clear (L : lm_list) : lm_list :=
  LML [] (lml_bounds L) (lml_next L).
