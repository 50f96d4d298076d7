(** * wagyu/utils.py and wagyu/bubble_sort.py *)
From Coq Require Import ZArith List Bool Lia.
From Coq Require Import Floats.SpecFloat.
From Verif Require Import Py Monad.
Import ListNotations.
Open Scope Z_scope.

(** ** Floating point comparisons (utils.py:15-46) *)

(** [struct.unpack('!Q', struct.pack('!d', value))] (utils.py:42): the IEEE
    binary64 bit pattern.  Simplification: every NaN is given the bits of
    CPython's [math.nan]. *)
Definition float_bits (f : float) : Z :=
  match f with
  | S754_zero s => if s then 2 ^ 63 else 0
  | S754_infinity s => (if s then 2 ^ 63 else 0) + 2047 * 2 ^ 52
  | S754_nan => 2047 * 2 ^ 52 + 2 ^ 51
  | S754_finite s m e =>
      (if s then 2 ^ 63 else 0)
      + (if Zpos m <? 2 ^ 52 then Zpos m else (e + 1075) * 2 ^ 52 + (Zpos m - 2 ^ 52))
  end.

(** [_double_to_biased] (utils.py:39-46); [ctypes.c_uint64] is [mod 2^64]. *)
Definition double_to_biased (f : float) : Z :=
  let r := float_bits f in
  if Z.land (2 ^ 63) r =? 0 then Z.lor (2 ^ 63) r mod 2 ^ 64
  else (Z.lnot r + 1) mod 2 ^ 64.

(** [are_floats_almost_equal] (utils.py:31-36) on floats, then on Python numbers
    ([struct.pack] converts ints). *)
Definition f_almost_equal (x y : float) : bool :=
  Z.abs (double_to_biased x - double_to_biased y) <=? 4.
Definition almost_equal (x y : num) : res bool :=
  (a <- num_to_float x ;; b <- num_to_float y ;; Ok (f_almost_equal a b))%res.

(** [are_floats_greater_than_or_equal] (utils.py:15-16) *)
Definition float_ge (x y : num) : res bool :=
  if num_gtb x y then Ok true else almost_equal x y.
(** [are_floats_greater_than] (utils.py:19-20) *)
Definition float_gt (x y : num) : res bool :=
  (b <- almost_equal x y ;; Ok (negb b && num_gtb x y))%res.
(** [are_floats_less_than] (utils.py:23-24) *)
Definition float_lt (x y : num) : res bool :=
  (b <- almost_equal x y ;; Ok (negb b && num_ltb x y))%res.
(** [is_float_almost_zero] (utils.py:27-28) *)
Definition almost_zero (x : num) : res bool := almost_equal x (NF f_zero).

(** ** Sequences (utils.py:49-79) *)

(** [rotate_sequence] (utils.py:49-52) *)
Definition rotate_sequence {A} (l : list A) (index : Z) : list A :=
  let n := Z.of_nat (length l) in
  if (0 <? Z.abs index) && (Z.abs index <? n)
  then let k := Z.to_nat (if index <? 0 then n + index else index) in
       skipn k l ++ firstn k l
  else l.

(** [bisect.bisect_left] on a list of ints (standard library, used by
    utils.py:56). *)
Fixpoint bisect_go (fuel : nat) (l : list Z) (x : Z) (lo hi : nat) : nat :=
  match fuel with
  | O => lo
  | S fuel' =>
      if (lo <? hi)%nat then
        let mid := Nat.div2 (lo + hi) in
        if nth mid l 0 <? x then bisect_go fuel' l x (S mid) hi
        else bisect_go fuel' l x lo mid
      else lo
  end.
Definition bisect_left (l : list Z) (x : Z) : nat :=
  bisect_go (length l) l x 0 (length l).

(** [list.insert(index, value)] for a non-negative index *)
Definition list_insert {A} (l : list A) (i : nat) (x : A) : list A :=
  firstn i l ++ x :: skipn i l.

(** [insort_unique] (utils.py:55-58) *)
Definition insort_unique (l : list Z) (v : Z) : list Z :=
  let i := bisect_left l v in
  if ((i =? length l)%nat || (v <? nth i l 0)) then list_insert l i v else l.

(** [find_if] (utils.py:71-79) *)
Fixpoint find_if {A} (p : A -> bool) (l : list A) : nat :=
  match l with
  | [] => O
  | a :: l' => if p a then O else S (find_if p l')
  end.

(** [list[i] = x] *)
Fixpoint upd {A} (l : list A) (i : nat) (x : A) : list A :=
  match l, i with
  | [], _ => []
  | _ :: l', O => x :: l'
  | a :: l', S i' => a :: upd l' i' x
  end.

(** ** Rounding (utils.py:82-98) *)

(** [round_half_up] (utils.py:94-98): [Decimal(number)] is exact,
    [quantize(0, ROUND_HALF_UP)] rounds half away from zero and raises
    InvalidOperation when the result needs more than the default context's 28
    digits; [int(Decimal('NaN'))] raises ValueError. *)
Definition round_half_away (s : bool) (m : positive) (e : Z) : Z :=
  let mag := if 0 <=? e then Zpos m * 2 ^ e
             else (2 * Zpos m + 2 ^ (- e)) / (2 * 2 ^ (- e)) in
  if s then - mag else mag.
Definition check_digits (z : Z) : res Z :=
  if Z.abs z <? 10 ^ 28 then Ok z else Raise InvalidOperation.
Definition round_half_up (x : num) : res Z :=
  match x with
  | NI z => check_digits z
  | NF (S754_zero _) => Ok 0
  | NF (S754_infinity _) => Raise InvalidOperation
  | NF S754_nan => Raise ValueError
  | NF (S754_finite s m e) => check_digits (round_half_away s m e)
  end.

(** [round_towards_min] (utils.py:82-85) *)
Definition round_towards_min (x : num) : res Z :=
  (fl <- num_floor x ;;
   h <- num_add (NI fl) (NF f_half) ;;
   b <- almost_equal h x ;;
   if (b : bool) then num_floor x else round_half_up x)%res.

(** [round_towards_max] (utils.py:88-91) *)
Definition round_towards_max (x : num) : res Z :=
  (fl <- num_floor x ;;
   h <- num_add (NI fl) (NF f_half) ;;
   b <- almost_equal h x ;;
   if (b : bool) then num_ceil x else round_half_up x)%res.

(** [is_odd] (utils.py:101-102) *)
Definition is_odd (n : nat) : bool := Nat.odd n.

(** ** [quicksort] (utils.py:105-132)

    The Python list is a Coq list updated in place ([upd]); the inner and the
    outer [while] are [loopR]s.  The fuel of the inner loop is exact (the
    distance between the two indices shrinks by one), the outer one is given. *)
Section Quicksort.
  Context {A : Type} (cmp : A -> A -> bool).

  (** utils.py:112-121; [(seq, index, element, pivot_index)] *)
  Definition qs_partition_body (pivot : A) (x : list A * nat * A * nat)
    : res ((list A * nat * A * nat) + (list A * nat)) :=
    let '(sq, index, element, pivot_index) := x in
    if (index <? pivot_index)%nat then
      if cmp pivot element then
        (element' <- nth_res sq (S index) ;;
         Ok (inl (sq, S index, element', pivot_index)))%res
      else
        let sq1 := upd sq pivot_index element in
        let pivot_index' := pred pivot_index in
        (element' <- nth_res sq1 pivot_index' ;;
         Ok (inl (upd sq1 index element', index, element', pivot_index')))%res
    else Ok (inr (upd sq pivot_index pivot, pivot_index)).

  Definition qs_partition (sq : list A) (low high : nat) : res (list A * nat) :=
    (element <- nth_res sq low ;;
     pivot <- nth_res sq high ;;
     loopR (S (high - low)) (qs_partition_body pivot) (sq, low, element, high))%res.

  (** utils.py:111-132; the queue's last element is the head of the Coq list *)
  Definition qs_body (x : list A * list (nat * nat))
    : res ((list A * list (nat * nat)) + list A) :=
    let '(sq, queue) := x in
    match queue with
    | [] => Ok (inr sq)
    | (low, high) :: queue' =>
        ('(sq', pivot_index) <- qs_partition sq low high ;;
         let low_size := (pivot_index - low)%nat in
         let high_size := (high - pivot_index)%nat in
         let queue1 :=
             if (high_size <? low_size)%nat then (low, pred pivot_index) :: queue'
             else if (1 <? low_size)%nat
                  then (low, pred pivot_index) :: (S pivot_index, high) :: queue'
                  else queue' in
         let queue2 :=
             if (1 <? high_size)%nat then (S pivot_index, high) :: queue1
             else queue1 in
         Ok (inl (sq', queue2)))%res
    end.

  Definition quicksort (fuel : nat) (sq : list A) : res (list A) :=
    if (length sq <? 2)%nat then Ok sq
    else loopR fuel qs_body (sq, [(O, pred (length sq))]).
End Quicksort.

(** ** [bubble_sort] (bubble_sort.py:7-21)

    [pass] is the [for index in range(len(result) - 1)] loop: the element at
    [index] is carried, the list holds the rest.  Returns the new list and
    whether a swap happened. *)
Section BubbleSort.
  Context {St A : Type} (cmp : A -> A -> M St bool) (on_swap : A -> A -> M St unit).

  Fixpoint bubble_pass (x : A) (rest : list A) : M St (list A * bool) :=
    match rest with
    | [] => ret ([x], false)
    | y :: rest' =>
        (b <- cmp x y ;;
         if (b : bool) then
           ('(l, swapped) <- bubble_pass y rest' ;;
            ret (x :: l, swapped))
         else
           (on_swap x y ;;
            '(l, _) <- bubble_pass x rest' ;;
            ret (y :: l, true)))%M
    end.

  Definition bubble_body (l : list A) : M St (list A + list A) :=
    match l with
    | [] => ret (inr [])
    | x :: rest =>
        ('(l', swapped) <- bubble_pass x rest ;;
         ret (if (swapped : bool) then inl l' else inr l'))%M
    end.

  Definition bubble_sort (fuel : nat) (l : list A) : M St (list A) :=
    loopM fuel bubble_body l.
End BubbleSort.

(** ** Python's [sorted] / [list.sort] with a possibly effectful [__lt__]

    CPython's algorithm for lists shorter than 64 elements: [count_run] on the
    prefix (a strictly descending run is reversed), then binary insertion of the
    remaining elements.  Simplification: the same algorithm is used for longer
    lists (for a strict weak order every stable sort gives the same result). *)
Section PySort.
  Context {St A : Type} (lt : A -> A -> M St bool).

  (** continue the run after [prev]; returns (run tail, rest) *)
  Fixpoint count_run (desc : bool) (prev : A) (l : list A) : M St (list A * list A) :=
    match l with
    | [] => ret ([], [])
    | x :: l' =>
        (b <- lt x prev ;;
         if Bool.eqb b desc then
           ('(run, rest) <- count_run desc x l' ;;
            ret (x :: run, rest))
         else ret ([], l))%M
    end.

  Fixpoint bin_search (fuel : nat) (pre : list A) (pivot : A) (lo hi : nat) : M St nat :=
    match fuel with
    | O => ret lo
    | S fuel' =>
        if (lo <? hi)%nat then
          let p := (lo + Nat.div2 (hi - lo))%nat in
          match nth_error pre p with
          | None => raise IndexError
          | Some y =>
              (b <- lt pivot y ;;
               if (b : bool) then bin_search fuel' pre pivot lo p
               else bin_search fuel' pre pivot (S p) hi)%M
          end
        else ret lo
    end.

  Fixpoint binary_insertion (pre l : list A) : M St (list A) :=
    match l with
    | [] => ret pre
    | x :: l' =>
        (i <- bin_search (length pre) pre x O (length pre) ;;
         binary_insertion (list_insert pre i x) l')%M
    end.

  Definition py_sort (l : list A) : M St (list A) :=
    match l with
    | [] => ret []
    | [x] => ret [x]
    | x :: y :: l' =>
        (desc <- lt y x ;;
         '(run, rest) <- count_run desc y l' ;;
         binary_insertion (if (desc : bool) then rev (x :: y :: run) else x :: y :: run)
                          rest)%M
    end.

  (** [sorted(..., reverse=True)]: CPython reverses, sorts, reverses. *)
  Definition py_sort_rev (l : list A) : M St (list A) :=
    (l' <- py_sort (rev l) ;; ret (rev l'))%M.
End PySort.

(** Pure specialisation. *)
Definition pure_sort {A} (lt : A -> A -> bool) (l : list A) : list A :=
  match py_sort (St := unit) (fun a b => ret (lt a b)) l tt with
  | Ok (l', _) => l'
  | _ => l
  end.
Definition pure_sort_rev {A} (lt : A -> A -> bool) (l : list A) : list A :=
  rev (pure_sort lt (rev l)).
