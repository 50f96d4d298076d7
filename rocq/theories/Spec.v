(** * Specification vocabulary

    Small definitions in which the property theorems (files [Prop*.v]) are
    stated.  Nothing here is used by the model; nothing here refers to how
    wagyu computes anything. *)
From Coq Require Import ZArith List Bool.
From Coq Require Import Floats.SpecFloat.
From Verif Require Import Py Monad.
Import ListNotations.

(** ** Sorting with a boolean comparator ([cmp a b]: "[a] may stand before [b]") *)
Section Sorting.
  Context {A : Type} (cmp : A -> A -> bool).
  (** number of pairs [i < j] whose elements are out of order *)
  Fixpoint out_of_order_after (x : A) (l : list A) : nat :=
    match l with
    | [] => 0
    | y :: l' => (if cmp x y then 0 else 1) + out_of_order_after x l'
    end.
  Fixpoint inversions (l : list A) : nat :=
    match l with
    | [] => 0
    | x :: l' => out_of_order_after x l' + inversions l'
    end.
  (** [swap_run l log l']: starting from [l], exchanging one adjacent
      out-of-order pair after the other, in the order recorded by [log], gives
      [l']. *)
  Inductive swap_run : list A -> list (A * A) -> list A -> Prop :=
  | swap_done : forall l, swap_run l [] l
  | swap_step : forall pre a b post log l',
      cmp a b = false ->
      swap_run (pre ++ b :: a :: post) log l' ->
      swap_run (pre ++ a :: b :: post) ((a, b) :: log) l'.
  (** the two callbacks of [bubble_sort]: a pure comparator, and a swap handler
      that records its arguments *)
  Definition cmpM (a b : A) : M (list (A * A)) bool := ret (cmp a b).
  Definition logM (a b : A) : M (list (A * A)) unit := modify (fun log => log ++ [(a, b)]).
End Sorting.

(** ** binary64 numbers *)
(** a number: a valid binary64 datum that is not NaN (both infinities included) *)
Definition is_number (f : float) : Prop :=
  valid_binary fprec femax f = true /\ f_is_nan f = false.
(** IEEE order and equality ([-0 = +0]) *)
Definition flt (f g : float) : Prop := SFltb f g = true.
Definition feq (f g : float) : Prop := SFeqb f g = true.
(** [g] is the next number after [f]: nothing lies strictly between *)
Definition next_number (f g : float) : Prop :=
  is_number f /\ is_number g /\ flt f g /\
  forall h, is_number h -> ~ (flt f h /\ flt h g).
(** [g] is reached from [f] in exactly [n] such steps *)
Inductive steps : nat -> float -> float -> Prop :=
| steps_0 : forall f g, is_number f -> is_number g -> feq f g -> steps 0 f g
| steps_S : forall n f g h, next_number f g -> steps n g h -> steps (S n) f h.
