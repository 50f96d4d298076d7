(** * Python runtime fragments used by wagyu: exceptions, int/float numbers.

    Python [int] is modelled by [Z] (unbounded), Python [float] by the standard
    library's executable IEEE-754 specification [spec_float] with the binary64
    parameters.  No real numbers and no axioms are used in this file. *)
From Coq Require Import ZArith List Bool Lia.
From Coq Require Import Floats.SpecFloat.
Import ListNotations.
Open Scope Z_scope.

(** ** Exceptions (DESIGN.md, section "Exceptions as values") *)
Inductive runtime_error :=
| SingleBound            (* local_minimum.py:108 'Edges is empty after ...' *)
| HorizontalOnlyBound    (* local_minimum.py:121 *)
| LinesDoNotIntersect    (* intersect_node.py:58, ring_manager.py:875 *)
| DoMaximaError          (* ring_manager.py:695 *)
| IntersectionOrder      (* ring_manager.py:1669 *)
| HoleWithoutParent      (* ring_manager.py:639 *)
| ChildSameOrientation   (* ring_manager.py:281 *)
| SiblingOrientation     (* ring_manager.py:291 *)
| ReassignSameOrientation(* ring_manager.py:1877 *)
| NoProperParent         (* ring_manager.py:387 *)
| NoPointWithinPolygon.  (* point_node.py:223 *)

Inductive exn :=
| RuntimeError (e : runtime_error)
| IndexError
| OverflowError
| ZeroDivisionError
| ValueError
| InvalidOperation       (* decimal.InvalidOperation *)
| AttributeError         (* attribute of None *)
| TypeError              (* iterating None *)
| AssertionError
| StopIteration
| RecursionError.

(** Result of a computation: a value, a raised exception, or exhaustion of the
    fuel that bounds a Python [while] loop / recursion in the model. *)
Inductive res (A : Type) : Type :=
| Ok (a : A)
| Raise (e : exn)
| NoFuel.
Arguments Ok {A} a.
Arguments Raise {A} e.
Arguments NoFuel {A}.

Definition rbind {A B} (m : res A) (k : A -> res B) : res B :=
  match m with
  | Ok a => k a
  | Raise e => Raise e
  | NoFuel => NoFuel
  end.

Declare Scope res_scope.
Delimit Scope res_scope with res.
Notation "x <- m ;; k" := (rbind m (fun x => k))
  (at level 100, m at next level, right associativity) : res_scope.
Notation "' p <- m ;; k" := (rbind m (fun x => let 'p := x in k))
  (at level 100, p pattern, m at next level, right associativity) : res_scope.

(** ** Python sequence indexing [l[i]]: negative indices wrap once. *)
Definition py_index {A} (l : list A) (i : Z) : option nat :=
  let n := Z.of_nat (length l) in
  if (0 <=? i) && (i <? n) then Some (Z.to_nat i)
  else if (- n <=? i) && (i <? 0) then Some (Z.to_nat (n + i))
  else None.

Definition py_nth {A} (l : list A) (i : Z) : res A :=
  match py_index l i with
  | None => Raise IndexError
  | Some k => match nth_error l k with
              | Some x => Ok x
              | None => Raise IndexError
              end
  end.

(** [l[k]] for an index known to be non-negative. *)
Definition nth_res {A} (l : list A) (k : nat) : res A :=
  match nth_error l k with
  | Some x => Ok x
  | None => Raise IndexError
  end.

(** ** binary64 *)
Notation float := spec_float.
Definition fprec : Z := 53.
Definition femax : Z := 1024.

Definition fadd := SFadd fprec femax.
Definition fsub := SFsub fprec femax.
Definition fmul := SFmul fprec femax.
Definition fdiv := SFdiv fprec femax.
Definition f_zero : float := S754_zero false.
Definition f_half : float := S754_finite false (2 ^ 52) (-53).
Definition f_inf : float := S754_infinity false.

Definition f_is_nan (f : float) : bool :=
  match f with S754_nan => true | _ => false end.
(** [math.isinf] *)
Definition f_is_inf (f : float) : bool :=
  match f with S754_infinity _ => true | _ => false end.
(** [abs] *)
Definition f_abs (f : float) : float := SFabs f.

(** An integer as an (unrounded) numeral [z * 2^0]. *)
Definition exact (z : Z) : spec_float :=
  match z with
  | Z0 => S754_zero false
  | Zpos p => S754_finite false p 0
  | Zneg p => S754_finite true p 0
  end.

(** [float(z)]: round to nearest even; too large raises OverflowError. *)
Definition float_of_Z (z : Z) : res float :=
  match binary_normalize fprec femax z 0 false with
  | S754_infinity _ => Raise OverflowError
  | f => Ok f
  end.

(** [a / b] for Python ints: the correctly rounded quotient (CPython's
    [long_true_divide]); overflow raises; [0 / negative] is [-0.0]. *)
Definition int_truediv (a b : Z) : res float :=
  if b =? 0 then Raise ZeroDivisionError
  else match fdiv (exact a) (exact b) with
       | S754_infinity _ => Raise OverflowError
       | f => Ok f
       end.

(** ** Python numbers: int or float *)
Inductive num := NI (z : Z) | NF (f : float).

(** [float(x)], also what [struct.pack('!d', x)] does. *)
Definition num_to_float (x : num) : res float :=
  match x with NI z => float_of_Z z | NF f => Ok f end.

(** Mixed arithmetic: ints stay ints, otherwise both are converted to float. *)
Definition num_arith (zop : Z -> Z -> Z) (fop : float -> float -> float)
           (x y : num) : res num :=
  match x, y with
  | NI a, NI b => Ok (NI (zop a b))
  | _, _ => (a <- num_to_float x ;; b <- num_to_float y ;; Ok (NF (fop a b)))%res
  end.
Definition num_add := num_arith Z.add fadd.
Definition num_sub := num_arith Z.sub fsub.
Definition num_mul := num_arith Z.mul fmul.

(** Exact comparison of a finite float [(-1)^s * m * 2^e] with an integer. *)
Definition sgn_mant (s : bool) (m : positive) : Z :=
  if s then Zneg m else Zpos m.
Definition compare_fin_Z (s : bool) (m : positive) (e : Z) (z : Z) : comparison :=
  if 0 <=? e then Z.compare (sgn_mant s m * 2 ^ e) z
  else Z.compare (sgn_mant s m) (z * 2 ^ (- e)).

(** Python compares int with float exactly; [None] for NaN. *)
Definition num_compare (x y : num) : option comparison :=
  match x, y with
  | NI a, NI b => Some (Z.compare a b)
  | NF f, NF g => SFcompare f g
  | NF f, NI z =>
      match f with
      | S754_nan => None
      | S754_infinity s => Some (if s then Lt else Gt)
      | S754_zero _ => Some (Z.compare 0 z)
      | S754_finite s m e => Some (compare_fin_Z s m e z)
      end
  | NI z, NF f =>
      match f with
      | S754_nan => None
      | S754_infinity s => Some (if s then Gt else Lt)
      | S754_zero _ => Some (Z.compare z 0)
      | S754_finite s m e => Some (CompOpp (compare_fin_Z s m e z))
      end
  end.
Definition num_ltb (x y : num) : bool :=
  match num_compare x y with Some Lt => true | _ => false end.
Definition num_leb (x y : num) : bool :=
  match num_compare x y with Some Lt | Some Eq => true | _ => false end.
Definition num_eqb (x y : num) : bool :=
  match num_compare x y with Some Eq => true | _ => false end.
(** [x > y], [x >= y]: Python evaluates the reflected comparison. *)
Definition num_gtb (x y : num) : bool := num_ltb y x.
Definition num_geb (x y : num) : bool := num_leb y x.

(** [math.floor] / [math.ceil]: exact integers. *)
Definition float_floor (f : float) : res Z :=
  match f with
  | S754_nan => Raise ValueError
  | S754_infinity _ => Raise OverflowError
  | S754_zero _ => Ok 0
  | S754_finite s m e =>
      Ok (if 0 <=? e then sgn_mant s m * 2 ^ e else sgn_mant s m / 2 ^ (- e))
  end.
Definition num_floor (x : num) : res Z :=
  match x with NI z => Ok z | NF f => float_floor f end.
Definition num_ceil (x : num) : res Z :=
  match x with
  | NI z => Ok z
  | NF f => match f with
            | S754_finite s m e =>
                Ok (if 0 <=? e then sgn_mant s m * 2 ^ e
                    else - ((- sgn_mant s m) / 2 ^ (- e)))
            | _ => float_floor f
            end
  end.
