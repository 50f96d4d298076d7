(** * State + exception monad used for the mutable parts of wagyu. *)
From Coq Require Import ZArith List Bool Lia.
From Verif Require Import Py.
Import ListNotations.

(** A Python statement block: reads/updates the mutable state [S], returns a
    value, raises, or runs out of model fuel. *)
Definition M (S A : Type) : Type := S -> res (A * S).

Definition ret {S A} (a : A) : M S A := fun s => Ok (a, s).
Definition bind {S A B} (m : M S A) (k : A -> M S B) : M S B :=
  fun s => match m s with
           | Ok (a, s') => k a s'
           | Raise e => Raise e
           | NoFuel => NoFuel
           end.
Definition raise {S A} (e : exn) : M S A := fun _ => Raise e.
Definition nofuel {S A} : M S A := fun _ => NoFuel.
Definition lift {S A} (r : res A) : M S A :=
  fun s => match r with
           | Ok a => Ok (a, s)
           | Raise e => Raise e
           | NoFuel => NoFuel
           end.
Definition get {S} : M S S := fun s => Ok (s, s).
Definition gets {S A} (f : S -> A) : M S A := fun s => Ok (f s, s).
Definition modify {S} (f : S -> S) : M S unit := fun s => Ok (tt, f s).

Declare Scope m_scope.
Delimit Scope m_scope with M.
Notation "x <- m ;; k" := (bind m (fun x => k))
  (at level 100, m at next level, right associativity) : m_scope.
Notation "' p <- m ;; k" := (bind m (fun x => let 'p := x in k))
  (at level 100, p pattern, m at next level, right associativity) : m_scope.
Notation "m ;; k" := (bind m (fun _ => k))
  (at level 100, right associativity) : m_scope.

(** [while]: the body either continues with a new loop state ([inl]) or leaves
    the loop with a result ([inr]); [fuel] bounds the number of iterations. *)
Fixpoint loopM {S X R} (fuel : nat) (body : X -> M S (X + R)) (x : X) : M S R :=
  match fuel with
  | O => nofuel
  | Datatypes.S fuel' =>
      bind (body x) (fun r => match r with
                              | inl x' => loopM fuel' body x'
                              | inr v => ret v
                              end)
  end.

(** [while] for pure blocks. *)
Fixpoint loopR {X R} (fuel : nat) (body : X -> res (X + R)) (x : X) : res R :=
  match fuel with
  | O => NoFuel
  | Datatypes.S fuel' =>
      match body x with
      | Ok (inl x') => loopR fuel' body x'
      | Ok (inr v) => Ok v
      | Raise e => Raise e
      | NoFuel => NoFuel
      end
  end.

(** [for x in l: body] without early exit. *)
Fixpoint forM {S A} (l : list A) (body : A -> M S unit) : M S unit :=
  match l with
  | [] => ret tt
  | a :: l' => bind (body a) (fun _ => forM l' body)
  end.

(** [for x in l] with early exit: the body returns [Some r] to leave the loop
    with [r]; [None] at the end is Python's [else] branch. *)
Fixpoint for_breakM {S A R} (l : list A) (body : A -> M S (option R))
  : M S (option R) :=
  match l with
  | [] => ret None
  | a :: l' => bind (body a) (fun r => match r with
                                       | Some v => ret (Some v)
                                       | None => for_breakM l' body
                                       end)
  end.

(** [range(a, b)] as naturals. *)
Definition range (a b : nat) : list nat := seq a (b - a).
