(** * Specification vocabulary: winding numbers and membership

    The active list, left to right, as a list of (polygon kind, winding delta).
    Nothing here refers to how wagyu computes anything. *)
From Coq Require Import ZArith List Bool.
From Verif Require Import Geometry.
Import ListNotations.
Open Scope Z_scope.

(** sum of the deltas of one kind: the winding number of that kind just to the
    right of all the listed bounds *)
Definition winding (k : polygon_kind) (l : list (polygon_kind * Z)) : Z :=
  fold_right (fun b w => (if kind_eqb (fst b) k then snd b else 0) + w) 0 l.
Definition other (k : polygon_kind) : polygon_kind :=
  match k with SUBJECT => CLIP | CLIP => SUBJECT end.
(** the four fill rules *)
Definition inside (f : fill_kind) (w : Z) : bool :=
  match f with
  | EVEN_ODD => Z.odd w
  | NON_ZERO => negb (w =? 0)
  | POSITIVE => 0 <? w
  | NEGATIVE => w <? 0
  end.
(** the four set operations *)
Definition in_result (op : operation_kind) (s c : bool) : bool :=
  match op with
  | INTERSECTION => s && c
  | UNION => s || c
  | DIFFERENCE => s && negb c
  | XOR => xorb s c
  end.
Section Membership.
  Context (op : operation_kind) (sfk cfk : fill_kind).
  (** is the region just to the right of the listed bounds in the result? *)
  Definition member (l : list (polygon_kind * Z)) : bool :=
    in_result op (inside sfk (winding SUBJECT l)) (inside cfk (winding CLIP l)).
  (** does membership change across [b] when [l] is the list to the left of it? *)
  Definition changes (l : list (polygon_kind * Z)) (b : polygon_kind * Z) : bool :=
    xorb (member l) (member (l ++ [b])).

  (** the side of the bound that is farther from winding number zero *)
  Definition farther (left right : Z) : Z :=
    if Z.abs left <? Z.abs right then right else left.
  Definition rule_of (k : polygon_kind) : fill_kind :=
    match k with SUBJECT => sfk | CLIP => cfk end.
  (** the counts a bound has to carry when [l] lies to its left: its own winding
      number (on the farther side), and the winding number of the other kind, or
      their parities under the even-odd rule *)
  Definition counts_right (l : list (polygon_kind * Z)) (b : polygon_kind * Z)
             (wc owc : Z) : Prop :=
    let k := fst b in
    (match rule_of k with
     | EVEN_ODD => wc = 1 \/ wc = -1
     | _ => wc = farther (winding k l) (winding k l + snd b)
     end) /\
    (match rule_of (other k) with
     | EVEN_ODD => owc = winding (other k) l mod 2
     | _ => owc = winding (other k) l
     end).
End Membership.

(** what has to happen to the output chains at a crossing, from the membership
    changes across the first and second bound before and after it *)
Inductive chain_change := BothEnd | BothContinue | FirstToSecond | SecondToFirst | BothStart
                        | Unchanged.
Definition required_change (c1 c2 c1' c2' : bool) : option chain_change :=
  match c1, c2, c1', c2' with
  | true, true, false, false => Some BothEnd
  | true, true, true, true => Some BothContinue
  | true, false, false, true => Some FirstToSecond
  | false, true, true, false => Some SecondToFirst
  | false, false, true, true => Some BothStart
  | false, false, false, false | true, false, true, false | false, true, false, true => Some Unchanged
  | _, _, _, _ => None
  end.
