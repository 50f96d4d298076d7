(** * The four examples of /repo/README.md (lines 46-75) run in the model.

    These are sanity checks of the model against the documented outputs of the
    program; they are tests, not proofs of properties. *)
From Coq Require Import ZArith List Bool.
From Verif Require Import Py Geometry LocalMinimumM WagyuM.
Import ListNotations.
Open Scope Z_scope.

Definition lower_triangle : polygon := [[Pt 0 0; Pt 6 0; Pt 3 3; Pt 0 0]].
Definition upper_triangle : polygon := [[Pt 3 1; Pt 6 4; Pt 0 4; Pt 3 1]].

Definition ex_wagyu : res (bool * bool * wagyu) :=
  ('(b1, w1) <- add_polygon (new_wagyu false) lower_triangle SUBJECT ;;
   '(b2, w2) <- add_polygon w1 upper_triangle CLIP ;;
   Ok (b1, b2, w2))%res.

(** the calls of the README, one after the other on the same object *)
Definition readme : res (bool * bool * list multipolygon) :=
  ('(b1, b2, w) <- ex_wagyu ;;
   '(r1, w) <- intersect 100 w EVEN_ODD EVEN_ODD ;;
   '(r2, w) <- unite 100 w EVEN_ODD EVEN_ODD ;;
   '(r3, w) <- symmetric_subtract 100 w EVEN_ODD EVEN_ODD ;;
   '(r4, w) <- subtract 100 w EVEN_ODD EVEN_ODD ;;
   Ok (b1, b2, [r1; r2; r3; r4]))%res.

Example readme_outputs :
  readme =
  Ok (true, true,
      [ [[[Pt 3 1; Pt 4 2; Pt 3 3; Pt 2 2; Pt 3 1]]];
        [[[Pt 6 0; Pt 4 2; Pt 6 4; Pt 0 4; Pt 2 2; Pt 0 0; Pt 6 0]]];
        [[[Pt 4 2; Pt 3 1; Pt 2 2; Pt 0 0; Pt 6 0; Pt 4 2]];
         [[Pt 4 2; Pt 6 4; Pt 0 4; Pt 2 2; Pt 3 3; Pt 4 2]]];
        [[[Pt 6 0; Pt 4 2; Pt 3 1; Pt 2 2; Pt 0 0; Pt 6 0]]] ]).
Proof. vm_compute. reflexivity. Qed.
