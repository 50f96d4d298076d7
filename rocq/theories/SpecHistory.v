(** * Histories of calls on a [Wagyu] object *)
From Coq Require Import List Bool.
From Verif Require Import Py Monad Geometry LocalMinimumM StateM SweepM WagyuM.
Import ListNotations.

(** [built rv w rs]: some sequence of completed calls produces [w] from
    [Wagyu(reverse_output=rv)]; [rs] are the rings added since the creation or
    the last [clear], with their kinds. *)
Inductive built (rv : bool) : wagyu -> list (linear_ring * polygon_kind) -> Prop :=
| built_new : built rv (new_wagyu rv) []
| built_ring : forall w rs pts kind b w',
    built rv w rs -> w_add_linear_ring w pts kind = Ok (b, w') -> built rv w' (rs ++ [(pts, kind)])
| built_polygon : forall w rs p kind b w',
    built rv w rs -> add_polygon w p kind = Ok (b, w') -> built rv w' (rs ++ map (fun pts => (pts, kind)) p)
| built_clear : forall w rs, built rv w rs -> built rv (clear w) []
| built_execute : forall w rs fuel op sfk cfk r w',
    built rv w rs -> execute fuel w op sfk cfk = Ok (r, w') -> built rv w' rs.

(** what the caller of [execute] sees: the multipolygon or the exception *)
Definition answer (r : res (multipolygon * wagyu)) : res multipolygon :=
  match r with Ok (m, _) => Ok m | Raise e => Raise e | NoFuel => NoFuel end.
(** a sequence of [add_linear_ring] calls, with what they returned *)
Fixpoint add_all (w : wagyu) (rs : list (linear_ring * polygon_kind)) : res (list bool * wagyu) :=
  match rs with
  | [] => Ok ([], w)
  | (pts, kind) :: rs' =>
      match w_add_linear_ring w pts kind with
      | Ok (b, w1) => match add_all w1 rs' with
                      | Ok (bs, w2) => Ok (b :: bs, w2)
                      | Raise e => Raise e
                      | NoFuel => NoFuel
                      end
      | Raise e => Raise e
      | NoFuel => NoFuel
      end
  end.
