(** * wagyu/linear_ring.py: [LinearRing.edges] *)
From Coq Require Import ZArith List Bool Lia.
From Verif Require Import Py Monad Utils Geometry.
Import ListNotations.
Open Scope Z_scope.

(** [list[-1]], [del list[-1]] *)
Definition last_opt {A} (l : list A) : option A :=
  match rev l with [] => None | x :: _ => Some x end.

(** The first [while pt1 == pt2] loop (linear_ring.py:40-45): walks
    [reversed_index] downwards with Python's negative-index wrap; IndexError
    means "all points equal" and returns the empty result. [None] = returned. *)
Fixpoint skip_back (fuel : nat) (pts : list point) (pt2 : point) (ri : Z) (pt1 : point)
  : res (option (Z * point)) :=
  match fuel with
  | O => NoFuel
  | S fuel' =>
      if point_eqb pt1 pt2 then
        let ri' := ri - 1 in
        match py_nth pts ri' with
        | Ok p => skip_back fuel' pts pt2 ri' p
        | _ => Ok None
        end
      else Ok (Some (ri, pt1))
  end.

(** Loop state of the main loop (linear_ring.py:50-98). *)
Record lr_state := LR {
  lr_index : Z;            (* index *)
  lr_ri : Z;               (* reversed_index *)
  lr_lri : Z;              (* last_reversed_index *)
  lr_pt1 : point; lr_pt2 : point; lr_pt3 : point;
  lr_front : option point; (* front_pt *)
  lr_back : option point;  (* back_pt *)
  lr_result : list edge
}.

(** linear_ring.py:78-81: [while self[reversed_index] == pt2]; [None] = return *)
Fixpoint skip_back2 (fuel : nat) (pts : list point) (pt2 : point) (index ri : Z)
  : res (option Z) :=
  match fuel with
  | O => NoFuel
  | S fuel' =>
      match py_nth pts ri with
      | Ok p =>
          if point_eqb p pt2 then
            let ri' := ri - 1 in
            if index =? ri' then Ok None
            else skip_back2 fuel' pts pt2 index ri'
          else Ok (Some ri)
      | Raise e => Raise e
      | NoFuel => NoFuel
      end
  end.

(** advancing [index] and choosing the next [pt3] (linear_ring.py:55-61, 93-98);
    [None] = break *)
Definition lr_next_pt3 (pts : list point) (index lri : Z) (front : option point)
           (result : list edge) : res (option point) :=
  if index =? lri then
    match result with
    | [] => Ok None
    | _ => match front with
           | Some f => Ok (Some f)
           | None => Raise AttributeError
           end
    end
  else (p <- py_nth pts index ;; Ok (Some p))%res.

(** One iteration of the main loop.  [inr (result, true)]: [break] (continue with
    the second stage); [inr (result, false)]: [return result]. *)
Definition lr_body (pts : list point) (s : lr_state)
  : res (lr_state + (list edge * bool)) :=
  let 'LR index ri lri pt1 pt2 pt3 front back result := s in
  if point_eqb pt2 pt3 then
    (* linear_ring.py:51-61 *)
    if index =? lri then Ok (inr (result, true))
    else
      let index' := index + 1 in
      match lr_next_pt3 pts index' lri front result with
      | Ok None => Ok (inr (result, true))
      | Ok (Some p) => Ok (inl (LR index' ri lri pt1 pt2 p front back result))
      | Raise e => Raise e
      | NoFuel => NoFuel
      end
  else if points_slopes_equal pt1 pt2 pt3 then
    (* linear_ring.py:63-84 *)
    let pt2' := pt1 in
    let result' := removelast result in
    match last_opt result' with
    | Some be =>
        match back with
        | None => Raise AttributeError
        | Some bp =>
            let pt1' := if (px bp =? px (etop be)) && (py bp =? py (etop be))
                        then ebot be else etop be in
            Ok (inl (LR index ri lri pt1' pt2' pt3 front (Some pt1') result'))
        end
    | None =>
        match skip_back2 (S (2 * length pts)) pts pt2' index ri with
        | Ok None => Ok (inr (result', false))
        | Ok (Some ri') =>
            match py_nth pts ri' with
            | Ok p => Ok (inl (LR index ri' (ri' + 1) p pt2' pt3 front back result'))
            | Raise e => Raise e
            | NoFuel => NoFuel
            end
        | Raise e => Raise e
        | NoFuel => NoFuel
        end
    end
  else
    (* linear_ring.py:86-98 *)
    let front' := match result with [] => Some pt2 | _ => front end in
    match mk_edge pt2 pt3 with
    | Raise e => Raise e
    | NoFuel => NoFuel
    | Ok e =>
        let result' := result ++ [e] in
        if index =? lri then Ok (inr (result', true))
        else
          let index' := index + 1 in
          match lr_next_pt3 pts index' lri front' result' with
          | Ok None => Ok (inr (result', true))
          | Ok (Some p) =>
              Ok (inl (LR index' ri lri pt2 pt3 p front' (Some pt2) result'))
          | Raise x => Raise x
          | NoFuel => NoFuel
          end
    end.

(** assignments [f.bottom = ...] etc. leave the slope untouched *)
Definition set_bot (e : edge) (p : point) : edge := Edge (etop e) p (eslope e).
Definition set_top (e : edge) (p : point) : edge := Edge p (ebot e) (eslope e).

(** One iteration of [while modified] (linear_ring.py:100-137) on a result with
    front [f], middle [mid] and back [b]: [Some] = modified, [None] = not. *)
Definition lr_merge (f : edge) (mid : list edge) (b : edge) : option (list edge) :=
  if edges_slopes_equal f b then
    if point_eqb (ebot f) (etop b) then
      if point_eqb (etop f) (ebot b) then Some mid
      else Some (set_bot f (ebot b) :: mid)
    else if point_eqb (etop f) (ebot b) then Some (set_top f (etop b) :: mid)
    else if point_eqb (etop f) (etop b) && point_eqb (ebot f) (ebot b) then Some mid
    else if point_eqb (etop f) (etop b) then
      if point_between (etop f) (ebot f) (ebot b) then Some (mid ++ [set_top b (ebot f)])
      else Some (set_top f (ebot b) :: mid)
    else if point_eqb (ebot f) (ebot b) then
      if point_between (ebot f) (etop f) (etop b) then Some (mid ++ [set_bot b (etop f)])
      else Some (set_bot f (etop b) :: mid)
    else None
  else None.

Fixpoint lr_simplify (fuel : nat) (result : list edge) : list edge :=
  match fuel with
  | O => result
  | S fuel' =>
      match result with
      | f :: ((_ :: _ :: _) as tl) =>
          match last_opt tl with
          | Some b =>
              match lr_merge f (removelast tl) b with
              | Some r => lr_simplify fuel' r
              | None => result
              end
          | None => result
          end
      | _ => result
      end
  end.

(** [LinearRing.edges] (linear_ring.py:32-137); fuel of the main loop: every
    iteration advances [index], drops an edge or lowers [reversed_index]. *)
Definition lr_fuel (pts : list point) : nat := S (4 * (length pts + 2)).

Definition linear_ring_edges (pts : list point) : res (list edge) :=
  match pts with
  | p0 :: p1 :: _ :: _ =>
      let n := Z.of_nat (length pts) in
      (last <- py_nth pts (n - 1) ;;
       start <- skip_back (S (2 * length pts)) pts p0 (n - 1) last ;;
       match start with
       | None => Ok []
       | Some (ri, pt1) =>
           r <- loopR (lr_fuel pts) (lr_body pts)
                      (LR 1 ri (ri + 1) pt1 p0 p1 None None []) ;;
           let '(result, cont) := r in
           if (cont : bool) then Ok (lr_simplify (length result) result) else Ok result
       end)%res
  | _ => Ok []
  end.
