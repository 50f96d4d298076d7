(** * Point in polygon *)
From Coq Require Import ZArith List Bool Lia FMapPositive Permutation Reals Lra.
From Coq Require Import Floats.SpecFloat.
From RecordUpdate Require Import RecordSet.
From Flocq Require Import Core.
From Verif Require Import Py Monad Utils Geometry LinearRingM BoundM LocalMinimumM StateM
     PointNodeM RingM HoareP SpecRing LinearRingP RingEdgesP SpecHeap FloatP UlpP RoundP CircleP StatsP.
Import ListNotations RecordSetNotations.
Open Scope Z_scope.

Lemma float_of_Z_cases d : float_of_Z d = Raise OverflowError \/
  exists f, float_of_Z d = Ok f /\ good f /\ val f = rnd (IZR d).
Proof. destruct (float_of_Z_spec d) as [(_ & f & E & G & V & _)|(_ & E)]; [right; eauto|left; exact E]. Qed.
Definition f_one : float := S754_finite false 4503599627370496 (-52).
Definition f_mone : float := S754_finite true 4503599627370496 (-52).
Lemma good_one : good f_one. Proof. split; reflexivity. Qed.
Lemma good_mone : good f_mone. Proof. split; reflexivity. Qed.
Lemma val_one : val f_one = 1%R.
Proof.
  change (F2R (Float radix2 4503599627370496 (-52)) = 1%R). unfold F2R. cbn [Fnum Fexp].
  change 4503599627370496%Z with (radix2 ^ 52)%Z. rewrite IZR_Zpower by lia. rewrite <- bpow_plus. reflexivity.
Qed.
Lemma val_mone : val f_mone = (-1)%R.
Proof.
  change (F2R (Float radix2 (-4503599627370496) (-52)) = (-1)%R). unfold F2R. cbn [Fnum Fexp].
  change (-4503599627370496)%Z with (- (radix2 ^ 52))%Z. rewrite opp_IZR, IZR_Zpower by lia.
  rewrite Ropp_mult_distr_l_reverse, <- bpow_plus. reflexivity.
Qed.
(** an integer is "almost zero" iff it is zero *)
Lemma almost_zero_int d : almost_zero (NI d) = Raise OverflowError \/ almost_zero (NI d) = Ok (d =? 0).
Proof.
  unfold almost_zero, almost_equal. cbn [num_to_float]. destruct (float_of_Z_cases d) as [->|(f & -> & G & V)]; [left; reflexivity|right].
  cbn [rbind]. f_equal. rewrite almost_equal_rank; [|apply good_number; exact G|split; reflexivity].
  change (rank f_zero) with 0.
  assert (G0 : good f_zero) by (split; reflexivity).
  destruct (Z.eqb_spec d 0) as [->|N].
  - rewrite rnd_0 in V.
    assert (rank f <= rank f_zero) by (apply rank_le_val; [assumption..|]; rewrite V; change (val f_zero) with 0%R; lra).
    assert (rank f_zero <= rank f) by (apply rank_le_val; [assumption..|]; rewrite V; change (val f_zero) with 0%R; lra).
    change (rank f_zero) with 0 in *. apply Z.leb_le. lia.
  - apply Z.leb_gt. destruct (Z.lt_total d 0) as [H|[H|H]]; [|contradiction|].
    + assert (H1 : rank f <= rank f_mone).
      { apply rank_le_val; [exact G|apply good_mone|]. rewrite V, val_mone. change (-1)%R with (IZR (-1)). rewrite <- (rnd_IZR_small (-1)) by lia.
        apply rnd_le, IZR_le. lia. }
      assert (rank f_mone < -4) by (vm_compute; reflexivity). lia.
    + assert (H1 : rank f_one <= rank f).
      { apply rank_le_val; [apply good_one|exact G|]. rewrite V, val_one. rewrite <- (rnd_IZR_small 1) by lia.
        apply rnd_le, IZR_le. lia. }
      assert (4 < rank f_one) by (vm_compute; reflexivity). lia.
Qed.
Lemma almost_zero_small d : Z.abs d <= 2 ^ 1023 -> almost_zero (NI d) = Ok (d =? 0).
Proof.
  intros H. destruct (almost_zero_int d) as [E|E]; [|exact E]. exfalso.
  unfold almost_zero, almost_equal in E. cbn [num_to_float] in E. destruct (float_of_Z_ok d H) as (f & Ef & _). rewrite Ef in E. discriminate.
Qed.

Definition at_pt (p : point) : qpoint := QPt (px p) (py p) 1.
Definition right_of (p v : point) : bool := (py v =? py p) && (px p <? px v).
(** one iteration *)
Lemma num_eqb_int a b : num_eqb (NI a) (NI b) = (a =? b).
Proof. unfold num_eqb. cbn. rewrite Z.eqb_compare. destruct (a ?= b); reflexivity. Qed.
Lemma num_ltb_int a b : num_ltb (NI a) (NI b) = (a <? b).
Proof. unfold num_ltb. cbn. unfold Z.ltb. destruct (a ?= b); reflexivity. Qed.
Lemma num_leb_int a b : num_leb (NI a) (NI b) = (a <=? b).
Proof. unfold num_leb. cbn. unfold Z.leb. destruct (a ?= b); reflexivity. Qed.
Lemma pip_cross_int p u v : pip_cross (npoint_of p) u v = Ok (NI (side (at_pt p) u v)).
Proof. unfold pip_cross, npoint_of, side, at_pt. cbn. f_equal. f_equal. ring. Qed.
Definition step_ok (p u v : point) (o : option bool) : Prop :=
  match o with
  | None => on_edge (at_pt p) u v
  | Some b => v <> p /\ (on_edge (at_pt p) u v -> u = p) /\
              (~ on_edge (at_pt p) u v -> b = xorb (Z.odd (crossed (at_pt p) u v)) (xorb (right_of p u) (right_of p v)))
  end.
Definition core_step (A B C F : Z) : option bool :=
  let d := A * F - C * B in
  if (F =? 0) && ((C =? 0) || ((B =? 0) && Bool.eqb (0 <? C) (A <? 0))) then None
  else if negb (Bool.eqb (B <? 0) (F <? 0)) then
    let bc := if d =? 0 then None else Some (Bool.eqb (0 <? d) (B <? F)) in
    if 0 <=? A then if 0 <? C then Some true else bc else if 0 <? C then bc else Some false
  else Some false.
Definition core_on (A B C F : Z) : Prop :=
  A * F - C * B = 0 /\ Z.min A C <= 0 <= Z.max A C /\ Z.min B F <= 0 <= Z.max B F.
Definition core_odd (A B C F : Z) : bool :=
  let d := A * F - C * B in
  (B <=? 0) && (0 <? F) && (0 <? d) || (F <=? 0) && (0 <? B) && (d <? 0).
Lemma core_step_spec A B C F :
  match core_step A B C F with
  | None => core_on A B C F
  | Some b => ~ (C = 0 /\ F = 0) /\ (core_on A B C F -> A = 0 /\ B = 0) /\
      (~ core_on A B C F -> b = xorb (core_odd A B C F) (xorb ((B =? 0) && (0 <? A)) ((F =? 0) && (0 <? C))))
  end.
Proof.
  unfold core_step, core_on, core_odd. cbv zeta.
  destruct (Z.lt_total A 0) as [HA|[HA|HA]]; destruct (Z.lt_total B 0) as [HB|[HB|HB]];
  destruct (Z.lt_total C 0) as [HC|[HC|HC]]; destruct (Z.lt_total F 0) as [HF|[HF|HF]];
  repeat match goal with
    | H : ?v = 0 |- _ => subst v
    | |- context [Z.eqb ?v 0] => is_var v; rewrite (proj2 (Z.eqb_neq v 0)) by lia
    | |- context [Z.ltb ?v 0] => is_var v; first [rewrite (proj2 (Z.ltb_lt v 0)) by lia | rewrite (proj2 (Z.ltb_ge v 0)) by lia]
    | |- context [Z.ltb 0 ?v] => is_var v; first [rewrite (proj2 (Z.ltb_lt 0 v)) by lia | rewrite (proj2 (Z.ltb_ge 0 v)) by lia]
    | |- context [Z.leb ?v 0] => is_var v; first [rewrite (proj2 (Z.leb_le v 0)) by lia | rewrite (proj2 (Z.leb_gt v 0)) by lia]
    | |- context [Z.leb 0 ?v] => is_var v; first [rewrite (proj2 (Z.leb_le 0 v)) by lia | rewrite (proj2 (Z.leb_gt 0 v)) by lia]
    end;
  try (cbn; lia);
  repeat match goal with
    | |- context [Z.eqb ?a ?b] => destruct (Z.eqb_spec a b)
    | |- context [Z.ltb ?a ?b] => destruct (Z.ltb_spec a b)
    end; cbn; try (split; [|split]); try nia.
Qed.
Lemma pip_step_core p u v : let A := px u - px p in let B := py u - py p in let C := px v - px p in let F := py v - py p in
  pip_step (npoint_of p) u v = Raise OverflowError /\ 2 ^ 1023 < Z.abs (side (at_pt p) u v) \/ pip_step (npoint_of p) u v = Ok (core_step A B C F).
Proof.
  intros A B C F.
  assert (D : side (at_pt p) u v = A * F - C * B) by (unfold side, at_pt, A, B, C, F; cbn; ring).
  unfold pip_step. cbv zeta. change (nx (npoint_of p)) with (NI (px p)). change (ny (npoint_of p)) with (NI (py p)).
  unfold num_gtb, num_geb. rewrite !num_eqb_int, !num_ltb_int, !num_leb_int, pip_cross_int. cbn [rbind]. rewrite D.
  assert (BC : (z <- almost_zero (NI (A * F - C * B)) ;; if (z : bool) then Ok None else Ok (Some (Bool.eqb (num_ltb (NI 0) (NI (A * F - C * B))) (py v >? py u))))%res = Raise OverflowError /\ 2 ^ 1023 < Z.abs (A * F - C * B) \/
     (z <- almost_zero (NI (A * F - C * B)) ;; if (z : bool) then Ok None else Ok (Some (Bool.eqb (num_ltb (NI 0) (NI (A * F - C * B))) (py v >? py u))))%res =
       Ok (if A * F - C * B =? 0 then None else Some (Bool.eqb (0 <? A * F - C * B) (B <? F)))).
  { destruct (almost_zero_int (A * F - C * B)) as [E|E]; rewrite E.
    - left. split; [reflexivity|]. apply Z.nle_gt. intros H. rewrite (almost_zero_small _ H) in E. discriminate.
    - right. cbn [rbind]. rewrite num_ltb_int. rewrite Z.gtb_ltb.
    replace (py u <? py v) with (B <? F) by (unfold B, F; destruct (Z.ltb_spec (py u - py p) (py v - py p)), (Z.ltb_spec (py u) (py v)); lia).
    destruct (_ =? 0); reflexivity. }
  set (bc := (z <- almost_zero (NI (A * F - C * B)) ;; _)%res) in *. clearbody bc. clear D.
  replace (py v =? py p) with (F =? 0) by (unfold F; destruct (Z.eqb_spec (py v - py p) 0), (Z.eqb_spec (py v) (py p)); lia).
  replace (px v =? px p) with (C =? 0) by (unfold C; destruct (Z.eqb_spec (px v - px p) 0), (Z.eqb_spec (px v) (px p)); lia).
  replace (py u =? py p) with (B =? 0) by (unfold B; destruct (Z.eqb_spec (py u - py p) 0), (Z.eqb_spec (py u) (py p)); lia).
  replace (px p <? px v) with (0 <? C) by (unfold C; destruct (Z.ltb_spec 0 (px v - px p)), (Z.ltb_spec (px p) (px v)); lia).
  replace (px u <? px p) with (A <? 0) by (unfold A; destruct (Z.ltb_spec (px u - px p) 0), (Z.ltb_spec (px u) (px p)); lia).
  replace (py u <? py p) with (B <? 0) by (unfold B; destruct (Z.ltb_spec (py u - py p) 0), (Z.ltb_spec (py u) (py p)); lia).
  replace (py v <? py p) with (F <? 0) by (unfold F; destruct (Z.ltb_spec (py v - py p) 0), (Z.ltb_spec (py v) (py p)); lia).
  replace (px p <=? px u) with (0 <=? A) by (unfold A; destruct (Z.leb_spec 0 (px u - px p)), (Z.leb_spec (px p) (px u)); lia).
  unfold core_step. cbv zeta.
  destruct ((F =? 0) && _); [right; reflexivity|]. destruct (negb _); [|right; reflexivity].
  destruct (0 <=? A), (0 <? C); auto.
Qed.
Lemma pip_step_spec p u v : pip_step (npoint_of p) u v = Raise OverflowError /\ 2 ^ 1023 < Z.abs (side (at_pt p) u v) \/
  exists o, pip_step (npoint_of p) u v = Ok o /\ step_ok p u v o.
Proof.
  destruct (pip_step_core p u v) as [E|E]; [left; exact E|right]. eexists. split; [exact E|].
  set (A := px u - px p) in *. set (B := py u - py p) in *. set (C := px v - px p) in *. set (F := py v - py p) in *.
  assert (D : side (at_pt p) u v = A * F - C * B) by (unfold side, at_pt, A, B, C, F; cbn; ring).
  assert (OE : on_edge (at_pt p) u v <-> core_on A B C F).
  { unfold on_edge, core_on. rewrite D. unfold at_pt. cbn [qx qy qd]. rewrite !Z.mul_1_r. unfold A, B, C, F. lia. }
  assert (CR : Z.odd (crossed (at_pt p) u v) = core_odd A B C F).
  { unfold crossed, core_odd. cbv zeta. rewrite D. unfold at_pt. cbn [qx qy qd]. rewrite !Z.mul_1_r.
    generalize (A * F - C * B). intros d. unfold A, B, C, F.
    destruct (Z.leb_spec (py u) (py p)), (Z.ltb_spec (py p) (py v)), (Z.leb_spec (py v) (py p)), (Z.ltb_spec (py p) (py u)),
      (Z.leb_spec (py u - py p) 0), (Z.ltb_spec 0 (py v - py p)), (Z.leb_spec (py v - py p) 0), (Z.ltb_spec 0 (py u - py p)); try lia;
    destruct (Z.ltb_spec 0 d), (Z.ltb_spec d 0); try reflexivity; lia. }
  assert (R1 : right_of p u = (B =? 0) && (0 <? A)).
  { unfold right_of, A, B. f_equal; [destruct (Z.eqb_spec (py u) (py p)), (Z.eqb_spec (py u - py p) 0); lia|destruct (Z.ltb_spec (px p) (px u)), (Z.ltb_spec 0 (px u - px p)); lia]. }
  assert (R2 : right_of p v = (F =? 0) && (0 <? C)).
  { unfold right_of, C, F. f_equal; [destruct (Z.eqb_spec (py v) (py p)), (Z.eqb_spec (py v - py p) 0); lia|destruct (Z.ltb_spec (px p) (px v)), (Z.ltb_spec 0 (px v - px p)); lia]. }
  pose proof (core_step_spec A B C F) as S. unfold step_ok. destruct (core_step A B C F) as [b|].
  - destruct S as (S1 & S2 & S3). split; [|split].
    + intros ->. apply S1. unfold C, F. lia.
    + intros H. apply OE, S2 in H. unfold A, B in H. destruct u, p. cbn in *. f_equal; lia.
    + intros H. rewrite CR, R1, R2. apply S3. intros K. apply H, OE, K.
  - apply OE. exact S.
Qed.

(** ** The loop *)
Lemma loopM_S {S X R} fuel (body : X -> M S (X + R)) x s : loopM (Datatypes.S fuel) body x s =
  match body x s with
  | Ok (inl x', s') => loopM fuel body x' s'
  | Ok (inr r, s') => Ok (r, s')
  | Raise e => Raise e
  | NoFuel => NoFuel
  end.
Proof. cbn [loopM]. unfold bind. destruct (body x s) as [[[x'|r] s']|e|]; reflexivity. Qed.
Definition pip_body (pt : npoint) (start : nid) (x : nid * pip_result) : prog (nid * pip_result + pip_result) :=
  let '(op, result) := x in
  bind (node_point op) (fun a => bind (next_of op) (fun nx => bind (node_point nx) (fun b =>
  bind (lift (pip_step pt a b)) (fun r =>
     match r with
     | None => ret (inr ON)
     | Some fl =>
         let result' := if (fl : bool) then pip_flip result else result in
         ret (if Pos.eqb nx start then inr result' else inl (nx, result'))
     end)))).
Definition of_bool (b : bool) : pip_result := if b then INSIDE else OUTSIDE.
Lemma flip_of_bool b (c : bool) : (if c then pip_flip (of_bool b) else of_bool b) = of_bool (xorb b c).
Proof. destruct b, c; reflexivity. Qed.
(** parity over an open chain of points *)
Definition wparity (p : point) (ps : list (point * point)) : bool :=
  fold_right xorb false (map (fun e : point * point => Z.odd (crossed (at_pt p) (fst e) (snd e))) ps).
Lemma wparity_sum p ps : wparity p ps = Z.odd (zsum (map (fun '(a, b) => crossed (at_pt p) a b) ps)).
Proof.
  induction ps as [|(a, b) ps IH]; [reflexivity|]. unfold wparity in *. cbn [map fold_right zsum fst snd]. rewrite IH.
  fold (zsum (map (fun '(a, b) => crossed (at_pt p) a b) ps)). symmetry. apply Z.odd_add.
Qed.
Definition edge_hit (p : point) (ps : list (point * point)) : Prop := exists a b, In (a, b) ps /\ on_edge (at_pt p) a b.
Lemma pip_loop s p start fuel : forall rest c b,
  chained s c (rest ++ [start]) -> ~ In start rest -> (length rest < fuel)%nat ->
  loopM fuel (pip_body (npoint_of p) start) (c, of_bool b) s = Raise OverflowError /\
    (exists u v, In (u, v) (pairs (vertices s (c :: rest ++ [start]))) /\ 2 ^ 1023 < Z.abs (side (at_pt p) u v)) \/
  (exists r, loopM fuel (pip_body (npoint_of p) start) (c, of_bool b) s = Ok (r, s) /\
     let vs := vertices s (c :: rest ++ [start]) in
     (r = ON -> edge_hit p (pairs vs)) /\
     (r <> ON -> npos (node_at s start) <> p /\ (edge_hit p (pairs vs) -> npos (node_at s c) = p)) /\
     (r <> ON -> ~ edge_hit p (pairs vs) ->
       r = of_bool (xorb b (xorb (wparity p (pairs vs)) (xorb (right_of p (npos (node_at s c))) (right_of p (npos (node_at s start)))))))).
Proof.
  induction fuel as [|fuel IH]; intros rest c b H N L; [lia|]. rewrite loopM_S.
  assert (E : forall d, n_next (node_at s c) = Some d -> pip_body (npoint_of p) start (c, of_bool b) s =
    match pip_step (npoint_of p) (npos (node_at s c)) (npos (node_at s d)) with
    | Ok None => Ok (inr ON, s)
    | Ok (Some fl) => Ok (if Pos.eqb d start then inr (of_bool (xorb b fl)) else inl (d, of_bool (xorb b fl)), s)
    | Raise e => Raise e
    | NoFuel => NoFuel
    end).
  { intros d Hd. unfold pip_body. rewrite (bind_run _ _ _ (npos (node_at s c)) s) by reflexivity.
    rewrite (bind_run _ _ _ _ _ (next_of_run _ _ _ Hd)). rewrite (bind_run _ _ _ (npos (node_at s d)) s) by reflexivity.
    unfold bind, lift. destruct (pip_step _ _ _) as [[fl|]|e|]; try reflexivity. rewrite flip_of_bool. reflexivity. }
  assert (HN : exists d rest', rest ++ [start] = d :: rest' /\ linked s c d /\ chained s d rest').
  { destruct (rest ++ [start]) as [|d rest'] eqn:X; [destruct rest; discriminate|]. exists d, rest'. destruct H. auto. }
  destruct HN as (d & rest' & X & (Hd & _) & CH'). rewrite (E d Hd). rewrite X. rewrite !vertices_cons, pairs_cons.
  set (u := npos (node_at s c)) in *. set (v := npos (node_at s d)) in *.
  destruct (pip_step_spec p u v) as [(Es & Big)|(o & Es & SO)]; rewrite Es.
  { left. split; [reflexivity|]. exists u, v. split; [left; reflexivity|exact Big]. }
  destruct o as [fl|]; cbn [step_ok] in SO.
  2:{ right. exists ON. split; [reflexivity|]. cbv zeta. split; [intros _; exists u, v; split; [left; reflexivity|exact SO]|].
      split; intros Hn; congruence. }
  destruct SO as (Vp & On & Par). destruct rest as [|d' rest].
  - (* last edge *)
    injection X as <- <-. rewrite Pos.eqb_refl. right. exists (of_bool (xorb b fl)). split; [reflexivity|]. cbv zeta.
    split; [destruct b, fl; discriminate|]. split.
    + intros _. split; [exact Vp|]. intros (a' & b' & [Q|[]] & K). injection Q as <- <-. apply On. exact K.
    + intros _ Nh. rewrite (Par ltac:(intros K; apply Nh; exists u, v; split; [left; reflexivity|exact K])).
      unfold wparity. cbn. rewrite xorb_false_r. reflexivity.
  - injection X as <- <-. destruct (Pos.eqb_spec d' start) as [->|Nd]; [destruct N; left; reflexivity|].
    destruct (IH rest d' (xorb b fl) CH' ltac:(intros I; apply N; right; exact I) ltac:(cbn in L; lia)) as [(Er & (u' & v' & I' & Big))|(r & Er & R)].
    + left. split; [exact Er|]. exists u', v'. split; [right; exact I'|exact Big].
    + right. exists r. split; [exact Er|]. cbv zeta in R |- *. rewrite vertices_cons in R. fold v in R. destruct R as (R1 & R2 & R3).
      split; [intros K; destruct (R1 K) as (a' & b' & I' & K'); exists a', b'; split; [right; exact I'|exact K']|].
      split.
      * intros K. destruct (R2 K) as (Q1 & Q2). split; [exact Q1|]. intros (a' & b' & [Q|I'] & K').
        { injection Q as <- <-. apply On. exact K'. }
        { exfalso. apply Vp, Q2. exists a', b'. auto. }
      * intros K Nh. rewrite (R3 K ltac:(intros (a' & b' & I' & K'); apply Nh; exists a', b'; split; [right; exact I'|exact K'])).
        rewrite (Par ltac:(intros K'; apply Nh; exists u, v; split; [left; reflexivity|exact K'])).
        rewrite pairs_cons. unfold wparity. cbn [map fold_right fst snd]. f_equal.
        destruct b, (Z.odd (crossed (at_pt p) u v)), (right_of p u), (right_of p v), (fold_right xorb false _), (right_of p (npos (node_at s start))); reflexivity.
Qed.

(** ** Around the ring *)
Theorem pip_circle s a l p fuel : circle s (a :: l) -> (length (a :: l) <= fuel)%nat ->
  let vs := vertices s (a :: l) in
  point_in_polygon fuel (npoint_of p) a s = Raise OverflowError /\
    (exists u v, In (u, v) (cyclic_pairs vs) /\ 2 ^ 1023 < Z.abs (side (at_pt p) u v)) \/
  (exists r, point_in_polygon fuel (npoint_of p) a s = Ok (r, s) /\
    (r = ON <-> exists u v, In (u, v) (cyclic_pairs vs) /\ on_edge (at_pt p) u v) /\
    (r <> ON -> r = if Z.odd (winding_number (at_pt p) vs) then INSIDE else OUTSIDE)).
Proof.
  intros (N & C) L vs. inversion N as [|? ? Na N']. subst.
  assert (V : vertices s (a :: l ++ [a]) = vs ++ [npos (node_at s a)]).
  { unfold vs, vertices. cbn [map]. rewrite map_app. reflexivity. }
  assert (CP : cyclic_pairs vs = pairs (vertices s (a :: l ++ [a]))) by (rewrite V; reflexivity).
  destruct (pip_loop s p a fuel l a false C Na L) as [(E & B)|(r & E & R)].
  - left. split; [exact E|]. rewrite CP. exact B.
  - right. exists r. split; [exact E|]. cbv zeta in R. rewrite <- CP in R. destruct R as (R1 & R2 & R3).
    assert (D : {r = ON} + {r <> ON}) by (destruct r; [left; reflexivity|right; discriminate|right; discriminate]).
    assert (NH : r <> ON -> ~ edge_hit p (cyclic_pairs vs)).
    { intros Hr Hh. destruct (R2 Hr) as (Q1 & Q2). apply Q1, Q2, Hh. }
    split.
    + split; [exact R1|]. intros Hh. destruct D as [D|D]; [exact D|]. destruct (NH D Hh).
    + intros Hr. rewrite (R3 Hr (NH Hr)). rewrite wparity_sum, xorb_nilpotent, xorb_false_r, xorb_false_l. reflexivity.
Qed.
