(** * Ring statistics on a vertex ring *)
From Coq Require Import ZArith List Bool Lia FMapPositive Permutation Reals Lra.
From Coq Require Import Floats.SpecFloat.
From RecordUpdate Require Import RecordSet.
From Flocq Require Import Core.
From Verif Require Import Py Monad Utils Geometry LinearRingM BoundM LocalMinimumM StateM
     PointNodeM RingM HoareP SweepFrameP CalmP SpecRing LinearRingP RingEdgesP SpecHeap FloatP CircleP HeapOpsP.
Import ListNotations RecordSetNotations.
Open Scope Z_scope.

Definition sstep (acc : Z * nat * box) (pc : point * point) : Z * nat * box :=
  stats_step acc (Node (px (snd pc)) (py (snd pc)) None None None) (Node (px (fst pc)) (py (fst pc)) None None None).
Lemma stats_step_pt acc c p : stats_step acc c p = sstep acc (npos p, npos c).
Proof. reflexivity. Qed.
Definition stats_body (i : nid) (x : nid * (Z * nat * box)) : prog (nid * (Z * nat * box) + Z * nat * box) :=
  let '(cursor, acc) := x in
  bind (nd cursor) (fun c => bind (deref (n_prev c)) (fun pi => bind (nd pi) (fun p =>
    let acc' := stats_step acc c p in
    if opt_is (n_next c) (Some i) then ret (inr acc')
    else bind (deref (n_next c)) (fun nx => ret (inl (nx, acc')))))).
Lemma vertices_cons s a l : vertices s (a :: l) = npos (node_at s a) :: vertices s l. Proof. reflexivity. Qed.
Lemma stats_loop s start fuel : forall rest p c acc,
  linked s p c -> chained s c (rest ++ [start]) -> ~ In start rest -> (length rest < fuel)%nat ->
  loopM fuel (stats_body start) (c, acc) s = Ok (fold_left sstep (pairs (vertices s (p :: c :: rest))) acc, s).
Proof.
  induction fuel as [|fuel IH]; intros rest p c acc (_ & Hp) H N L; [lia|]. cbn [loopM]. unfold bind at 1.
  assert (E : stats_body start (c, acc) s =
    if opt_is (n_next (node_at s c)) (Some start) then Ok (inr (sstep acc (npos (node_at s p), npos (node_at s c))), s)
    else bind (deref (n_next (node_at s c))) (fun nx => ret (inl (nx, sstep acc (npos (node_at s p), npos (node_at s c))))) s).
  { unfold stats_body. rewrite (bind_run _ _ _ _ _ (nd_run s c)). rewrite Hp. cbn [deref]. 
    rewrite (bind_run _ _ _ p s) by reflexivity. rewrite (bind_run _ _ _ _ _ (nd_run s p)). cbv zeta. rewrite stats_step_pt.
    destruct (opt_is _ _); reflexivity. }
  rewrite E. rewrite !vertices_cons, pairs_cons. cbn [fold_left].
  destruct rest as [|d rest]; cbn [app chained] in H.
  - destruct H as ((E2 & _) & _). rewrite E2. cbn [opt_is]. rewrite Pos.eqb_refl. reflexivity.
  - destruct H as ((E2 & E3) & H). rewrite E2. cbn [opt_is]. destruct (Pos.eqb_spec d start) as [->|Nd]; [destruct N; left; reflexivity|].
    unfold bind at 1. cbn [deref ret].
    rewrite (IH rest c d); [reflexivity|split; assumption|exact H|intros I; apply N; right; exact I|cbn in L; lia].
Qed.

(** what the loop accumulates *)
Definition trapezoid (p c : point) : Z := (px p + px c) * (py p - py c).
Lemma sstep_area acc pc : fst (fst (sstep acc pc)) = fst (fst acc) + trapezoid (fst pc) (snd pc).
Proof. destruct acc as ((ar & sz) & [[] []]), pc as ([] & []). unfold sstep, stats_step, trapezoid. cbn. repeat match goal with |- context [if ?b then _ else _] => destruct b end; reflexivity. Qed.
Lemma sstep_size acc pc : snd (fst (sstep acc pc)) = S (snd (fst acc)).
Proof. destruct acc as ((ar & sz) & [[] []]), pc as ([] & []). unfold sstep, stats_step, trapezoid. cbn. repeat match goal with |- context [if ?b then _ else _] => destruct b end; reflexivity. Qed.
Lemma tight_box_step l acc p c : tight_box l (snd acc) -> tight_box (c :: l) (snd (sstep acc (p, c))).
Proof.
  destruct acc as ((ar & sz) & [[x0 y0] [x1 y1]]), p as [xp yp], c as [xc yc]. unfold sstep, stats_step. cbn.
  intros (H & (p1 & I1 & E1) & (p2 & I2 & E2) & (p3 & I3 & E3) & (p4 & I4 & E4)). cbn in *.
  pose proof (H _ I1) as B1. pose proof (H _ I2) as B2. pose proof (H _ I3) as B3. pose proof (H _ I4) as B4.
  destruct (Z.gtb_spec xc x1); [|destruct (Z.ltb_spec xc x0)]; (destruct (Z.gtb_spec yc y1); [|destruct (Z.ltb_spec yc y0)]); cbn;
  (split; [intros p [<-|Hp]; [cbn; lia|specialize (H _ Hp); cbn; lia]|]);
  (split; [(exists (Pt xc yc); split; [left; reflexivity|cbn; lia]) || (exists p1; split; [right; exact I1|cbn; lia])|]);
  (split; [(exists (Pt xc yc); split; [left; reflexivity|cbn; lia]) || (exists p2; split; [right; exact I2|cbn; lia])|]);
  (split; [(exists (Pt xc yc); split; [left; reflexivity|cbn; lia]) || (exists p3; split; [right; exact I3|cbn; lia])|]);
  ((exists (Pt xc yc); split; [left; reflexivity|cbn; lia]) || (exists p4; split; [right; exact I4|cbn; lia])).
Qed.
Lemma stats_fold_area ps : forall acc, fst (fst (fold_left sstep ps acc)) = fst (fst acc) + zsum (map (fun '(p, c) => trapezoid p c) ps).
Proof.
  induction ps as [|[p c] ps IH]; intros acc; cbn [fold_left map zsum fold_right]; [lia|]. rewrite IH, sstep_area. cbn [fst snd].
  unfold zsum. lia.
Qed.
Lemma stats_fold_size ps : forall acc, snd (fst (fold_left sstep ps acc)) = (snd (fst acc) + length ps)%nat.
Proof.
  induction ps as [|pc ps IH]; intros acc; cbn [fold_left length]; [lia|]. rewrite IH, sstep_size. lia.
Qed.
Lemma tight_box_incl l l' b : (forall p, In p l <-> In p l') -> tight_box l b -> tight_box l' b.
Proof.
  intros E (H & (p1 & I1 & E1) & (p2 & I2 & E2) & (p3 & I3 & E3) & (p4 & I4 & E4)).
  split; [intros p Hp; apply H, E, Hp|]. split; [exists p1|split; [exists p2|split; [exists p3|exists p4]]]; (split; [apply E|]; assumption).
Qed.
Lemma stats_fold_box m : forall p acc l, tight_box l (snd acc) ->
  tight_box (l ++ m) (snd (fold_left sstep (pairs (p :: m)) acc)).
Proof.
  induction m as [|c m IH]; intros p acc l T; [rewrite app_nil_r; exact T|]. rewrite pairs_cons. cbn [fold_left].
  specialize (IH c _ _ (tight_box_step l acc p c T)). revert IH. apply tight_box_incl. intros q. rewrite !in_app_iff. cbn [In]. rewrite ?in_app_iff. tauto.
Qed.
Lemma trapezoid_cross l : forall p, zsum (map (fun '(p, c) => trapezoid p c) (pairs (p :: l))) =
  px p * py p - px (List.last l p) * py (List.last l p) - psum cross (p :: l).
Proof.
  induction l as [|c l IH]; intros p; [rewrite psum_one; cbn; lia|]. rewrite pairs_cons, psum_cons. cbn [map zsum fold_right].
  fold (zsum (map (fun '(p, c) => trapezoid p c) (pairs (c :: l)))). rewrite IH.
  rewrite (last_step c l p). unfold trapezoid, cross. lia.
Qed.
Lemma last_map {A B} (f : A -> B) l d : List.last (map f l) (f d) = f (List.last l d).
Proof. induction l as [|x l IH]; [reflexivity|]. destruct l; [reflexivity|]. exact IH. Qed.
Lemma psum_front c q l : psum c (q :: l ++ [q]) = csum c (q :: l). Proof. symmetry. apply csum_cons. Qed.
Lemma trapezoid_area a l : zsum (map (fun '(p, c) => trapezoid p c) (pairs (List.last l a :: a :: l))) = - area2 (a :: l).
Proof.
  rewrite trapezoid_cross. rewrite <- (last_step a l (List.last l a)).
  assert (E : area2 (a :: l) = psum cross (List.last l a :: a :: l)).
  { change (area2 (a :: l)) with (csum cross (a :: l)). destruct l as [|z l _] using rev_ind.
    - cbn [List.last]. rewrite csum_cons. reflexivity.
    - rewrite last_last. change (a :: l ++ [z]) with ((a :: l) ++ [z]). rewrite csum_rot. cbn [app]. rewrite csum_cons. reflexivity. }
  rewrite E. lia.
Qed.

(** [PointNode.stats] on a vertex ring *)
Theorem node_stats_circle s a l fuel : circle s (a :: l) -> (length (a :: l) <= fuel)%nat ->
  exists b, tight_box (vertices s (a :: l)) b /\
    node_stats fuel a s = match int_truediv (- area2 (vertices s (a :: l))) 2 with
                          | Ok f => Ok (Stats f (length (a :: l)) b, s)
                          | Raise e => Raise e
                          | NoFuel => NoFuel
                          end.
Proof.
  intros C L. pose proof C as (N & CH). pose proof (circle_last _ _ _ C) as Lk.
  set (r := fold_left sstep (pairs (vertices s (List.last l a :: a :: l))) (0, O, Box (npos (node_at s a)) (npos (node_at s a)))).
  exists (snd r). split.
  - assert (T : tight_box [npos (node_at s a)] (Box (npos (node_at s a)) (npos (node_at s a)))).
    { split; [intros p [<-|[]]; cbn; lia|]. repeat split; (eexists; split; [left; reflexivity|reflexivity]). }
    pose proof (stats_fold_box (vertices s (a :: l)) (npos (node_at s (List.last l a))) (0, O, Box (npos (node_at s a)) (npos (node_at s a))) _ T) as H.
    revert H. apply tight_box_incl. intros p. cbn. tauto.
  - unfold node_stats. rewrite (bind_run _ _ _ _ _ (nd_run s a)).
    change (loopM fuel _ _) with (loopM fuel (stats_body a) (a, (0, O, Box (npos (node_at s a)) (npos (node_at s a))))).
    rewrite (bind_run _ _ _ _ _ (stats_loop s a fuel l (List.last l a) a _ Lk CH ltac:(inversion N; assumption) L)).
    fold r. destruct r as ((ar & sz) & b) eqn:E.
    assert (Ea : ar = - area2 (vertices s (a :: l))).
    { pose proof (stats_fold_area (pairs (vertices s (List.last l a :: a :: l))) (0, O, Box (npos (node_at s a)) (npos (node_at s a)))) as H.
      fold r in H. rewrite E in H. cbn [fst] in H. rewrite H. unfold vertices. cbn [map].
      rewrite <- (last_map (fun i => npos (node_at s i))). rewrite trapezoid_area. lia. }
    assert (Es : sz = length (a :: l)).
    { pose proof (stats_fold_size (pairs (vertices s (List.last l a :: a :: l))) (0, O, Box (npos (node_at s a)) (npos (node_at s a)))) as H.
      fold r in H. rewrite E in H. cbn [fst snd] in H. rewrite H. clear. unfold vertices. cbn [map].
      generalize (npos (node_at s (List.last l a))), (npos (node_at s a)). clear.
      assert (G : forall (m : list point) q, length (pairs (q :: m)) = length m).
      { induction m as [|x m IH]; intros q; [reflexivity|]. rewrite pairs_cons. cbn [length]. rewrite IH. reflexivity. }
      intros p q. rewrite G. cbn [length]. rewrite map_length. reflexivity. }
    rewrite Ea, Es. unfold bind, lift. destruct (int_truediv _ 2); reflexivity.
Qed.

(** the sign of the computed area is exact *)
Lemma area_sign z f : int_truediv z 2 = Ok f -> area_is_hole f = (z <=? 0).
Proof.
  intros E. destruct (truediv_spec z 2) as [(_ & g & E2 & G & V & _)|(_ & E2)]; [lia| |congruence].
  assert (g = f) by congruence. subst g. unfold area_is_hole.
  rewrite num_leb_spec; [|exact G|split; reflexivity].
  change (numval (NF f)) with (val f). change (numval (NF f_zero)) with 0%R. rewrite V.
  destruct (Z.leb_spec z 0) as [H|H].
  - apply Rle_bool_true. rewrite <- rnd_0. apply rnd_le. apply IZR_le in H. lra.
  - apply Rle_bool_false. apply Rlt_le_trans with (rnd (/ 2)).
    + assert (B : rnd (/ 2) = (/ 2)%R).
      { apply round_generic; [typeclasses eauto|]. change (/ 2)%R with (bpow radix2 (-1)).
        apply generic_format_bpow. vm_compute. discriminate. }
      rewrite B. lra.
    + apply rnd_le. assert (1 <= z) by lia. apply IZR_le in H0. lra.
Qed.
Lemma area_exact z f : int_truediv z 2 = Ok f -> Z.abs z <= 2 ^ 53 -> val f = (IZR z / 2)%R.
Proof.
  intros E H. destruct (truediv_spec z 2) as [(_ & g & E2 & G & V & _)|(_ & E2)]; [lia| |congruence].
  assert (g = f) by congruence. subst g. rewrite V. apply round_generic; [typeclasses eauto|].
  pose proof (rnd_IZR_small z H) as R. apply (generic_format_FLT radix2 (-1074) 53).
  destruct (Z.eq_dec (Z.abs z) (2 ^ 53)) as [E3|N].
  - exists (Float radix2 (Z.sgn z * 2 ^ 52) 0); cbn [Fnum Fexp].
    + unfold F2R. cbn [Fnum Fexp]. change (bpow radix2 0) with 1%R.
      rewrite Rmult_1_r. replace z with (Z.sgn z * 2 ^ 52 * 2) at 1 by lia. rewrite mult_IZR. lra.
    + change (radix_val radix2) with 2. lia.
    + lia.
  - exists (Float radix2 z (-1)); cbn [Fnum Fexp].
    + unfold F2R. cbn [Fnum Fexp]. reflexivity.
    + change (radix_val radix2) with 2. lia.
    + lia.
Qed.
