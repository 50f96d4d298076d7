(** * The chains of the sweep under the output operations *)
From Coq Require Import ZArith List Bool Lia FMapPositive.
From Coq Require Import Floats.SpecFloat.
From RecordUpdate Require Import RecordSet.
From Verif Require Import Py Monad Utils Geometry LinearRingM BoundM LocalMinimumM
     StateM PointNodeM RingM SweepM HoareP SweepFrameP SpecRings CalmP VatP WindingInvP SplitP RingedP NodeFrameP ListP ChainP ChainBoundP.
Import ListNotations RecordSetNotations.
Open Scope Z_scope.
Local Open Scope m_scope.

Definition act (s : st) (i : bid) : Prop := In (Some i) (s_abl s).
Definition bcur (b : bound) (e : edge) : Prop := nth_error (b_edges b) (b_cur b) = Some e.
Lemma cur_run i s e s' : current_edge i s = Ok (e, s') -> bcur (bget (s_bounds s) i) e /\ s' = s.
Proof.
  unfold current_edge. intros E. inv_bind E b t Ea. apply bd_Ok in Ea as (-> & ->). apply lift_Ok in E. destruct E as (E & ->).
  split; [|reflexivity]. unfold cur_edge_of, nth_res in E. unfold bcur. destruct (nth_error _ _); [|discriminate]. congruence.
Qed.
Lemma find_if_firstn {A} (p : A -> bool) : forall l x, In x (firstn (find_if p l) l) -> p x = false.
Proof.
  induction l as [|a l IH]; intros x; [intros []|]. cbn [find_if]. destruct (p a) eqn:E; [intros []|]. cbn [firstn]. intros [<-|I]; [exact E|]. apply IH, I.
Qed.

(** only bound [i] changed, to [b] *)
Definition onlyb (i : bid) (b : bound) (s s' : st) : Prop :=
  s_abl s' = s_abl s /\ s_hp s' = s_hp s /\ forall j, bget (s_bounds s') j = if Pos.eqb i j then b else bget (s_bounds s) j.
Lemma onlyb_self i b s s' : onlyb i b s s' -> bget (s_bounds s') i = b.
Proof. intros (_ & _ & H). rewrite H, Pos.eqb_refl. reflexivity. Qed.
Lemma onlyb_other i b s s' j : onlyb i b s s' -> j <> i -> bget (s_bounds s') j = bget (s_bounds s) j.
Proof. intros (_ & _ & H) N. rewrite H. rewrite (proj2 (Pos.eqb_neq i j)) by congruence. reflexivity. Qed.
Lemma onlyb_trans i b b' s s1 s2 : onlyb i b s s1 -> onlyb i b' s1 s2 -> onlyb i b' s s2.
Proof.
  intros (A & H & B) (A' & H' & B'). split; [congruence|]. split; [congruence|]. intros j. rewrite B'. destruct (Pos.eqb i j) eqn:E; [reflexivity|]. rewrite B, E. reflexivity.
Qed.
Lemma onlyb_refl i s : onlyb i (bget (s_bounds s) i) s s.
Proof. split; [reflexivity|]. split; [reflexivity|]. intros j. destruct (Pos.eqb_spec i j) as [<-|_]; reflexivity. Qed.
Lemma onlyb_act i b s s' j : onlyb i b s s' -> act s' j <-> act s j.
Proof. intros (A & _). unfold act. rewrite A. tauto. Qed.
Lemma ss_onlyb s s' i : same_sweep s s' -> onlyb i (bget (s_bounds s) i) s s'.
Proof. intros (A & B & _ & C & _). split; [exact B|]. split; [exact C|]. intros j. rewrite A. destruct (Pos.eqb_spec i j) as [<-|_]; reflexivity. Qed.
Lemma upd_onlyb i f s u s' : upd_bound i f s = Ok (u, s') -> onlyb i (f (bget (s_bounds s) i)) s s' /\ same_ringed s s'.
Proof. intros E. apply upd_bound_Ok in E. subst s'. split; [|repeat split]. split; [reflexivity|]. split; [reflexivity|]. intros j. cbn. apply bget_hset. Qed.

Section Ops.
Context (NB : bound -> point -> Prop) (D : point -> point -> Prop) (Ed : edge -> Prop) (ent : bid -> Prop).
Hypothesis NBq : forall b b' p, b_edges b' = b_edges b -> b_cur b' = b_cur b -> NB b p -> NB b' p.
Hypothesis ND : forall b p q, NB b p -> NB b q -> D p q.
Hypothesis Dsym : forall p q, D p q -> D q p.
(** hot pixels within the range of the edge are near it *)
Hypothesis NBhot : forall b e h mn mx, bcur b e -> Ed e -> get_min_x e (py h) = Ok mn -> get_max_x e (py h) = Ok mx -> mn <= px h <= mx -> NB b h.

Definition known (s : st) : Prop := forall i e, In e (b_edges (bget (s_bounds s) i)) -> act s i -> Ed e.
Definition cx (X : bid -> Prop) (s : st) : Prop :=
  known s /\ exists P, chains P s /\ ends NB D ent (act s) X P (bget (s_bounds s)).
Lemma cur_known s i e : known s -> act s i -> bcur (bget (s_bounds s) i) e -> Ed e.
Proof. intros K A H. apply nth_error_In in H. eapply K; eassumption. Qed.
Lemma cx_weak (X Y : bid -> Prop) s : (forall j, act s j -> ~ Y j -> ~ X j) -> cx X s -> cx Y s.
Proof. intros H (K & P & C & E). split; [exact K|]. exists P. split; [exact C|]. exact (ends_weak NB D _ _ _ _ _ _ H E). Qed.
Lemma ends_sweep X P s s' : s_bounds s' = s_bounds s -> s_abl s' = s_abl s ->
  ends NB D ent (act s) X P (bget (s_bounds s)) -> ends NB D ent (act s') X P (bget (s_bounds s')).
Proof. unfold act. intros -> ->. auto. Qed.
Lemma known_sweep s s' : s_bounds s' = s_bounds s -> s_abl s' = s_abl s -> known s -> known s'.
Proof. unfold known, act. intros -> ->. auto. Qed.

(** ** Adding points *)
Lemma put_cx (X Y : bid -> Prop) i p s u s' : cx X s -> act s i -> NB (bget (s_bounds s) i) p ->
  (forall j, act s j -> j <> i -> ~ Y j -> ~ X j) -> (~ Y i -> b_last (bget (s_bounds s) i) = p) ->
  put_point i p s = Ok (u, s') -> cx Y s' /\ same_sweep s s'.
Proof.
  intros (K & P & C & En) A N HY HL E. destruct (put_point_chains P i p s u s' C E) as (r & Hr & _ & C' & SS).
  split; [|exact SS]. destruct SS as (S1 & S2 & _). split; [eapply known_sweep; eassumption|].
  eexists. split; [exact C'|]. apply (ends_sweep Y _ s s' S1 S2). eapply (ends_put NB D ND Dsym); eassumption.
Qed.
Definition plus (X : bid -> Prop) (i : bid) (j : bid) : Prop := j = i \/ X j.
Lemma walk_cx (X : bid -> Prop) i ex ae sk sp : forall l s u s', X i -> cx X s -> act s i ->
  (forall h, In h l -> sk (px h) = false -> sp (px h) = false -> NB (bget (s_bounds s) i) h) ->
  hot_pixel_walk i ex ae sk sp l s = Ok (u, s') -> cx X s' /\ same_sweep s s'.
Proof.
  induction l as [|h l IH]; intros s u s' Xi C A N E; cbn [hot_pixel_walk] in E.
  - apply ret_Ok in E as (_ & ->). split; [exact C|apply R_refl].
  - destruct (sk (px h)) eqn:E1; [eapply IH; eauto; intros; apply N; auto; right; assumption|].
    destruct (sp (px h)) eqn:E2; [apply ret_Ok in E as (_ & ->); split; [exact C|apply R_refl]|].
    destruct (negb ae && (px h =? ex)); [eapply IH; eauto; intros; apply N; auto; right; assumption|].
    inv_bind E v t Ea. destruct (put_cx X X i h s v t C A) as (C1 & SS); auto.
    { apply N; auto. left. reflexivity. }
    { intros; contradiction. }
    pose proof SS as (S1 & S2 & _). destruct (IH t u s' Xi C1) as (C2 & SS'); auto.
    + unfold act in *. rewrite S2. exact A.
    + intros q Hq. rewrite S1. apply N. right. exact Hq.
    + split; [exact C2|]. eapply R_trans; eassumption.
Qed.
Lemma set_cx (X : bid -> Prop) dir y a b i g ae s u s' : X i -> cx X s -> act s i -> (forall h, In h g -> py h = y) ->
  (if (dir : bool) then hot_pixel_set_right_to_left y a b i g ae else hot_pixel_set_left_to_right y a b i g ae) s = Ok (u, s') ->
  cx X s' /\ same_sweep s s'.
Proof.
  intros Xi C A G E. destruct dir.
  - unfold hot_pixel_set_right_to_left in E. inv_bind E e t Ea. apply cur_run in Ea as (Hc & ->).
    inv_bind E mn t Ea. apply lift_Ok in Ea as (Hmn & ->). inv_bind E mx t Ea. apply lift_Ok in Ea as (Hmx & ->). cbv zeta in E.
    eapply walk_cx; [exact Xi|exact C|exact A| |exact E]. intros h Ih H1 H2. apply in_rev in Ih. rewrite <- (G h Ih) in Hmn, Hmx.
    cbv beta in H1, H2. rewrite Z.gtb_ltb in H1. apply Z.ltb_ge in H1, H2.
    eapply NBhot; [exact Hc|eapply cur_known; [apply C|exact A|exact Hc]|exact Hmn|exact Hmx|lia].
  - unfold hot_pixel_set_left_to_right in E. inv_bind E e t Ea. apply cur_run in Ea as (Hc & ->).
    inv_bind E mn t Ea. apply lift_Ok in Ea as (Hmn & ->). inv_bind E mx t Ea. apply lift_Ok in Ea as (Hmx & ->). cbv zeta in E.
    eapply walk_cx; [exact Xi|exact C|exact A| |exact E]. intros h Ih H1 H2. rewrite <- (G h Ih) in Hmn, Hmx.
    cbv beta in H1, H2. rewrite Z.gtb_ltb in H2. apply Z.ltb_ge in H1, H2.
    eapply NBhot; [exact Hc|eapply cur_known; [apply C|exact A|exact Hc]|exact Hmn|exact Hmx|lia].
Qed.
Lemma cx_upd (X : bid -> Prop) i b s s' : onlyb i b s s' -> same_ringed s s' -> cx X s ->
  b_edges b = b_edges (bget (s_bounds s) i) -> sameb (bget (s_bounds s) i) b ->
  (~ X i -> b_last b = b_last (bget (s_bounds s) i)) ->
  (forall p, act s i -> b_ring b <> None -> (~ X i -> p = b_last b) -> NB (bget (s_bounds s) i) p -> NB b p) -> cx X s'.
Proof.
  intros O SR (K & P & C & En) Ee Sb L N. split.
  - intros j e I A. apply (onlyb_act _ _ _ _ _ O) in A. destruct (Pos.eq_dec j i) as [->|Nj].
    + rewrite (onlyb_self _ _ _ _ O), Ee in I. eapply K; eassumption.
    + rewrite (onlyb_other _ _ _ _ _ O Nj) in I. eapply K; eassumption.
  - exists P. split; [exact (chains_same P s s' SR C)|].
    assert (En' : ends NB D ent (act s) X P (bget (s_bounds s'))).
    { apply (ends_same NB D ent (act s) X P (bget (s_bounds s))); [| | |exact En].
      - intros j. destruct (Pos.eq_dec j i) as [->|Nj]; [rewrite (onlyb_self _ _ _ _ O); exact Sb|rewrite (onlyb_other _ _ _ _ _ O Nj); split; reflexivity].
      - intros j r Aj Rj. destruct (Pos.eq_dec j i) as [->|Nj]; [rewrite (onlyb_self _ _ _ _ O)|rewrite (onlyb_other _ _ _ _ _ O Nj); auto].
        apply N; [exact Aj|destruct Sb as (-> & _); congruence|]. intros Nx. rewrite (L Nx). apply (en_last _ _ _ _ _ _ _ En i r Aj Nx Rj).
      - intros j r Aj Xj Rj. destruct (Pos.eq_dec j i) as [->|Nj]; [rewrite (onlyb_self _ _ _ _ O); auto|rewrite (onlyb_other _ _ _ _ _ O Nj); reflexivity]. }
    destruct O as (A & _). unfold act in *. rewrite A. exact En'.
Qed.
Lemma set_last_eta b p : point_eqb p (b_last b) = true -> b <| b_last := p |> = b.
Proof. intros E. apply MiscP.point_eqb_eq in E. subst p. destruct b. reflexivity. Qed.
Lemma insert_cx (X : bid -> Prop) i p e s u s' : cx X s -> act s i -> insert_hot_pixels_in_path i p e s = Ok (u, s') ->
  cx (plus X i) s' /\ onlyb i ((bget (s_bounds s) i) <| b_last := p |>) s s'.
Proof.
  intros C A E. unfold insert_hot_pixels_in_path in E. inv_bind E b t Ea. apply bd_Ok in Ea as (-> & ->).
  assert (C0 : cx (plus X i) s) by (eapply cx_weak; [|exact C]; unfold plus; intros; tauto).
  destruct (point_eqb p _) eqn:Ep.
  { apply ret_Ok in E as (_ & ->). split; [exact C0|]. rewrite (set_last_eta _ _ Ep). apply onlyb_refl. }
  cbv zeta in E. inv_bind E sx t Ea. injection Ea as <- <-. inv_bind E k0 t Ea. apply lift_Ok in Ea as (_ & ->).
  inv_bind E v t Ea.
  assert (L : cx (plus X i) t /\ same_sweep s t).
  { match type of Ea with loopM ?f ?b ?x s = _ => pose proof (tri_loop f b (fun _ t => cx (plus X i) t /\ same_sweep s t) (fun _ t => cx (plus X i) t /\ same_sweep s t) x) as T end.
    cbv beta in T. eapply T; [|split; [exact C0|apply R_refl]|exact Ea]. clear T Ea t v E. intros k t r t' (C1 & SS) E.
    destruct (nth_error (s_hp s) k) as [h|]; [|apply ret_Ok in E as (-> & ->); auto]. cbv zeta in E.
    destruct (py h >? _); [apply ret_Ok in E as (-> & ->); auto|]. destruct (py h <? _); [apply ret_Ok in E as (-> & ->); auto|].
    inv_bind E w t1 Eb. apply ret_Ok in E as (-> & ->). eapply set_cx in Eb; [| |exact C1| |].
    - destruct Eb as (C2 & SS'). split; [exact C2|]. eapply R_trans; eassumption.
    - left. reflexivity.
    - destruct SS as (_ & S2 & _). unfold act in *. rewrite S2. exact A.
    - intros q Hq. unfold group_end in Hq. rewrite Nat.add_comm, Nat.add_sub in Hq. apply find_if_firstn in Hq. apply negb_false_iff in Hq. apply Z.eqb_eq, Hq. }
  destruct L as (C1 & SS). destruct (upd_onlyb _ _ _ _ _ E) as (O & SR).
  assert (Bt : bget (s_bounds t) i = bget (s_bounds s) i) by (destruct SS as (-> & _); reflexivity). rewrite Bt in O.
  split; [|eapply onlyb_trans; [apply (ss_onlyb _ _ i SS)|exact O]].
  eapply (cx_upd _ i _ t s' O SR C1); rewrite Bt.
  - reflexivity.
  - split; reflexivity.
  - intros H. destruct H. left. reflexivity.
  - intros q _ _ _. apply NBq; reflexivity.
Qed.
Lemma add_ring_cy (X Y : bid -> Prop) i p s u s' : cx X s -> act s i -> NB (bget (s_bounds s) i) p -> (forall j, act s j -> j <> i -> ~ Y j -> ~ X j) ->
  add_point_to_ring i p s = Ok (u, s') ->
  cx Y s' /\ onlyb i ((bget (s_bounds s) i) <| b_last := p |>) s s'.
Proof.
  intros C A N HY E. unfold add_point_to_ring in E. inv_bind E b t Ea. apply bd_Ok in Ea as (-> & ->). destruct (is_none _); [discriminate|].
  inv_bind E v t Ea. destruct (insert_cx X i p false s v t C A Ea) as (C1 & O).
  destruct (put_cx (plus X i) Y i p t u s' C1) as (C2 & SS).
  - apply (onlyb_act _ _ _ _ _ O). exact A.
  - rewrite (onlyb_self _ _ _ _ O). eapply NBq; [| |exact N]; reflexivity.
  - unfold plus. intros j Aj Nj Yj [H|H]; [contradiction|]. apply (onlyb_act _ _ _ _ _ O) in Aj. exact (HY j Aj Nj Yj H).
  - intros _. rewrite (onlyb_self _ _ _ _ O). reflexivity.
  - exact E.
  - split; [exact C2|]. eapply onlyb_trans; [exact O|]. pose proof (ss_onlyb _ _ i SS) as O2. rewrite (onlyb_self _ _ _ _ O) in O2. exact O2.
Qed.
Lemma add_ring_cx (X : bid -> Prop) i p s u s' : cx X s -> act s i -> NB (bget (s_bounds s) i) p -> add_point_to_ring i p s = Ok (u, s') ->
  cx X s' /\ onlyb i ((bget (s_bounds s) i) <| b_last := p |>) s s'.
Proof. intros C A N E. eapply add_ring_cy; eauto. Qed.
Lemma add_point_cx (X : bid -> Prop) i p s u s' : cx X s -> act s i -> NB (bget (s_bounds s) i) p -> b_ring (bget (s_bounds s) i) <> None ->
  add_point i p s = Ok (u, s') -> cx X s' /\ onlyb i ((bget (s_bounds s) i) <| b_last := p |>) s s'.
Proof.
  intros C A N R E. unfold add_point in E. inv_bind E b t Ea. apply bd_Ok in Ea as (-> & ->).
  destruct (b_ring (bget (s_bounds s) i)) eqn:Er; [|congruence]. cbn in E. eapply add_ring_cx; eassumption.
Qed.

(** ** Local minima *)
Lemma known_same s s' : s_abl s' = s_abl s -> (forall i, b_edges (bget (s_bounds s') i) = b_edges (bget (s_bounds s) i)) -> known s -> known s'.
Proof. unfold known, act. intros -> H K i e. rewrite H. apply K. Qed.
Lemma bind_ok {A B} (m : prog A) (k : A -> prog B) s b s' : bind m k s = Ok (b, s') -> exists a t, m s = Ok (a, t) /\ k a t = Ok (b, s').
Proof. unfold bind. destruct (m s) as [[a t]| |]; try discriminate. eauto. Qed.
Lemma add_point_first i p s : b_ring (bget (s_bounds s) i) = None -> add_point i p s = add_first_point i p s.
Proof. intros H. unfold add_point, bind, bd, gets. rewrite H. reflexivity. Qed.
(** the part of [add_local_minimum_point] after the decision *)
Definition start_ring (p : point) (i j : bid) : prog unit :=
  (add_point i p ;;
   upd_bound j (fun b => b <| b_last := p |>) ;;
   bi <- bd i ;;
   upd_bound j (fun b => b <| b_ring := b_ring bi |>) ;;
   upd_bound i (fun b => b <| b_side := LEFT |>) ;;
   upd_bound j (fun b => b <| b_side := RIGHT |>)).
Definition start_ring' (p : point) (i j : bid) : prog unit :=
  (add_point i p ;;
   upd_bound j (fun b => b <| b_last := p |>) ;;
   bi <- bd i ;;
   upd_bound j (fun b => b <| b_ring := b_ring bi |>) ;;
   upd_bound j (fun b => b <| b_side := RIGHT |>) ;;
   upd_bound i (fun b => b <| b_side := LEFT |>)).
Definition onlyb2 (i j : bid) (s s' : st) : Prop :=
  s_abl s' = s_abl s /\ s_hp s' = s_hp s /\ (forall k, k <> i -> k <> j -> bget (s_bounds s') k = bget (s_bounds s) k) /\
  (forall k, b_edges (bget (s_bounds s') k) = b_edges (bget (s_bounds s) k) /\ b_cur (bget (s_bounds s') k) = b_cur (bget (s_bounds s) k)).
Lemma start_ring_cx (X : bid -> Prop) f p i j s u s' : cx X s -> act s i -> act s j -> i <> j ->
  NB (bget (s_bounds s) i) p -> NB (bget (s_bounds s) j) p -> b_ring (bget (s_bounds s) i) = None -> b_ring (bget (s_bounds s) j) = None ->
  (if (f : bool) then start_ring p i j else start_ring' p i j) s = Ok (u, s') -> cx X s' /\ onlyb2 i j s s'.
Proof.
  intros (K & P & C & En) Ai Aj Nij Ni Nj Ri Rj E.
  set (r := s_rnext s).
  assert (S : exists s1, chains (pupd P r [p]) s1 /\ s_abl s1 = s_abl s /\ s_hp s1 = s_hp s /\
    (forall k, bget (s_bounds s1) k = if Pos.eqb i k then (bget (s_bounds s) i) <| b_ring := Some r |> <| b_last := p |> else bget (s_bounds s) k) /\
    exists v, bind (upd_bound j (fun b => b <| b_last := p |>)) (fun _ => bind (bd i) (fun bi =>
      bind (upd_bound j (fun b => b <| b_ring := b_ring bi |>)) (fun _ =>
      if f then bind (upd_bound i (fun b => b <| b_side := LEFT |>)) (fun _ => upd_bound j (fun b => b <| b_side := RIGHT |>))
      else bind (upd_bound j (fun b => b <| b_side := RIGHT |>)) (fun _ => upd_bound i (fun b => b <| b_side := LEFT |>))))) s1 = Ok (v, s')).
  { assert (F : exists v t, add_point i p s = Ok (v, t) /\ bind (upd_bound j (fun b => b <| b_last := p |>)) (fun _ => bind (bd i) (fun bi =>
      bind (upd_bound j (fun b => b <| b_ring := b_ring bi |>)) (fun _ =>
      if f then bind (upd_bound i (fun b => b <| b_side := LEFT |>)) (fun _ => upd_bound j (fun b => b <| b_side := RIGHT |>))
      else bind (upd_bound j (fun b => b <| b_side := RIGHT |>)) (fun _ => upd_bound i (fun b => b <| b_side := LEFT |>))))) t = Ok (u, s')).
    { destruct f; [unfold start_ring in E|unfold start_ring' in E]; exact (bind_ok _ _ _ _ _ E). }
    clear E. destruct F as (v & t & Ea & E). rewrite (add_point_first i p s Ri) in Ea.
    destruct (add_first_chains P i p s v t C Ea) as (C1 & A1 & H1 & _ & B1).
    exists t. split; [exact C1|]. split; [exact A1|]. split; [exact H1|]. split; [exact B1|]. exists u. exact E. }
  destruct S as (s1 & C1 & A1 & H1 & B1 & v & E1). clear E.
  assert (Bj : bget (s_bounds s1) j = bget (s_bounds s) j) by (rewrite B1; rewrite (proj2 (Pos.eqb_neq i j)) by exact Nij; reflexivity).
  assert (Bi : bget (s_bounds s1) i = (bget (s_bounds s) i) <| b_ring := Some r |> <| b_last := p |>) by (rewrite B1, Pos.eqb_refl; reflexivity).
  assert (Nji : Pos.eqb j i = false) by (apply Pos.eqb_neq; congruence). assert (Nij' : Pos.eqb i j = false) by (apply Pos.eqb_neq; congruence).
  assert (F : same_ringed s1 s' /\ s_abl s' = s_abl s1 /\ s_hp s' = s_hp s1 /\
    forall k, bget (s_bounds s') k = if Pos.eqb i k then (bget (s_bounds s) i) <| b_ring := Some r |> <| b_last := p |> <| b_side := LEFT |>
      else if Pos.eqb j k then (bget (s_bounds s) j) <| b_last := p |> <| b_ring := Some r |> <| b_side := RIGHT |> else bget (s_bounds s) k).
  { destruct f; injection E1 as _ <-; (split; [repeat split|]; split; [reflexivity|]; split; [reflexivity|]); intros k; cbn [s_bounds set];
      cbn; rewrite !bget_hset, ?Pos.eqb_refl, ?Nji, ?Nij', ?Bi, ?Bj, ?B1;
      (destruct (Pos.eqb_spec i k) as [<-|Ki]; [rewrite ?Nji; reflexivity|destruct (Pos.eqb_spec j k) as [<-|Kj]; reflexivity]). }
  destruct F as (SR & A2 & H2 & B2). clear E1 v.
  assert (Bo : forall k, k <> i -> k <> j -> bget (s_bounds s') k = bget (s_bounds s) k).
  { intros k K1 K2. rewrite B2. rewrite (proj2 (Pos.eqb_neq i k)), (proj2 (Pos.eqb_neq j k)) by congruence. reflexivity. }
  assert (Q : forall k, b_edges (bget (s_bounds s') k) = b_edges (bget (s_bounds s) k) /\ b_cur (bget (s_bounds s') k) = b_cur (bget (s_bounds s) k)).
  { intros k. rewrite B2. destruct (Pos.eqb_spec i k) as [<-|_]; [split; reflexivity|]. destruct (Pos.eqb_spec j k) as [<-|_]; split; reflexivity. }
  assert (Bi' : bget (s_bounds s') i = (bget (s_bounds s) i) <| b_ring := Some r |> <| b_last := p |> <| b_side := LEFT |>) by (rewrite B2, Pos.eqb_refl; reflexivity).
  assert (Bj' : bget (s_bounds s') j = (bget (s_bounds s) j) <| b_last := p |> <| b_ring := Some r |> <| b_side := RIGHT |>) by (rewrite B2, Nij', Pos.eqb_refl; reflexivity).
  split.
  - split; [apply (known_same s); [congruence|intros k; apply Q|exact K]|].
    exists (pupd P r [p]). split; [exact (chains_same _ s1 s' SR C1)|].
    assert (Z : ends NB D ent (act s) X (pupd P r [p]) (bget (s_bounds s'))).
    { eapply (ends_minimum NB D ent (act s) X P (bget (s_bounds s)) (bget (s_bounds s')) i j r p En); auto.
      - exact (proj1 (chains_fresh P s C)).
      - eapply NBq; [apply Q|apply Q|exact Ni].
      - eapply NBq; [apply Q|apply Q|exact Nj].
      - rewrite Bi'. reflexivity.
      - rewrite Bi'. reflexivity.
      - rewrite Bi'. reflexivity.
      - rewrite Bj'. reflexivity.
      - rewrite Bj'. reflexivity.
      - rewrite Bj'. reflexivity. }
    assert (A3 : s_abl s' = s_abl s) by congruence. unfold act in *. rewrite A3. exact Z.
  - split; [congruence|]. split; [congruence|]. split; [exact Bo|exact Q].
Qed.
Lemma onlyb2_sym i j s s' : onlyb2 i j s s' -> onlyb2 j i s s'.
Proof. intros (A & B & C & H). split; [exact A|]. split; [exact B|]. split; [auto|exact H]. Qed.
Lemma add_lmin_cx (X : bid -> Prop) p i j s u s' : cx X s -> act s i -> act s j -> i <> j ->
  NB (bget (s_bounds s) i) p -> NB (bget (s_bounds s) j) p -> b_ring (bget (s_bounds s) i) = None -> b_ring (bget (s_bounds s) j) = None ->
  add_local_minimum_point p i j s = Ok (u, s') -> cx X s' /\ onlyb2 i j s s'.
Proof.
  intros C Ai Aj Nij Ni Nj Ri Rj E. unfold add_local_minimum_point in E. inv_bind E ej t Ea. apply cur_run in Ea as (_ & ->).
  inv_bind E f t Ea.
  assert (t = s).
  { destruct (is_horizontal ej); [apply ret_Ok in Ea as (_ & ->); reflexivity|]. inv_bind Ea ei t1 Eb. apply cur_run in Eb as (_ & ->). apply ret_Ok in Ea as (_ & ->). reflexivity. }
  subst t. clear Ea. destruct f.
  - exact (start_ring_cx X true p i j s u s' C Ai Aj Nij Ni Nj Ri Rj E).
  - assert (Z : cx X s' /\ onlyb2 j i s s') by exact (start_ring_cx X false p j i s u s' C Aj Ai (not_eq_sym Nij) Nj Ni Rj Ri E). destruct Z. split; [assumption|apply onlyb2_sym; assumption].
Qed.

(** ** Local maxima *)
Definition onlyr (s s' : st) : Prop := s_abl s' = s_abl s /\ s_hp s' = s_hp s /\
  (forall k, b_edges (bget (s_bounds s') k) = b_edges (bget (s_bounds s) k) /\ b_cur (bget (s_bounds s') k) = b_cur (bget (s_bounds s) k)) /\
  (forall k, ~ act s k -> bget (s_bounds s') k = bget (s_bounds s) k).
Lemma cx_same (X : bid -> Prop) s s' : same_ringed s s' -> same_sweep s s' -> cx X s -> cx X s'.
Proof.
  intros SR (S1 & S2 & _) (K & P & C & En). split; [eapply known_sweep; eassumption|]. exists P. split; [exact (chains_same P s s' SR C)|].
  apply (ends_sweep X P s s' S1 S2 En).
Qed.
Lemma append_rest_cx (X Y : bid -> Prop) fuel k r kb rb s u s' : cx X s -> act s kb -> act s rb -> kb <> rb -> k <> r ->
  b_ring (bget (s_bounds s) kb) = Some k -> b_ring (bget (s_bounds s) rb) = Some r ->
  (exists b p, NB b p /\ (~ X kb -> b_last (bget (s_bounds s) kb) = p) /\ (X kb -> b = bget (s_bounds s) kb) /\
               (~ X rb -> b_last (bget (s_bounds s) rb) = p) /\ (X rb -> b = bget (s_bounds s) rb)) ->
  (forall j, act s j -> j <> kb -> j <> rb -> ~ Y j -> ~ X j) -> (X kb \/ ~ X kb) -> (X rb \/ ~ X rb) ->
  append_rest fuel k r kb rb s = Ok (u, s') -> cx Y s' /\ onlyr s s'.
Proof.
  intros (K & P & C & En) Ak Ar Nb Nkr Rk Rr (b & p & Np & Lk & Bk & Lr & Br) HY Dk Dr E.
  destruct (append_rest_chains fuel P k r kb rb s u s' C Nkr Nb E) as (t & Ht & _ & _ & C' & A' & H' & B').
  assert (Dd : D (tip (b_side (bget (s_bounds s) kb)) (P k) p0) (tip (b_side (bget (s_bounds s) rb)) (P r) p0)).
  { destruct (en_tip _ _ _ _ _ _ _ En kb k Ak Rk) as (_ & T1). destruct (en_tip _ _ _ _ _ _ _ En rb r Ar Rr) as (_ & T2).
    destruct Dk as [Dk|Dk], Dr as [Dr|Dr].
    - rewrite <- (Bk Dk) in T1 at 1. rewrite <- (Br Dr) in T2 at 1. eapply (ND b); eassumption.
    - rewrite (en_last _ _ _ _ _ _ _ En rb r Ar Dr Rr), (Lr Dr) in *. rewrite <- (Bk Dk) in T1 at 1. eapply (ND b); eassumption.
    - rewrite (en_last _ _ _ _ _ _ _ En kb k Ak Dk Rk), (Lk Dk) in *. rewrite <- (Br Dr) in T2 at 1. eapply (ND b); eassumption.
    - rewrite (en_last _ _ _ _ _ _ _ En kb k Ak Dk Rk), (Lk Dk), (en_last _ _ _ _ _ _ _ En rb r Ar Dr Rr), (Lr Dr). eapply (ND b); eassumption. }
  assert (Q : forall j, b_edges (bget (s_bounds s') j) = b_edges (bget (s_bounds s) j) /\ b_cur (bget (s_bounds s') j) = b_cur (bget (s_bounds s) j)).
  { intros j. rewrite B'. unfold relabelled. destruct t as [t|]; [destruct (Pos.eqb t j)|]; destruct (Pos.eqb kb j || Pos.eqb rb j); split; reflexivity. }
  split.
  - split; [apply (known_same s); [congruence|intros j; apply Q|exact K]|]. eexists. split; [exact C'|].
    assert (Z := ends_append NB D NBq Dsym ent (act s) X Y P (bget (s_bounds s)) (bget (s_bounds s')) k r kb rb t En Ak Ar Nb Nkr Rk Rr Dd).
    unfold act in *. rewrite A'. apply Z; [|exact B'|exact HY]. destruct t as [t|]; exact Ht.
  - split; [exact A'|]. split; [exact H'|]. split; [exact Q|]. intros j Nj. rewrite B'. unfold relabelled.
    assert (K1 : kb <> j) by (intros ->; contradiction). assert (K2 : rb <> j) by (intros ->; contradiction).
    rewrite (proj2 (Pos.eqb_neq _ _) K1), (proj2 (Pos.eqb_neq _ _) K2). cbn. destruct t as [t|]; [|reflexivity].
    destruct Ht as (At & _). destruct (Pos.eqb_spec t j) as [->|_]; [contradiction|reflexivity].
Qed.
Lemma append_ring_cx (X Y : bid -> Prop) fuel i j r1 r2 s u s' : cx X s -> act s i -> act s j -> i <> j -> r1 <> r2 ->
  b_ring (bget (s_bounds s) i) = Some r1 -> b_ring (bget (s_bounds s) j) = Some r2 ->
  (exists b p, NB b p /\ (~ X i -> b_last (bget (s_bounds s) i) = p) /\ (X i -> b = bget (s_bounds s) i) /\
               (~ X j -> b_last (bget (s_bounds s) j) = p) /\ (X j -> b = bget (s_bounds s) j)) ->
  (forall k, act s k -> k <> i -> k <> j -> ~ Y k -> ~ X k) -> (X i \/ ~ X i) -> (X j \/ ~ X j) ->
  append_ring fuel i j s = Ok (u, s') -> cx Y s' /\ onlyr s s'.
Proof.
  intros C Ai Aj Nij Nr R1 R2 N HY Di Dj. revert u s'.
  assert (T : tri (eq s) (append_ring fuel i j) (fun _ s' => cx Y s' /\ onlyr s s')).
  2: { intros u s' E. exact (T s u s' eq_refl E). }
  unfold append_ring.
  eapply tri_bind with (Q := fun b t => b = bget (s_bounds s) i /\ t = s); [apply tri_gets; intros t <-; auto|]. intros bi. apply tri_fact. intros ->.
  eapply tri_bind with (Q := fun b t => b = bget (s_bounds s) j /\ t = s); [apply tri_gets; intros t ->; auto|]. intros bj. apply tri_fact. intros ->.
  eapply tri_bind with (Q := fun x t => x = r1 /\ t = s); [apply tri_deref; intros x t Ex ->; rewrite R1 in Ex; injection Ex as ->; auto|]. intros x. apply tri_fact. intros ->.
  eapply tri_bind with (Q := fun x t => x = r2 /\ t = s); [apply tri_deref; intros x t Ex ->; rewrite R2 in Ex; injection Ex as ->; auto|]. intros x. apply tri_fact. intros ->.
  assert (TS : forall A (m : prog A), pres same_ringed m -> pres same_sweep m -> tri (fun t => same_ringed s t /\ same_sweep s t) m (fun _ t => same_ringed s t /\ same_sweep s t)).
  { intros A m M1 M2 t x0 t' (H1 & H2) E. split; eapply R_trans; eauto. }
  eapply tri_bind with (Q := fun _ t => same_ringed s t /\ same_sweep s t).
  { eapply tri_pre; [apply TS; [nf_auto|apply (pr_is_descendant_of same_sweep)]|]. intros t ->. split; apply R_refl. }
  intros d12. eapply tri_bind; [apply TS; [nf_auto|pres_auto]|]. intros kf. cbv beta.
  assert (G : forall t, same_ringed s t -> same_sweep s t -> cx X t /\ s_bounds t = s_bounds s /\ s_abl t = s_abl s /\ s_hp t = s_hp s).
  { intros t H1 H2. split; [exact (cx_same X s t H1 H2 C)|]. destruct H2 as (S1 & S2 & _ & S3 & _). auto. }
  assert (Fin : forall t s', s_bounds t = s_bounds s -> s_abl t = s_abl s -> s_hp t = s_hp s -> cx Y s' /\ onlyr t s' -> cx Y s' /\ onlyr s s').
  { intros t s' B1 A1 H1 (Z & O1 & O2 & O3 & O4). split; [exact Z|]. unfold onlyr, act in *. rewrite B1, A1, H1 in *. auto. }
  destruct kf; cbv iota; intros t v t' (H1 & H2) E; destruct (G t H1 H2) as (Ct & B1 & A1 & Hp1); apply (Fin t t' B1 A1 Hp1).
  - refine (append_rest_cx X Y fuel r1 r2 i j t v t' Ct _ _ Nij Nr _ _ _ _ Di Dj E); unfold act in *; rewrite ?A1, ?B1; auto.
  - refine (append_rest_cx X Y fuel r2 r1 j i t v t' Ct _ _ (not_eq_sym Nij) (not_eq_sym Nr) _ _ _ _ Dj Di E); unfold act in *; rewrite ?A1, ?B1; auto.
    destruct N as (b & p & N1 & N2 & N3 & N4 & N5). exists b, p. auto.
Qed.
Lemma none_ne {A} (o : option A) : is_some o = true -> o <> None.
Proof. destruct o; [discriminate|discriminate]. Qed.
Lemma ob_onlyr i b s s' : act s i -> onlyb i b s s' -> b_edges b = b_edges (bget (s_bounds s) i) -> b_cur b = b_cur (bget (s_bounds s) i) -> onlyr s s'.
Proof.
  intros A (O1 & O2 & O3) E1 E2. split; [exact O1|]. split; [exact O2|]. split; intros k; rewrite O3; destruct (Pos.eqb_spec i k) as [<-|_]; auto. contradiction.
Qed.
Lemma onlyr_trans s s1 s2 : onlyr s s1 -> onlyr s1 s2 -> onlyr s s2.
Proof.
  intros (A1 & A2 & A3 & A4) (B1 & B2 & B3 & B4). split; [congruence|]. split; [congruence|]. split.
  - intros k. destruct (A3 k), (B3 k). split; congruence.
  - intros k Nk. rewrite B4, A4; [reflexivity|exact Nk|]. unfold act in *. rewrite A1. exact Nk.
Qed.
Lemma onlyr_refl s : onlyr s s. Proof. repeat split. Qed.
Lemma add_lmax_cx fuel p i j s u s' : cx (fun _ => False) s -> act s i -> act s j -> i <> j ->
  NB (bget (s_bounds s) i) p -> NB (bget (s_bounds s) j) p -> b_ring (bget (s_bounds s) i) <> None -> b_ring (bget (s_bounds s) j) <> None ->
  add_local_maximum_point fuel p i j s = Ok (u, s') -> cx (fun _ => False) s' /\ onlyr s s'.
Proof.
  intros C Ai Aj Nij Ni Nj Ri Rj E. unfold add_local_maximum_point in E.
  apply bind_ok in E as (v1 & s1 & Ea & E). destruct (insert_cx _ j p false s v1 s1 C Aj Ea) as (C1 & O1).
  apply bind_ok in E as (v2 & s2 & Eb & E).
  assert (Bi1 : bget (s_bounds s1) i = bget (s_bounds s) i) by (apply (onlyb_other _ _ _ _ _ O1); exact Nij).
  assert (Ai1 : act s1 i) by (apply (onlyb_act _ _ _ _ _ O1); exact Ai).
  destruct (add_point_cx _ i p s1 v2 s2 C1 Ai1) as (C2 & O2); [rewrite Bi1; exact Ni|rewrite Bi1; exact Ri|exact Eb|]. rewrite Bi1 in O2.
  pose proof (onlyb_self _ _ _ _ O2) as Bi2. assert (Bj2 : bget (s_bounds s2) j = (bget (s_bounds s) j) <| b_last := p |>).
  { rewrite (onlyb_other _ _ _ _ _ O2) by congruence. apply (onlyb_self _ _ _ _ O1). }
  assert (Ai2 : act s2 i) by (apply (onlyb_act _ _ _ _ _ O2); exact Ai1).
  assert (Aj2 : act s2 j) by (apply (onlyb_act _ _ _ _ _ O2), (onlyb_act _ _ _ _ _ O1); exact Aj).
  assert (OR : onlyr s s2).
  { eapply onlyr_trans; [eapply (ob_onlyr j); [exact Aj|exact O1|reflexivity|reflexivity]|].
    eapply (ob_onlyr i); [exact Ai1|exact O2|rewrite Bi1; reflexivity|rewrite Bi1; reflexivity]. }
  assert (Nj2 : NB (bget (s_bounds s2) j) p) by (rewrite Bj2; eapply NBq; [| |exact Nj]; reflexivity).
  apply bind_ok in E as (bi & t & Ec & E). apply bd_Ok in Ec as (-> & ->). apply bind_ok in E as (bj & t & Ec & E). apply bd_Ok in Ec as (-> & ->).
  destruct (b_ring (bget (s_bounds s) i)) as [ri|] eqn:Rie; [|congruence]. destruct (b_ring (bget (s_bounds s) j)) as [rj|] eqn:Rje; [|congruence].
  assert (Ri2 : b_ring (bget (s_bounds s2) i) = Some ri) by (rewrite Bi2; exact Rie). assert (Rj2 : b_ring (bget (s_bounds s2) j) = Some rj) by (rewrite Bj2; exact Rje).
  assert (Xi : ~ plus (fun _ => False) j i) by (unfold plus; tauto). assert (Xj : plus (fun _ => False) j j) by (left; reflexivity).
  assert (Hw : forall k, act s2 k -> k <> i -> k <> j -> ~ False -> ~ plus (fun _ => False) j k) by (unfold plus; intros; tauto).
  rewrite Ri2, Rj2 in E. cbn [opt_is] in E. destruct (Pos.eqb_spec ri rj) as [<-|Nr].
  - apply bind_ok in E as (v3 & s3 & Ed' & E). destruct (upd_onlyb _ _ _ _ _ Ed') as (O3 & SR3). destruct (upd_onlyb _ _ _ _ _ E) as (O4 & SR4).
    assert (B' : forall k, k <> i -> k <> j -> bget (s_bounds s') k = bget (s_bounds s2) k).
    { intros k K1 K2. rewrite (onlyb_other _ _ _ _ _ O4 K2). apply (onlyb_other _ _ _ _ _ O3 K1). }
    assert (Bi' : bget (s_bounds s') i = (bget (s_bounds s2) i) <| b_ring := None |>).
    { rewrite (onlyb_other _ _ _ _ _ O4 Nij). apply (onlyb_self _ _ _ _ O3). }
    assert (Bj' : bget (s_bounds s') j = (bget (s_bounds s2) j) <| b_ring := None |>).
    { rewrite (onlyb_self _ _ _ _ O4), (onlyb_other _ _ _ _ _ O3) by congruence. reflexivity. }
    assert (A' : s_abl s' = s_abl s2) by (destruct O4 as (-> & _), O3 as (-> & _); reflexivity).
    assert (OR2 : onlyr s2 s').
    { split; [exact A'|]. split; [destruct O4 as (_ & -> & _), O3 as (_ & -> & _); reflexivity|]. split.
      - intros k. destruct (Pos.eq_dec k i) as [->|K1]; [rewrite Bi'; split; reflexivity|]. destruct (Pos.eq_dec k j) as [->|K2]; [rewrite Bj'; split; reflexivity|].
        rewrite B' by assumption. split; reflexivity.
      - intros k Nk. apply B'; intros ->; contradiction. }
    split; [|eapply onlyr_trans; eassumption].
    destruct C2 as (K2 & P & C2 & En). split; [apply (known_same s2); [exact A'|apply OR2|exact K2]|]. exists P.
    split; [exact (chains_same P s3 s' SR4 (chains_same P s2 s3 SR3 C2))|].
    assert (Z : ends NB D ent (act s2) (fun _ => False) P (bget (s_bounds s'))).
    { eapply (ends_close NB D ND Dsym ent (act s2) _ (fun _ => False) P (bget (s_bounds s2)) (bget (s_bounds s')) i j ri p En Ai2 Aj2 Nij Ri2 Rj2); auto.
      - rewrite (en_last _ _ _ _ _ _ _ En i ri Ai2 Xi Ri2), Bi2. reflexivity.
      - rewrite Bi'. reflexivity.
      - rewrite Bj'. reflexivity. }
    unfold act in *. rewrite A'. exact Z.
  - apply bind_ok in E as (x & t & Ec & E). apply deref_Ok in Ec as (Hx & ->). injection Hx as <-.
    apply bind_ok in E as (x & t & Ec & E). apply deref_Ok in Ec as (Hx & ->). injection Hx as <-.
    assert (Z : cx (fun _ => False) s' /\ onlyr s2 s').
    { assert (Li : b_last (bget (s_bounds s2) i) = p) by (rewrite Bi2; reflexivity).
      destruct (Pos.ltb ri rj).
      - refine (append_ring_cx _ (fun _ => False) fuel i j ri rj s2 u s' C2 Ai2 Aj2 Nij Nr Ri2 Rj2 _ Hw _ _ E); auto.
        exists (bget (s_bounds s2) j), p. split; [exact Nj2|]. split; [auto|]. split; [intros Z; destruct (Xi Z)|]. split; [intros Z; destruct (Z Xj)|reflexivity].
      - refine (append_ring_cx _ (fun _ => False) fuel j i rj ri s2 u s' C2 Aj2 Ai2 (not_eq_sym Nij) (not_eq_sym Nr) Rj2 Ri2 _ _ _ _ E); auto.
        exists (bget (s_bounds s2) j), p. split; [exact Nj2|]. split; [intros Z; destruct (Z Xj)|]. split; [reflexivity|]. split; [auto|intros Z; destruct (Xi Z)]. }
    destruct Z as (Z & O). split; [exact Z|]. eapply onlyr_trans; eassumption.
Qed.
End Ops.
