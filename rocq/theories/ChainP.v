(** * The chains of points the sweep builds: what each output operation does to them *)
From Coq Require Import ZArith List Bool Lia FMapPositive Permutation.
From Coq Require Import Floats.SpecFloat.
From RecordUpdate Require Import RecordSet.
From Verif Require Import Py Monad Utils Geometry LinearRingM BoundM LocalMinimumM
     StateM PointNodeM RingM SweepM TopologyM WagyuM HoareP SpecRing SpecHeap SpecRings SweepFrameP CalmP OrderP VatP FuelP
     CircleP HeapOpsP SplitP NodeFrameP RingedP MiscP.
Import ListNotations RecordSetNotations.
Open Scope Z_scope.

(** the points of ring [r], from its first vertex on *)
Definition path (s : st) (r : rid) (ps : list point) : Prop :=
  exists n m, first_of s r = Some n /\ circle s (n :: m) /\ members s r (n :: m) /\ vertices s (n :: m) = ps.
Record chains (P : rid -> list point) (s : st) : Prop := {
  ch_well : well_ringed s;
  ch_path : forall r, P r <> [] -> path s r (P r);
  ch_none : forall r, P r = [] -> first_of s r = None /\ forall i, ring_of s i <> Some r
}.
Definition pupd (P : rid -> list point) (r : rid) (ps : list point) (q : rid) : list point := if Pos.eqb r q then ps else P q.
Lemma pupd_eq P r ps : pupd P r ps r = ps. Proof. unfold pupd. rewrite Pos.eqb_refl. reflexivity. Qed.
Lemma pupd_neq P r ps q : r <> q -> pupd P r ps q = P q. Proof. intros N. unfold pupd. apply Pos.eqb_neq in N. rewrite N. reflexivity. Qed.

Lemma path_same s s' r ps : (forall i, ring_of s i = Some r -> node_at s' i = node_at s i) ->
  (forall i, ring_of s' i = Some r -> ring_of s i = Some r) -> first_of s' r = first_of s r -> path s r ps -> path s' r ps.
Proof.
  intros U N F (n & m & H1 & H2 & H3 & H4).
  assert (U' : forall i, In i (n :: m) -> node_at s' i = node_at s i) by (intros i I; apply U, H3, I).
  exists n, m. split; [congruence|]. split; [apply (circle_same s); assumption|]. split.
  - intros i. split; [intros H; apply H3, N, H|]. intros I. unfold ring_of. rewrite U' by exact I. apply H3. exact I.
  - rewrite <- H4. apply map_ext_in. intros i I. rewrite U' by exact I. reflexivity.
Qed.
Lemma chains_change P P' s s' (X : rid -> Prop) : chains P s -> well_ringed s' -> (forall q, X q \/ ~ X q) ->
  (forall q, ~ X q -> P' q = P q) ->
  (forall i q, ~ X q -> ring_of s i = Some q -> node_at s' i = node_at s i) ->
  (forall i q, ~ X q -> ring_of s' i = Some q -> ring_of s i = Some q) ->
  (forall q, ~ X q -> first_of s' q = first_of s q) ->
  (forall q, X q -> P' q <> [] -> path s' q (P' q)) ->
  (forall q, X q -> P' q = [] -> first_of s' q = None /\ forall i, ring_of s' i <> Some q) -> chains P' s'.
Proof.
  intros [W Pa No] W' D E U N F C1 C2. split; [exact W'| |].
  - intros q H. destruct (D q) as [Hq|Hq]; [apply C1; assumption|]. rewrite (E q Hq) in *.
    exact (path_same s s' q _ (fun i => U i q Hq) (fun i => N i q Hq) (F q Hq) (Pa q H)).
  - intros q H. destruct (D q) as [Hq|Hq]; [apply C2; assumption|]. rewrite (E q Hq) in *. destruct (No q H) as (A & B).
    rewrite (F q Hq). split; [exact A|]. intros i Hi. apply (B i). apply (N i q Hq Hi).
Qed.
Lemma chains_ext P P' s : (forall q, P' q = P q) -> chains P s -> chains P' s.
Proof. intros H [W A B]. split; [exact W| |]; intros r; rewrite H; auto. Qed.
Lemma chains_same P s s' : same_ringed s s' -> chains P s -> chains P s'.
Proof.
  intros H C. apply (chains_change P P s s' (fun _ => False) C); auto.
  - apply (well_same s _ H), C.
  - intros i q _ _. apply H.
  - intros i q _. rewrite (same_ring_of _ _ _ H). auto.
  - intros q _. apply (same_first _ _ _ H).
  - intros q [].
  - intros q [].
Qed.
Lemma tri_chains {A} P (m : prog A) : pres same_ringed m -> tri (chains P) m (fun _ => chains P).
Proof. intros H. apply (tri_same m); [exact H|]. intros s s' E C. exact (chains_same P s s' E C). Qed.
Lemma chains_some P s r n : chains P s -> first_of s r = Some n -> P r <> [].
Proof. intros C F E. destruct (ch_none _ _ C r E) as (X & _). congruence. Qed.

(** ** Adding a point at an end *)
Definition front (ps : list point) (d : point) : point := hd d ps.
Definition back (ps : list point) (d : point) : point := List.last ps d.
Definition tip (sd : edge_side) (ps : list point) (d : point) : point :=
  match sd with LEFT => front ps d | RIGHT => back ps d end.
Definition extend (sd : edge_side) (p : point) (ps : list point) : list point :=
  if point_eqb p (tip sd ps p) then ps
  else match sd with LEFT => p :: ps | RIGHT => ps ++ [p] end.
Definition p0 : point := Pt 0 0.
Lemma last_d {A} (l : list A) d d' : l <> [] -> List.last l d = List.last l d'.
Proof. induction l as [|a [|b l] IH]; intros H; [congruence|reflexivity|]. cbn [List.last] in *. apply IH. discriminate. Qed.
Lemma tip_d sd ps d d' : ps <> [] -> tip sd ps d = tip sd ps d'.
Proof. destruct sd; cbn; [destruct ps; [congruence|reflexivity]|apply last_d]. Qed.
Lemma extend_tip sd p ps d : ps <> [] -> tip sd (extend sd p ps) d = p.
Proof.
  intros H. unfold extend. destruct (point_eqb p (tip sd ps p)) eqn:E.
  - apply point_eqb_eq in E. rewrite (tip_d sd ps d p H). congruence.
  - destruct sd; cbn; [reflexivity|]. apply last_last.
Qed.
Definition flip (sd : edge_side) : edge_side := match sd with LEFT => RIGHT | RIGHT => LEFT end.
Lemma extend_other sd p ps d : ps <> [] -> tip (flip sd) (extend sd p ps) d = tip (flip sd) ps d.
Proof.
  intros H. unfold extend. destruct (point_eqb p (tip sd ps p)); [reflexivity|].
  destruct sd; cbn; destruct ps as [|a ps]; try congruence; reflexivity.
Qed.
Lemma extend_ne sd p ps : ps <> [] -> extend sd p ps <> [].
Proof. intros H. unfold extend. destruct (point_eqb p _); [exact H|]. destruct sd; [discriminate|]. destruct ps; discriminate. Qed.

Lemma last_map {A B} (f : A -> B) l d : List.last (map f l) (f d) = f (List.last l d).
Proof. induction l as [|a [|b l] IH]; try reflexivity. cbn [map List.last] in *. exact IH. Qed.
Lemma last_cons {A} (l : list A) a d : List.last (a :: l) d = List.last l a.
Proof. revert a. induction l as [|b l IH]; intros a; [reflexivity|]. cbn [List.last]. destruct l; [reflexivity|]. apply (last_d (a0 :: l)). discriminate. Qed.

Lemma point_new s r p o m s1 : well_ringed s -> circle s (o :: m) -> members s r (o :: m) ->
  create_point_node (Some r) p (Some o) s = Ok (s_nnext s, s1) ->
  circle s1 (o :: m ++ [s_nnext s]) /\ members s1 r (o :: m ++ [s_nnext s]) /\
  vertices s1 (o :: m ++ [s_nnext s]) = vertices s (o :: m) ++ [p] /\ (forall q, first_of s1 q = first_of s q) /\
  well_ringed s1 /\ ring_of s1 (s_nnext s) = Some r /\
  (forall i q, q <> r -> ring_of s i = Some q -> node_at s1 i = node_at s i) /\
  (forall i q, q <> r -> ring_of s1 i = Some q -> ring_of s i = Some q).
Proof.
  intros W C M E.
  assert (Ho : ring_of s o = Some r) by (apply M; left; reflexivity).
  assert (A : allocated s (o :: m)).
  { apply Forall_forall. intros i Hi. apply (wr_known s W i r). apply M. exact Hi. }
  destruct (well_insert s r p o _ _ W Ho E) as (W1 & Rn').
  destruct (create_before_circle s (Some r) p o m C A) as (s2 & E1 & C1 & Pp & Rn & SV & O & St).
  assert (X : s2 = s1) by congruence. subst s2. clear E E1.
  assert (Hf : forall q, first_of s1 q = first_of s q) by (intros q; rewrite St; destruct s; reflexivity). clear St.
  assert (Z : forall q, ring_of s (s_nnext s) <> Some q).
  { intros q H. apply (wr_known s W) in H. lia. }
  assert (Ni : ~ In (s_nnext s) (o :: m)) by (intros I; apply M in I; destruct (Z _ I)).
  split; [exact C1|]. split; [|split; [|split; [exact Hf|split; [exact W1|split; [exact Rn'|split]]]]].
  - intros i. change (o :: m ++ [s_nnext s]) with ((o :: m) ++ [s_nnext s]). rewrite in_app_iff.
    destruct (Pos.eq_dec i (s_nnext s)) as [->|Hi].
    + split; [intros _; right; left; reflexivity|intros _; exact Rn'].
    + unfold ring_of at 1. rewrite (proj2 (proj2 (SV i Hi))). fold (ring_of s i). rewrite (M i). split; [auto|]. intros [H|[H|[]]]; [exact H|congruence].
  - change (o :: m ++ [s_nnext s]) with ((o :: m) ++ [s_nnext s]). unfold vertices. rewrite map_app. apply f_equal2; [|cbn [map]; rewrite Pp; reflexivity].
    apply map_ext_in. intros i I. assert (Hi : i <> s_nnext s) by (intros ->; contradiction).
    destruct (SV i Hi) as (S1 & S2 & _). unfold npos. rewrite S1, S2. reflexivity.
  - intros i q Q H. apply O. intros [<-|I]; [destruct (Z _ H)|]. apply M in I. congruence.
  - intros i q Q H. destruct (Pos.eq_dec i (s_nnext s)) as [->|Hi]; [congruence|].
    unfold ring_of in *. rewrite (proj2 (proj2 (SV i Hi))) in H. exact H.
Qed.

#[export] Hint Resolve same_sweep_pre same_sweep_rel : pres.
Lemma ss_bd i : pres same_sweep (bd i). Proof. apply pres_gets. exact _. Qed.
#[export] Hint Resolve ss_bd : pres.
Lemma ss_put_point i p : pres same_sweep (put_point i p).
Proof. unfold put_point. pres_auto. Qed.
Lemma put_point_chains P i p s u s' : chains P s -> put_point i p s = Ok (u, s') ->
  exists r, b_ring (bget (s_bounds s) i) = Some r /\ P r <> [] /\
    chains (pupd P r (extend (b_side (bget (s_bounds s) i)) p (P r))) s' /\ same_sweep s s'.
Proof.
  intros C E.
  assert (SS : same_sweep s s') by exact (ss_put_point i p s u s' E).
  unfold put_point in E. inv_bind E b t E0. apply bd_Ok in E0 as (-> & ->).
  inv_bind E r t E0. apply deref_Ok in E0 as (Hr & ->). inv_bind E x t E0. apply rg_Ok in E0 as (-> & ->).
  inv_bind E op t E0. apply deref_Ok in E0 as (Hop & ->). cbv zeta in E.
  change (first_of s r = Some op) in Hop. pose proof (chains_some _ _ _ _ C Hop) as NE.
  exists r. split; [exact Hr|]. split; [exact NE|]. split; [|exact SS].
  destruct (ch_path _ _ C r NE) as (n & m & F & Ci & M & V). rewrite Hop in F. injection F as <-.
  pose proof (ch_well _ _ C) as W. set (sd := b_side (bget (s_bounds s) i)) in *.
  pose proof (circle_last _ _ _ Ci) as (_ & Pv).
  inv_bind E q t E0.
  assert (Q : t = s /\ npos (node_at s q) = tip sd (P r) p).
  { rewrite <- V. destruct sd; cbn [side_eqb] in E0.
    - apply ret_Ok in E0 as (-> & ->). split; reflexivity.
    - rewrite (prev_of_run _ _ _ Pv) in E0. injection E0 as <- <-. split; [reflexivity|].
      cbn [tip]. unfold back, vertices. cbn [map]. rewrite last_cons. symmetry. apply (last_map (fun i => npos (node_at s i))). }
  destruct Q as (-> & Q). clear E0. inv_bind E qp t E0. injection E0 as <- <-. unfold extend.
  change (hget dummy_node (s_nodes s) q) with (node_at s q) in E. rewrite Q in E.
  destruct (point_eqb p (tip sd (P r) p)) eqn:Eq.
  { apply ret_Ok in E as (_ & ->). apply (chains_ext P); [|exact C].
    intros k. unfold pupd. destruct (Pos.eqb_spec r k) as [<-|_]; reflexivity. }
  inv_bind E nn t E0.
  assert (Xn : nn = s_nnext s).
  { rewrite create_before_run in E0. destruct (place_before _ _ _) as [[? ?]| |]; try discriminate. injection E0 as <- _. reflexivity. }
  subst nn. destruct (point_new s r p op m t W Ci M E0) as (C1 & M1 & V1 & F1 & W1 & R1 & U1 & N1). rewrite V in V1.
  destruct sd; cbn [side_eqb] in E; unfold extend.
  - rewrite upd_ring_rput in E. injection E as _ <-.
    assert (W2 : well_ringed (rput t r (fun x => x <| r_node := Some (s_nnext s) |>))).
    { apply well_rput; [exact W1|]. intros k Hk. cbn in Hk. congruence. }
    apply (chains_change P _ s _ (eq r) C W2).
    + intros k. destruct (Pos.eq_dec r k); auto.
    + intros k Hk. apply pupd_neq. exact Hk.
    + intros k kr Hk H. apply (U1 k kr); [congruence|exact H].
    + intros k kr Hk H. apply (N1 k kr); [congruence|exact H].
    + intros k Hk. rewrite first_rput. apply Pos.eqb_neq in Hk. rewrite Hk. apply F1.
    + intros k <- _. rewrite pupd_eq. exists (s_nnext s), (op :: m). rewrite first_rput, Pos.eqb_refl. split; [reflexivity|].
      split; [|split].
      * apply (circle_same t); [reflexivity|]. apply (circle_rotate t (op :: m) [s_nnext s]). exact C1.
      * intros k. change (ring_of (rput t r (fun x => x <| r_node := Some (s_nnext s) |>)) k) with (ring_of t k).
        rewrite (M1 k). change (op :: m ++ [s_nnext s]) with ((op :: m) ++ [s_nnext s]). rewrite in_app_iff. cbn [In]. tauto.
      * change (vertices (rput t r (fun x => x <| r_node := Some (s_nnext s) |>)) (s_nnext s :: op :: m)) with (vertices t ([s_nnext s] ++ op :: m)).
        change (op :: m ++ [s_nnext s]) with ((op :: m) ++ [s_nnext s]) in V1. unfold vertices in *. rewrite map_app in V1 |- *. cbn [map] in V1 |- *.
        apply app_inj_tail in V1. destruct V1 as (V1 & V2). cbn [app]. rewrite V2. f_equal. exact V1.
    + intros k <-. rewrite pupd_eq. discriminate.
  - apply ret_Ok in E as (_ & ->).
    apply (chains_change P _ s _ (eq r) C W1).
    + intros k. destruct (Pos.eq_dec r k); auto.
    + intros k Hk. apply pupd_neq. exact Hk.
    + intros k kr Hk H. apply (U1 k kr); [congruence|exact H].
    + intros k kr Hk H. apply (N1 k kr); [congruence|exact H].
    + intros k Hk. apply F1.
    + intros k <- _. rewrite pupd_eq. exists op, (m ++ [s_nnext s]). rewrite F1. auto.
    + intros k <-. rewrite pupd_eq. destruct (P r); discriminate.
Qed.

(** ** Starting a ring *)
Lemma chains_fresh P s : chains P s -> P (s_rnext s) = [] /\ forall i, ring_of s i <> Some (s_rnext s).
Proof.
  intros C. assert (Z : forall i, ring_of s i <> Some (s_rnext s)).
  { intros i H. apply (wr_known s (ch_well _ _ C)) in H. lia. }
  split; [|exact Z]. destruct (P (s_rnext s)) as [|a l] eqn:E; [reflexivity|]. exfalso.
  destruct (ch_path _ _ C (s_rnext s)) as (n & m & F & _ & M & _); [congruence|].
  apply (Z n). apply M. left. reflexivity.
Qed.
Lemma add_first_chains P i p s u s' : chains P s -> add_first_point i p s = Ok (u, s') ->
  chains (pupd P (s_rnext s) [p]) s' /\ s_abl s' = s_abl s /\ s_hp s' = s_hp s /\ s_rnext s' = Pos.succ (s_rnext s) /\
  forall j, bget (s_bounds s') j = if Pos.eqb i j then (bget (s_bounds s) i) <| b_ring := Some (s_rnext s) |> <| b_last := p |> else bget (s_bounds s) j.
Proof.
  intros C. pose proof (ch_well _ _ C) as W. destruct (chains_fresh P s C) as (Pn & Z).
  set (r := s_rnext s) in *. revert u s'.
  assert (T : tri (eq s) (add_first_point i p) (fun _ s' =>
    chains (pupd P r [p]) s' /\ s_abl s' = s_abl s /\ s_hp s' = s_hp s /\ s_rnext s' = Pos.succ r /\
    forall j, bget (s_bounds s') j = if Pos.eqb i j then (bget (s_bounds s) i) <| b_ring := Some r |> <| b_last := p |> else bget (s_bounds s) j)).
  2: { intros u s' E. exact (T s u s' eq_refl E). }
  unfold add_first_point.
  eapply tri_bind with (Q := fun x t => x = r /\ t = alloc_ring s).
  { intros t x t' <- E. rewrite create_ring_run in E. injection E as <- <-. auto. }
  intros x. apply tri_fact. intros ->.
  assert (Ca : chains P (alloc_ring s)).
  { apply (chains_change P P s (alloc_ring s) (fun _ => False) C).
    - exact (kw_create_ring s _ _ (create_ring_run s) W).
    - intros q. right. intros [].
    - intros q _. reflexivity.
    - intros k q _ _. reflexivity.
    - intros k q _ Hk. exact Hk.
    - intros q _. unfold first_of. rewrite ring_at_alloc. destruct (Pos.eqb_spec (s_rnext s) q) as [<-|_]; [|reflexivity].
      symmetry. exact (proj1 (ch_none _ _ C _ Pn)).
    - intros q [].
    - intros q []. }
  eapply tri_bind with (Q := fun _ t => chains P t /\ s_rnext t = Pos.succ r /\ s_abl t = s_abl s /\ s_hp t = s_hp s /\
    forall j, bget (s_bounds t) j = if Pos.eqb i j then (bget (s_bounds s) i) <| b_ring := Some r |> else bget (s_bounds s) j).
  { intros t y t' -> E. injection E as _ <-. split; [apply (chains_same P (alloc_ring s)); [repeat split|exact Ca]|].
    repeat (split; [reflexivity|]). intros j. cbn. apply bget_hset. }
  intros ?. eapply tri_bind with (Q := fun n t => exists t0, n = s_nnext t0 /\ chains P t0 /\ s_rnext t0 = Pos.succ r /\ create_point_node (Some r) p None t0 = Ok (n, t) /\ same_sweep t0 t /\
    s_abl t = s_abl s /\ s_hp t = s_hp s /\
    forall j, bget (s_bounds t) j = if Pos.eqb i j then (bget (s_bounds s) i) <| b_ring := Some r |> else bget (s_bounds s) j).
  { intros t n t' (C1 & Rn & A & H & B) E. pose proof (pr_create_point_node same_sweep _ _ _ _ _ _ E) as SS.
    exists t. split; [rewrite create_alone_run in E; congruence|]. split; [exact C1|]. split; [exact Rn|]. split; [exact E|]. split; [exact SS|].
    destruct SS as (S1 & S2 & _ & S4 & _). split; [congruence|]. split; [congruence|]. intros j. rewrite S1. apply B. }
  intros n. eapply tri_bind with (Q := fun _ t => chains (pupd P r [p]) t /\ s_rnext t = Pos.succ r /\ s_abl t = s_abl s /\ s_hp t = s_hp s /\
    forall j, bget (s_bounds t) j = if Pos.eqb i j then (bget (s_bounds s) i) <| b_ring := Some r |> else bget (s_bounds s) j).
  { intros t y t' (t0 & -> & C0 & Rn & E0 & SS & A & H & B) E. rewrite upd_ring_rput in E. injection E as _ <-.
    assert (Z0 : forall k, ring_of t0 k <> Some r).
    { apply (ch_none _ _ C0). exact Pn. }
    assert (L0 : (r < s_rnext t0)%positive) by (rewrite Rn; lia).
    destruct (well_alone t0 r p _ t (ch_well _ _ C0) L0 Z0 E0) as (W1 & R1 & F1).
    destruct (create_alone_circle t0 (Some r) p) as (t1 & E1 & Ci & Pp & _ & O).
    assert (X : t1 = t) by congruence. subst t1.
    assert (Zn : forall q, ring_of t0 (s_nnext t0) <> Some q).
    { intros q Hq. apply (wr_known t0 (ch_well _ _ C0)) in Hq. lia. }
    assert (Rt : s_rnext t = Pos.succ r) by (rewrite create_alone_run in E0; injection E0 as <-; exact Rn).
    split; [|split; [exact Rt|split; [exact A|split; [exact H|exact B]]]].
    apply (chains_change P _ t0 _ (eq r) C0).
    - apply well_rput; [exact W1|]. intros m Hm. injection Hm as <-. exact R1.
    - intros k. destruct (Pos.eq_dec r k); auto.
    - intros k Hk. apply pupd_neq. exact Hk.
    - intros k q Hq Hk. apply O. intros [<-|[]]. exact (Zn _ Hk).
    - intros k q Hq Hk. change (ring_of t k = Some q) in Hk. destruct (Pos.eq_dec k (s_nnext t0)) as [->|Nk]; [congruence|].
      unfold ring_of in *. rewrite O in Hk; [exact Hk|]. intros [Hx|[]]; congruence.
    - intros q Hq. rewrite first_rput. apply Pos.eqb_neq in Hq. rewrite Hq. apply F1.
    - intros q <- _. rewrite pupd_eq. exists (s_nnext t0), []. rewrite first_rput, Pos.eqb_refl. split; [reflexivity|]. split; [|split].
      + apply (circle_same t); [reflexivity|exact Ci].
      + intros k. change (ring_of t k = Some r <-> In k [s_nnext t0]). split.
        * intros Hk. destruct (Pos.eq_dec k (s_nnext t0)) as [->|Nk]; [left; reflexivity|]. exfalso. apply (Z0 k).
          unfold ring_of in *. rewrite O in Hk; [exact Hk|]. intros [Hx|[]]; congruence.
        * intros [<-|[]]. exact R1.
      + unfold vertices. cbn [map]. change (node_at (rput t r _) (s_nnext t0)) with (node_at t (s_nnext t0)). rewrite Pp. reflexivity.
    - intros q <-. rewrite pupd_eq. discriminate. }
  intros ?.
  eapply tri_bind with (Q := fun _ t => chains (pupd P r [p]) t /\ s_rnext t = Pos.succ r /\ s_abl t = s_abl s /\ s_hp t = s_hp s /\
    forall j, bget (s_bounds t) j = if Pos.eqb i j then (bget (s_bounds s) i) <| b_ring := Some r |> else bget (s_bounds s) j).
  { intros t y t' (C1 & Rn & A & H & B) E.
    assert (SR : same_ringed t t') by exact (nf_set_hole_state same_ringed i t y t' E).
    assert (SS : same_sweep t t').
    { assert (X : pres same_sweep (set_hole_state i)) by (unfold set_hole_state; pres_auto). exact (X t y t' E). }
    split; [exact (chains_same _ _ _ SR C1)|]. destruct SS as (S1 & S2 & _ & S4 & _).
    split; [destruct SR as (_ & _ & X & _); congruence|]. split; [congruence|]. split; [congruence|]. intros j. rewrite S1. apply B. }
  intros ?. intros t y t' (C1 & Rn & A & H & B) E. injection E as _ <-.
  split; [apply (chains_same _ t); [repeat split|exact C1]|]. split; [exact A|]. split; [exact H|]. split; [exact Rn|].
  intros j. cbn. rewrite bget_hset. destruct (Pos.eqb_spec i j) as [<-|N]; [rewrite B, Pos.eqb_refl; reflexivity|].
  rewrite B. apply Pos.eqb_neq in N. rewrite N. reflexivity.
Qed.

(** ** Joining two rings *)
Definition join_pts (kl rl : bool) (ps qs : list point) : list point :=
  if kl then (if rl then rev qs else qs) ++ ps else ps ++ (if rl then qs else rev qs).
(** the vertices of [k] and [r] lie on one circle, whose points from [n] on are [ps];
    the other rings are as in [P] *)
Record joined (P : rid -> list point) (k r : rid) (ps : list point) (n : nid) (s : st) : Prop := {
  jo_ring : exists l, circle s (n :: l) /\ (forall i, In i (n :: l) <-> ring_of s i = Some k \/ ring_of s i = Some r) /\ vertices s (n :: l) = ps;
  jo_path : forall q, q <> k -> q <> r -> P q <> [] -> path s q (P q);
  jo_none : forall q, q <> k -> q <> r -> P q = [] -> first_of s q = None /\ forall i, ring_of s i <> Some q
}.
Lemma joined_drops P k r ps n s s' : k <> r -> drops (eq r) s s' -> joined P k r ps n s -> joined P k r ps n s'.
Proof.
  intros N (A1&A2&A3&A4&A5) [(l & H1 & H2 & H3) H4 H5].
  assert (F : forall q, q <> r -> first_of s' q = first_of s q).
  { intros q Hq. destruct (A5 q) as ([E|(E & _)] & _); [exact E|congruence]. }
  assert (U : forall i, ring_of s' i = ring_of s i) by (intros i; unfold ring_of; rewrite A1; reflexivity).
  split.
  - exists l. split; [apply (circle_same s); [intros i _; apply A1|exact H1]|]. split; [intros i; rewrite U; apply H2|].
    rewrite <- H3. apply map_ext. intros i. rewrite A1. reflexivity.
  - intros q Q1 Q2 Q3. apply (path_same s); [intros i _; apply A1|intros i; rewrite U; auto|apply F; exact Q2|auto].
  - intros q Q1 Q2 Q3. rewrite F by exact Q2. destruct (H5 q Q1 Q2 Q3) as (X & Y). split; [exact X|]. intros i. rewrite U. apply Y.
Qed.
Lemma joined_put P k r ps n s f : joined P k r ps n s -> joined P k r ps n (rput s k f).
Proof.
  intros [(l & H1 & H2 & H3) H4 H5]. split.
  - exists l. split; [apply (circle_same s); [reflexivity|exact H1]|]. split; [exact H2|exact H3].
  - intros q Q1 Q2 Q3. apply (path_same s); [reflexivity|auto| |auto]. rewrite first_rput. destruct (Pos.eqb_spec k q); [congruence|reflexivity].
  - intros q Q1 Q2 Q3. rewrite first_rput. destruct (Pos.eqb_spec k q); [congruence|]. apply H5; assumption.
Qed.
Lemma joined_relabel P k r ps n s u s' fuel : k <> r -> joined P k r ps n s -> merged k r s -> first_of s k = Some n -> first_of s r = None ->
  update_points fuel k s = Ok (u, s') -> chains (pupd (pupd P r []) k ps) s'.
Proof.
  intros Nkr [(l & H1 & H2 & H3) H4 H5] Mg Fk N E. pose proof (merged_relabel _ _ _ _ _ _ Mg N E) as W'.
  destruct (relabel s k n l fuel u s' H1 Fk E) as (O & SB).
  assert (U := owned_ring k (n :: l) s s').
  assert (OUT : forall i q, q <> k -> q <> r -> ring_of s i = Some q -> ~ In i (n :: l)).
  { intros i q Q1 Q2 H I. apply H2 in I. destruct I; congruence. }
  assert (BACK : forall i q, q <> k -> ring_of s' i = Some q -> q <> r /\ ring_of s i = Some q).
  { intros i q Q1. rewrite (U i O). destruct (in_dec _ _ _) as [I|I]; [congruence|]. intros H. split; [|exact H].
    intros ->. apply I. apply H2. right. exact H. }
  assert (SV : forall i, npos (node_at s' i) = npos (node_at s i)).
  { intros i. destruct O as (Of & Oo). destruct (in_dec Pos.eq_dec i (n :: l)) as [I|I]; [rewrite Of by exact I; reflexivity|rewrite Oo by exact I; reflexivity]. }
  split; [exact W'| |].
  - intros q. unfold pupd. destruct (Pos.eqb_spec k q) as [<-|Q1].
    + intros _. exists n, l. rewrite (sbn_first _ _ _ SB). split; [exact Fk|]. split; [apply (owned_circle k (n :: l) s s'); assumption|]. split.
      * intros i. rewrite (U i O). destruct (in_dec _ _ _) as [I|I]; [tauto|]. split; [|tauto]. intros X. exfalso. apply I, H2. auto.
      * rewrite <- H3. apply map_ext. exact SV.
    + destruct (Pos.eqb_spec r q) as [<-|Q2]; [congruence|]. intros Q3.
      apply (path_same s); [|intros i; apply BACK; congruence|apply (sbn_first _ _ _ SB)|apply H4; congruence].
      intros i Hi. destruct O as (_ & Oo). apply Oo. apply (OUT i q); congruence.
  - intros q. unfold pupd. destruct (Pos.eqb_spec k q) as [<-|Q1].
    + intros X. rewrite X in H3. discriminate.
    + destruct (Pos.eqb_spec r q) as [<-|Q2].
      * intros _. rewrite (sbn_first _ _ _ SB). split; [exact N|]. intros i Hi. apply (BACK i r) in Hi; [|congruence]. destruct Hi. congruence.
      * intros Q3. rewrite (sbn_first _ _ _ SB). destruct (H5 q) as (X & Y); [congruence..|]. split; [exact X|].
        intros i Hi. apply (BACK i q) in Hi; [|congruence]. apply (Y i). apply Hi.
Qed.

Lemma vertices_app s a b : vertices s (a ++ b) = vertices s a ++ vertices s b.
Proof. apply map_app. Qed.
Lemma vertices_rev s a : vertices s (rev a) = rev (vertices s a).
Proof. apply map_rev. Qed.
Lemma join_joined fuel kl rl P k r p1 p2 s h s1 : chains P s -> k <> r -> first_of s k = Some p1 -> first_of s r = Some p2 ->
  join_chains fuel kl rl p1 p2 s = Ok (h, s1) ->
  exists n, joined P k r (join_pts kl rl (P k) (P r)) n s1 /\ match h with Some m => n = m | None => first_of s1 k = Some n end.
Proof.
  intros C Nkr F1 F2 E. pose proof (ch_well _ _ C) as W.
  destruct (ch_path _ _ C k (chains_some _ _ _ _ C F1)) as (a1 & l1 & X1 & C1 & M1 & V1). rewrite F1 in X1. injection X1 as <-.
  destruct (ch_path _ _ C r (chains_some _ _ _ _ C F2)) as (a2 & l2 & X2 & C2 & M2 & V2). rewrite F2 in X2. injection X2 as <-.
  assert (D : forall i, In i (p1 :: l1) -> ~ In i (p2 :: l2)).
  { intros i I1 I2. apply M1 in I1. apply M2 in I2. congruence. }
  set (fu := Nat.max fuel (length (p2 :: l2))).
  destruct (join_circle s p1 l1 p2 l2 fu kl rl C1 C2 D (Nat.le_max_r _ _)) as (s2 & E2 & Ci & SV & SB & O).
  pose proof (lem_Ok _ _ _ _ (fuel_join_chains fuel fu (Nat.le_max_l _ _) kl rl p1 p2) E) as E3.
  rewrite E2 in E3. injection E3 as <- <-. clear E E2.
  assert (U : forall i, ring_of s2 i = ring_of s i) by (intros i; apply (SV i)).
  assert (Sp : forall m, vertices s2 m = vertices s m).
  { intros m. apply map_ext. intros i. destruct (SV i) as (Sx & Sy & _). unfold npos. rewrite Sx, Sy. reflexivity. }
  assert (J : forall n l, circle s2 (n :: l) -> (forall i, In i (n :: l) <-> In i (p1 :: l1) \/ In i (p2 :: l2)) ->
    vertices s (n :: l) = join_pts kl rl (P k) (P r) -> joined P k r (join_pts kl rl (P k) (P r)) n s2).
  { intros n l Cn Mn Vn. split.
    - exists l. split; [exact Cn|]. split; [|rewrite Sp; exact Vn]. intros i. rewrite U, (M1 i), (M2 i). apply Mn.
    - intros q Q1 Q2 Q3. apply (path_same s); [|intros i; rewrite U; auto|apply (sbn_first _ _ _ SB)|apply (ch_path _ _ C); exact Q3].
      intros i Hi. apply O. intros I. apply in_app_or in I. destruct I as [I|I]; [apply M1 in I|apply M2 in I]; congruence.
    - intros q Q1 Q2 Q3. rewrite (sbn_first _ _ _ SB). destruct (ch_none _ _ C q Q3) as (X & Y). split; [exact X|]. intros i. rewrite U. apply Y. }
  destruct kl; cbn [Bool.eqb] in Ci.
  - apply circle_rotate in Ci. destruct rl.
    + destruct (rev (p2 :: l2)) as [|n l] eqn:Er; [apply (f_equal (@rev nid)) in Er; rewrite rev_involutive in Er; discriminate|].
      exists n. split.
      * apply (J n (l ++ p1 :: l1)); [exact Ci| |].
        { intros i. change (n :: l ++ p1 :: l1) with ((n :: l) ++ p1 :: l1). rewrite in_app_iff, <- Er, <- in_rev. tauto. }
        { change (n :: l ++ p1 :: l1) with ((n :: l) ++ p1 :: l1). rewrite vertices_app, <- Er, vertices_rev, V1, V2. reflexivity. }
      * destruct (rev_head p2 l2) as (z & Hz & _). congruence.
    + exists p2. split; [|reflexivity]. apply (J p2 (l2 ++ p1 :: l1)); [exact Ci| |].
      * intros i. change (p2 :: l2 ++ p1 :: l1) with ((p2 :: l2) ++ p1 :: l1). rewrite in_app_iff. tauto.
      * change (p2 :: l2 ++ p1 :: l1) with ((p2 :: l2) ++ p1 :: l1). rewrite vertices_app, V1, V2. reflexivity.
  - exists p1. split; [|rewrite (sbn_first _ _ _ SB); exact F1].
    apply (J p1 (l1 ++ if Bool.eqb false rl then rev (p2 :: l2) else p2 :: l2)); [exact Ci| |].
    + intros i. change (p1 :: l1 ++ ?x) with ((p1 :: l1) ++ x). rewrite in_app_iff. destruct rl; cbn [Bool.eqb]; [|rewrite <- in_rev]; tauto.
    + change (p1 :: l1 ++ ?x) with ((p1 :: l1) ++ x). rewrite vertices_app. unfold join_pts. destruct rl; cbn [Bool.eqb]; rewrite ?vertices_rev, V1, V2; reflexivity.
Qed.

(** what becomes of the bounds: the two that met hold no ring, the other end of the
    removed ring takes the place of the kept bound *)
Definition relabelled (k : rid) (kb rb : bid) (t : option bid) (B : bid -> bound) (j : bid) : bound :=
  let b := if Pos.eqb kb j || Pos.eqb rb j then (B j) <| b_ring := None |> else B j in
  match t with
  | Some t => if Pos.eqb t j then b <| b_ring := Some k |> <| b_side := b_side (B kb) |> else b
  | None => b
  end.
Definition holder (r : rid) (kb rb : bid) (B : bid -> bound) (abl : list (option bid)) (t : option bid) : Prop :=
  match t with
  | Some t => In (Some t) abl /\ t <> kb /\ t <> rb /\ b_ring (B t) = Some r
  | None => forall j, In (Some j) abl -> j <> kb -> j <> rb -> b_ring (B j) <> Some r
  end.
Lemma find_ring_spec h r : forall l, match find_ring_bound h r l with
  | Some t => In (Some t) l /\ b_ring (bget h t) = Some r
  | None => forall j, In (Some j) l -> b_ring (bget h j) <> Some r
  end.
Proof.
  induction l as [|[j|] l IH]; cbn [find_ring_bound].
  - intros j [].
  - destruct (opt_is _ _) eqn:E.
    + split; [left; reflexivity|]. destruct (b_ring (bget h j)) as [q|]; cbn in E; [|discriminate]. apply Pos.eqb_eq in E. congruence.
    + destruct (find_ring_bound h r l) as [t|].
      * destruct IH as (X & Y). split; [right; exact X|exact Y].
      * intros t [Ht|Ht]; [|apply IH; exact Ht]. injection Ht as <-. intros X. rewrite X in E. cbn in E. rewrite Pos.eqb_refl in E. discriminate.
  - destruct (find_ring_bound h r l) as [t|].
    + destruct IH as (X & Y). split; [right; exact X|exact Y].
    + intros t [Ht|Ht]; [discriminate|apply IH; exact Ht].
Qed.
Lemma tri_sweep {A} (m : prog A) s0 : pres same_sweep m -> tri (same_sweep s0) m (fun _ => same_sweep s0).
Proof. intros H. apply (tri_pres m same_sweep); [exact H|]. intros s s' E E0. eapply R_trans; eassumption. Qed.
Lemma tri_conj {A} (m : prog A) (I1 I2 : st -> Prop) (Q1 Q2 : A -> st -> Prop) : tri I1 m Q1 -> tri I2 m Q2 ->
  tri (fun s => I1 s /\ I2 s) m (fun a s => Q1 a s /\ Q2 a s).
Proof. intros H1 H2 s a s' (X & Y) E. split; [eapply H1|eapply H2]; eassumption. Qed.
Lemma append_rest_chains fuel P k r kb rb s u s' : chains P s -> k <> r -> kb <> rb -> append_rest fuel k r kb rb s = Ok (u, s') ->
  exists t, holder r kb rb (bget (s_bounds s)) (s_abl s) t /\ P k <> [] /\ P r <> [] /\
    chains (pupd (pupd P r []) k (join_pts (side_eqb (b_side (bget (s_bounds s) kb)) LEFT) (side_eqb (b_side (bget (s_bounds s) rb)) LEFT) (P k) (P r))) s' /\
    s_abl s' = s_abl s /\ s_hp s' = s_hp s /\
    forall j, bget (s_bounds s') j = relabelled k kb rb t (bget (s_bounds s)) j.
Proof.
  intros C Nkr Nb E. set (kl := side_eqb (b_side (bget (s_bounds s) kb)) LEFT). set (rl := side_eqb (b_side (bget (s_bounds s) rb)) LEFT).
  revert u s' E.
  assert (T : tri (eq s) (append_rest fuel k r kb rb) (fun _ s' => exists t, holder r kb rb (bget (s_bounds s)) (s_abl s) t /\ P k <> [] /\ P r <> [] /\
    chains (pupd (pupd P r []) k (join_pts kl rl (P k) (P r))) s' /\ s_abl s' = s_abl s /\ s_hp s' = s_hp s /\
    forall j, bget (s_bounds s') j = relabelled k kb rb t (bget (s_bounds s)) j)).
  2: { intros u s' E. exact (T s u s' eq_refl E). }
  unfold append_rest.
  eapply tri_bind; [apply tri_rg|]. intros kr. eapply tri_bind; [apply tri_rg|]. intros rr. cbv beta.
  eapply tri_bind with (Q := fun p1 t => first_of s k = Some p1 /\ rr = ring_at s r /\ t = s).
  { apply tri_deref. intros p1 t Ep (-> & -> & <-). auto. }
  intros p1. eapply tri_bind with (Q := fun p2 t => (first_of s k = Some p1 /\ first_of s r = Some p2) /\ t = s).
  { apply tri_deref. intros p2 t Ep (F & -> & ->). auto. }
  intros p2. apply tri_fact. intros (F1 & F2).
  eapply tri_bind with (Q := fun b t => b = bget (s_bounds s) kb /\ t = s); [apply tri_gets; intros t ->; auto|]. intros kbd.
  apply tri_fact. intros ->.
  eapply tri_bind with (Q := fun b t => b = bget (s_bounds s) rb /\ t = s); [apply tri_gets; intros t ->; auto|]. intros rbd.
  apply tri_fact. intros ->. fold kl. fold rl. set (ps := join_pts kl rl (P k) (P r)).
  set (J := fun n t => (joined P k r ps n t /\ merged k r t) /\ same_sweep s t).
  eapply tri_bind with (Q := fun h t => exists n, J n t /\ match h with Some m => n = m | None => first_of t k = Some n end /\
    match h with Some n => ring_of t n = Some r | None => True end).
  { intros t h t' -> E. destruct (join_joined _ _ _ _ _ _ _ _ _ _ _ C Nkr F1 F2 E) as (n & J1 & J2).
    destruct (join_merged _ _ _ _ _ _ _ _ _ _ (ch_well _ _ C) Nkr F1 F2 E) as (J3 & J4).
    exists n. split; [|split; [exact J2|exact J4]]. split; [split; assumption|].
    assert (X : pres same_sweep (join_chains fuel kl rl p1 p2)) by (unfold join_chains; pres_auto). exact (X _ _ _ E). }
  intros h. eapply tri_bind with (Q := fun _ t => exists n, J n t /\ first_of t k = Some n).
  { intros t v t' (n & ((J1 & Mg) & SS) & Hn & Hr) E. destruct h as [m|].
    - subst m. rewrite upd_ring_rput in E. injection E as _ <-. exists n. split; [|rewrite first_rput, Pos.eqb_refl; reflexivity].
      split; [split; [apply joined_put; exact J1|apply (merged_first k r t n); auto]|exact SS].
    - apply ret_Ok in E as (_ & ->). exists n. unfold J. auto. }
  intros ?.
  assert (SM : forall t t', drops (eq r) t t' -> same_sweep t t' -> (exists n, J n t /\ first_of t k = Some n) -> exists n, J n t' /\ first_of t' k = Some n).
  { intros t t' H SS (n & ((J1 & Mg) & S1) & F). exists n. split; [split; [split; [eapply joined_drops; eassumption|eapply merged_drops; eassumption]|eapply R_trans; eassumption]|].
    destruct H as (_&_&_&_&A5). destruct (A5 k) as ([X|(X & _)] & _); congruence. }
  assert (TS : forall A (m : prog A), pres (drops (eq r)) m -> pres same_sweep m -> tri (fun t => exists n, J n t /\ first_of t k = Some n) m (fun _ t => exists n, J n t /\ first_of t k = Some n)).
  { intros A m M1 M2 t x0 t' H E. exact (SM t t' (M1 _ _ _ E) (M2 _ _ _ E) H). }
  eapply tri_bind; [apply TS; [nf_auto|apply (pr_upd_ring same_sweep)]|]. intros ?.
  eapply tri_bind; [apply TS; [nf_auto|apply (pr_ring_depth same_sweep)]|]. intros kd.
  eapply tri_bind; [apply TS; [nf_auto|apply (pr_ring_depth same_sweep)]|]. intros rd.
  eapply tri_bind with (Q := fun _ t => (exists n, J n t /\ first_of t k = Some n) /\ first_of t r = None).
  { intros t v t' H E. split.
    - refine (SM t t' _ _ H); [refine (dr_none (eq r) r _ _ _ _ t v t' E); reflexivity|exact (pr_upd_ring same_sweep _ _ _ _ _ E)].
    - rewrite upd_ring_rput in E. injection E as _ <-. rewrite first_rput, Pos.eqb_refl. reflexivity. }
  intros ?. eapply tri_bind with (Q := fun _ t => (exists n, J n t /\ first_of t k = Some n) /\ first_of t r = None).
  { match goal with |- tri _ ?m _ => assert (M1 : pres (drops (eq r)) m); [destruct (negb _); [nf_auto|]; apply dr_replace_ring; reflexivity|];
      assert (M2 : pres same_sweep m); [pres_auto|] end.
    intros t v t' (H & F) E. split; [exact (SM t t' (M1 _ _ _ E) (M2 _ _ _ E) H)|]. exact (first_drops r t t' (M1 _ _ _ E) F). }
  intros ?. eapply tri_bind with (Q := fun _ t => chains (pupd (pupd P r []) k ps) t /\ same_sweep s t).
  { intros t v t' ((n & ((J1 & Mg) & S1) & F) & Fr) E. split; [eapply joined_relabel; eassumption|].
    eapply R_trans; [exact S1|]. exact (pr_update_points same_sweep _ _ _ _ _ E). }
  intros ?. intros t v t' (C1 & S1) E. inv_bind E v1 t1 Ea. injection Ea as _ <-. inv_bind E v2 t1 Ea. injection Ea as _ <-.
  inv_bind E sx t1 Ea. injection Ea as <- <-.
  match type of E with _ ?X = _ => set (t2 := X) in E end.
  assert (Bt : forall j, bget (s_bounds t2) j = if Pos.eqb kb j || Pos.eqb rb j then (bget (s_bounds s) j) <| b_ring := None |> else bget (s_bounds s) j).
  { intros j. destruct S1 as (S1 & _). unfold t2. cbn. rewrite !bget_hset. rewrite S1. destruct (Pos.eqb_spec kb j) as [<-|Nk]; cbn.
    - destruct (Pos.eqb_spec rb kb) as [->|Nr]; [congruence|reflexivity].
    - destruct (Pos.eqb_spec rb j) as [<-|Nr]; reflexivity. }
  assert (At : s_abl t2 = s_abl s) by (destruct S1 as (_ & S2 & _); exact S2).
  assert (Ht : s_hp t2 = s_hp s) by (destruct S1 as (_ & _ & _ & S2 & _); exact S2).
  assert (C2 : chains (pupd (pupd P r []) k ps) t2) by (apply (chains_same _ t); [repeat split|exact C1]).
  change (s_bounds t2) with (s_bounds t2) in *. clearbody t2. clear C1 S1 t.
  assert (Fb := find_ring_spec (s_bounds t2) r (s_abl t2)).
  assert (Nk : P k <> []) by exact (chains_some _ _ _ _ C F1). assert (Nr : P r <> []) by exact (chains_some _ _ _ _ C F2).
  destruct (find_ring_bound (s_bounds t2) r (s_abl t2)) as [w|] eqn:Ef.
  - inv_bind E b t1 Ea. apply bd_Ok in Ea as (-> & ->). injection E as _ <-. exists (Some w). destruct Fb as (Fa & Fb).
    rewrite Bt in Fb. destruct (Pos.eqb_spec kb w) as [Hk|Hk]; [discriminate|]. destruct (Pos.eqb_spec rb w) as [Hr|Hr]; [discriminate|]. cbn in Fb.
    split; [cbn; rewrite <- At; auto|]. split; [exact Nk|]. split; [exact Nr|]. split; [apply (chains_same _ t2); [repeat split|exact C2]|].
    split; [exact At|]. split; [exact Ht|]. intros j. cbn. rewrite bget_hset. unfold relabelled. destruct (Pos.eqb_spec w j) as [<-|Nj]; [|apply Bt].
    rewrite !Bt. rewrite (proj2 (Pos.eqb_neq kb w) Hk), (proj2 (Pos.eqb_neq rb w) Hr), Pos.eqb_refl. reflexivity.
  - apply ret_Ok in E as (_ & ->). exists None. split.
    + cbn. intros j Hj N1 N2. rewrite <- At in Hj. specialize (Fb j Hj). rewrite Bt in Fb.
      rewrite (proj2 (Pos.eqb_neq kb j)), (proj2 (Pos.eqb_neq rb j)) in Fb by congruence. exact Fb.
    + split; [exact Nk|]. split; [exact Nr|]. split; [exact C2|]. split; [exact At|]. split; [exact Ht|]. intros j. unfold relabelled. apply Bt.
Qed.
