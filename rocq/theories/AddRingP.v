(** * [LocalMinimumList.add_linear_ring] *)
From Coq Require Import ZArith List Bool Lia Permutation FMapPositive.
From RecordUpdate Require Import RecordSet.
From Verif Require Import Py Monad Utils Geometry LinearRingM BoundM LocalMinimumM SpecRing SpecBounds
     MiscP ListP ScanP SweepFrameP LinearRingP LinearRing2P RingEdgesP MinimaP.
Import ListNotations RecordSetNotations.
Open Scope Z_scope.

(** ** From the vertex chain to directed edges *)
Lemma walk_pairs l : forall a b, walk a (pairs (a :: l ++ [b])) b.
Proof.
  induction l as [|c l IH]; intros a b; cbn [app]; rewrite pairs_cons; cbn [walk fst snd]; split; auto.
  reflexivity.
Qed.
Lemma adj_pairs l : forall x y, Forall (fun t => ~ on_line (fst (fst t)) (snd (fst t)) (snd t)) (triples (x :: y :: l)) ->
  adj (x, y) (pairs (y :: l)).
Proof.
  induction l as [|c l IH]; intros x y H; [exact I|]. rewrite triples_cons in H. inversion H; subst.
  rewrite pairs_cons. cbn [adj]. split; [exact H2|]. apply IH. assumption.
Qed.
Lemma good_ring_walk pts es vs : good_ring pts es vs -> exists v ps, ring_walk v ps es.
Proof.
  intros (L & F & N & T & _). destruct vs as [|v [|w vs]]; [cbn in L; lia..|].
  destruct (list_rev_ind_case vs) as [->|(M & wn & ->)]; [cbn in L; lia|].
  exists v, (cyclic_pairs (v :: w :: M ++ [wn])).
  constructor.
  - clear -F N. revert F N. generalize (cyclic_pairs (v :: w :: M ++ [wn])). intros ps F N.
    induction F as [|p e ps es H F IH]; constructor.
    + split; [exact H|]. inversion N; assumption.
    + apply IH. inversion N; assumption.
  - apply (walk_pairs (w :: M ++ [wn]) v v).
  - intros d. unfold cyclic_triples in T. cbn [app] in T. rewrite <- app_assoc in T. cbn [app] in T.
    change (v :: w :: M ++ [wn; v; w]) with ((v :: w :: M) ++ [wn; v; w]) in T. rewrite triples_snoc in T.
    apply Forall_app in T. destruct T as (T1 & T2). apply Forall_inv in T2. cbn [fst snd] in T2.
    assert (El : last (cyclic_pairs (v :: w :: M ++ [wn])) d = (wn, v)).
    { unfold cyclic_pairs. cbn [app]. rewrite <- app_assoc. cbn [app].
      change (v :: w :: M ++ [wn; v]) with ((v :: w :: M) ++ [wn; v]). rewrite pairs_snoc. apply last_last. }
    rewrite El. unfold cyclic_pairs. cbn [app]. rewrite pairs_cons. cbn [adj].
    split; [exact T2|]. apply adj_pairs. rewrite <- app_assoc. exact T1.
  - rewrite cyclic_pairs_length. cbn. rewrite app_length. cbn. lia.
Qed.

Lemma tip_asc : forall l a b, ascends a l b -> l <> [] -> tip l = Some b.
Proof.
  induction l as [|e l IH]; intros a b H N; [contradiction|]. cbn in H. destruct H as (_ & _ & H).
  destruct l as [|n l]; [cbn in *; congruence|]. change (tip (n :: l) = Some b). apply (IH (etop e)); [exact H|discriminate].
Qed.

(** ** What is recorded *)
Definition minimum_ok (bs : heap bound) (kind : polygon_kind) (lm : local_minimum) : Prop :=
  let l := bget bs (lm_left lm) in
  let r := bget bs (lm_right lm) in
  (exists c tl tr, ascends c (b_edges l) tl /\ ascends c (b_edges r) tr /\ lm_y lm = py c) /\
  b_edges l <> [] /\ b_edges r <> [] /\
  opens_left_of (b_edges l) (b_edges r) /\
  ~ starts_flat (b_edges l) /\ (lm_hor lm = true <-> starts_flat (b_edges r)) /\
  b_kind l = kind /\ b_kind r = kind /\ b_side l = LEFT /\ b_side r = RIGHT /\
  (b_wd l = 1 /\ b_wd r = -1 \/ b_wd l = -1 /\ b_wd r = 1) /\
  flats_apart (b_edges l) /\ flats_apart (b_edges r) /\
  (b_wd l = -1 -> ends_sloped (b_edges l)) /\ (b_wd r = -1 -> ends_sloped (b_edges r)).
Definition paired (bs : heap bound) (i j : bid) : Prop :=
  b_max (bget bs i) = Some j /\ b_max (bget bs j) = Some i /\
  tip (b_edges (bget bs i)) = tip (b_edges (bget bs j)) /\
  b_wd (bget bs i) = - b_wd (bget bs j) /\ b_kind (bget bs i) = b_kind (bget bs j).
Definition same_but_max (b b' : bound) : Prop :=
  b_edges b' = b_edges b /\ b_kind b' = b_kind b /\ b_side b' = b_side b /\ b_wd b' = b_wd b.
Definition edges_of (bs : heap bound) (lm : local_minimum) : list edge :=
  b_edges (bget bs (lm_left lm)) ++ b_edges (bget bs (lm_right lm)).
Definition ids_of (lm : local_minimum) : list bid := [lm_left lm; lm_right lm].
Definition inside (lo hi i : bid) : Prop := (lo <= i < hi)%positive.

Lemma minimum_ok_same bs bs' kind lm :
  same_but_max (bget bs (lm_left lm)) (bget bs' (lm_left lm)) ->
  same_but_max (bget bs (lm_right lm)) (bget bs' (lm_right lm)) ->
  minimum_ok bs kind lm -> minimum_ok bs' kind lm.
Proof.
  intros (E1 & E2 & E3 & E4) (F1 & F2 & F3 & F4). unfold minimum_ok. cbv zeta.
  rewrite E1, E2, E3, E4, F1, F2, F3, F4. auto.
Qed.

Record ring_state (L0 : lm_list) (kind : polygon_kind) (z : point) (es0 edges : list edge)
       (first last : option bid) (L : lm_list) (ps : list dpair) (a : point) (used : list edge)
       (new : list local_minimum) : Prop := {
  q_made : Forall2 made ps edges;
  q_walk : walk a ps z;
  q_adj : exists d, adj d ps;
  q_down : ps = [] \/ down_first ps;
  q_used : es0 = used ++ edges;
  q_vals : lml_values L = lml_values L0 ++ new;
  q_next : (lml_next L0 <= lml_next L)%positive;
  q_old : forall i, (i < lml_next L0)%positive -> bget (lml_bounds L) i = bget (lml_bounds L0) i;
  q_ok : Forall (minimum_ok (lml_bounds L) kind) new;
  q_ids : Forall (fun lm => inside (lml_next L0) (lml_next L) (lm_left lm) /\
                            inside (lml_next L0) (lml_next L) (lm_right lm)) new;
  q_all : forall i, inside (lml_next L0) (lml_next L) i ->
            exists lm, In lm new /\ (i = lm_left lm \/ i = lm_right lm);
  q_nodup : NoDup (flat_map ids_of new);
  q_perm : Permutation (map undirected (flat_map (edges_of (lml_bounds L)) new)) (map undirected used);
  q_ends : match first, last with
           | None, None => new = [] /\ a = z /\ lml_next L = lml_next L0
           | Some f, Some l =>
               inside (lml_next L0) (lml_next L) f /\ inside (lml_next L0) (lml_next L) l /\ f <> l /\
               b_max (bget (lml_bounds L) f) = None /\ b_max (bget (lml_bounds L) l) = None /\
               b_wd (bget (lml_bounds L) f) = -1 /\ b_wd (bget (lml_bounds L) l) = 1 /\
               b_kind (bget (lml_bounds L) f) = kind /\ b_kind (bget (lml_bounds L) l) = kind /\
               tip (b_edges (bget (lml_bounds L) f)) = Some z /\
               tip (b_edges (bget (lml_bounds L) l)) = Some a /\
               new <> [] /\
               (forall i, inside (lml_next L0) (lml_next L) i -> i <> f -> i <> l ->
                  exists j, inside (lml_next L0) (lml_next L) j /\ paired (lml_bounds L) i j)
           | _, _ => False
           end
}.
Definition ring_inv L0 kind z es0 (x : list edge * option bid * option bid * lm_list) : Prop :=
  let '(edges, first, last, L) := x in exists ps a used new, ring_state L0 kind z es0 edges first last L ps a used new.


Definition heap_step (bs : heap bound) (n : bid) (last : option bid) (m : minimum_spec) (kind : polygon_kind) : heap bound :=
  let bs2 := hset (hset bs n (min_bound m kind last)) (Pos.succ n) (max_bound m kind) in
  match last with
  | None => bs2
  | Some j => hset bs2 j (bget bs2 j <| b_max := Some n |>)
  end.
Lemma heap_step_get bs n last m kind : (forall j, last = Some j -> (j < n)%positive) ->
  let bs' := heap_step bs n last m kind in
  bget bs' n = min_bound m kind last /\ bget bs' (Pos.succ n) = max_bound m kind /\
  (forall i, (i < n)%positive -> last <> Some i -> bget bs' i = bget bs i) /\
  (forall j, last = Some j -> bget bs' j = bget bs j <| b_max := Some n |>).
Proof.
  intros H. cbv zeta. unfold heap_step. destruct last as [j|].
  - specialize (H j eq_refl). repeat split.
    + rewrite bget_hset_neq by lia. rewrite bget_hset_neq by lia. apply bget_hset_eq.
    + rewrite bget_hset_neq by lia. apply bget_hset_eq.
    + intros i Hi N. rewrite bget_hset_neq by congruence. rewrite !bget_hset_neq by lia. reflexivity.
    + intros j' E. injection E as <-. rewrite bget_hset_eq. rewrite !bget_hset_neq by lia. reflexivity.
  - repeat split.
    + rewrite bget_hset_neq by lia. apply bget_hset_eq.
    + apply bget_hset_eq.
    + intros i Hi _. rewrite !bget_hset_neq by lia. reflexivity.
    + discriminate.
Qed.
Lemma flat_map_ext_in {A B} (f g : A -> list B) l : (forall x, In x l -> f x = g x) -> flat_map f l = flat_map g l.
Proof.
  induction l as [|x l IH]; intros H; [reflexivity|]. cbn. rewrite (H x (or_introl eq_refl)), IH; [reflexivity|].
  intros y I. apply H. right. exact I.
Qed.

Lemma NoDup_app_disjoint {A} (l1 l2 : list A) : NoDup l1 -> NoDup l2 -> (forall x, In x l1 -> In x l2 -> False) -> NoDup (l1 ++ l2).
Proof.
  intros H1 H2 D. induction H1 as [|x l N H IH]; [exact H2|]. cbn. constructor.
  - intros I. apply in_app_or in I. destruct I as [I|I]; [auto|]. apply (D x); [left; reflexivity|exact I].
  - apply IH. intros y I. apply D. right. exact I.
Qed.

Lemma ring_step L0 kind z es0 x : ring_inv L0 kind z es0 x ->
  match add_minima_body kind x with
  | Ok (inl x') => ring_inv L0 kind z es0 x' /\ (length (fst (fst (fst x'))) < length (fst (fst (fst x))))%nat
  | Ok (inr (f, l, L)) => exists a used new, ring_state L0 kind z es0 [] f l L [] a used new
  | Raise e => False
  | NoFuel => False
  end.
Proof.
  destruct x as [[[edges first] last] L]. intros (ps & a & used & new & Q). unfold add_minima_body.
  destruct edges as [|e edges].
  { assert (ps = []) by (pose proof (q_made _ _ _ _ _ _ _ _ _ _ _ _ Q) as F; inversion F; reflexivity). subst ps. eauto. }
  destruct Q as [Fm Wk (d & Ad) Dn Us Vl Nx Ol Ok_ Id Al Nd Pm En].
  destruct Dn as [->|Dn]; [inversion Fm|].
  destruct (one_minimum_spec a ps (e :: edges) z d Fm Wk Ad Dn)
    as (m & b & rest & erest & u & E1 & F' & W' & A' & D' & Eu & El & G & P).
  rewrite E1. cbn [rbind]. set (n := lml_next L) in *.
  change (match last with
          | Some j => hset (hset (hset (lml_bounds L) n (min_bound m kind last)) (Pos.succ n) (max_bound m kind)) j
                        (bget (hset (hset (lml_bounds L) n (min_bound m kind last)) (Pos.succ n) (max_bound m kind)) j
                           <| b_max := Some n |>)
          | None => hset (hset (lml_bounds L) n (min_bound m kind last)) (Pos.succ n) (max_bound m kind)
          end) with (heap_step (lml_bounds L) n last m kind).
  cbn [fst]. split; [|exact El].
  assert (Hl : forall j, last = Some j -> (j < n)%positive).
  { intros j ->. destruct first as [f|]; [|contradiction]. destruct En as (_ & (_ & H) & _). exact H. }
  destruct (heap_step_get (lml_bounds L) n last m kind Hl) as (Gmin & Gmax & Gold & Glast). cbv zeta in *.
  set (bs' := heap_step (lml_bounds L) n last m kind) in *. clearbody bs'.
  assert (Same : forall i, (i < n)%positive -> same_but_max (bget (lml_bounds L) i) (bget bs' i)).
  { intros i Hi. destruct last as [j|].
    - destruct (Pos.eq_dec j i) as [->|N].
      + rewrite (Glast i eq_refl). repeat split.
      + rewrite Gold by congruence. repeat split.
    - rewrite Gold by congruence. repeat split. }
  set (lm := if ms_min_left m then LM n (Pos.succ n) (ms_y m) (ms_hor m) else LM (Pos.succ n) n (ms_y m) (ms_hor m)).
  assert (Lids : lm_left lm = n /\ lm_right lm = Pos.succ n \/ lm_left lm = Pos.succ n /\ lm_right lm = n).
  { unfold lm. destruct (ms_min_left m); cbn; auto. }
  destruct G as (c & N1 & N2 & A1 & A2 & Yc & G). cbv zeta in G.
  assert (Omin : minimum_ok bs' kind lm).
  { unfold minimum_ok. cbv zeta. unfold lm. destruct (ms_min_left m) eqn:Em; cbn [lm_left lm_right lm_y lm_hor];
      rewrite Gmin, Gmax; cbn; rewrite Em; destruct G as (G1 & G2 & G3 & G4 & G5 & G6); repeat split; auto; try apply G3; try exact G4; try exact G5; try discriminate; eauto 10. }
  exists rest, b, (used ++ u), (new ++ [lm]). constructor; cbn [lml_values lml_bounds lml_next].
  - exact F'.
  - exact W'.
  - exact A'.
  - exact D'.
  - rewrite Us, Eu, app_assoc. reflexivity.
  - rewrite Vl, app_assoc. reflexivity.
  - lia.
  - intros i Hi. rewrite <- (Ol i Hi). apply Gold; [lia|]. intros E. destruct last as [j|]; [|discriminate].
    destruct first as [f|]; [|contradiction]. destruct En as (_ & (H & _) & _). injection E as <-. lia.
  - apply Forall_app. split; [|constructor; [exact Omin|constructor]].
    rewrite Forall_forall in *. intros x I. specialize (Ok_ x I). specialize (Id x I). destruct Id as ((_ & I1) & (_ & I2)).
    apply (minimum_ok_same (lml_bounds L)); auto.
  - apply Forall_app. split.
    + eapply Forall_impl; [|exact Id]. intros x ((H1 & H2) & (H3 & H4)). unfold inside. repeat split; auto; lia.
    + constructor; [|constructor]. unfold inside. destruct Lids as [(-> & ->)|(-> & ->)]; lia.
  - intros i (H1 & H2). destruct (Pos.lt_total i n) as [H|[->|H]].
    + destruct (Al i (conj H1 H)) as (x & I & Hx). exists x. split; [apply in_or_app; left; exact I|exact Hx].
    + exists lm. split; [apply in_or_app; right; left; reflexivity|]. destruct Lids as [(-> & ->)|(-> & ->)]; auto.
    + assert (i = Pos.succ n) by lia. subst i.
      exists lm. split; [apply in_or_app; right; left; reflexivity|]. destruct Lids as [(-> & ->)|(-> & ->)]; auto.
  - rewrite flat_map_app. apply NoDup_app_disjoint; [exact Nd| |].
    + cbn. destruct Lids as [(-> & ->)|(-> & ->)]; repeat constructor; cbn; lia.
    + intros i H1 H2. apply in_flat_map in H1. destruct H1 as (x & I & H1). rewrite Forall_forall in Id.
      destruct (Id x I) as ((_ & I1) & (_ & I2)). cbn in H1, H2.
      destruct H1 as [<-|[<-|[]]]; destruct H2 as [H2|[H2|[]]]; destruct Lids as [(L1 & L2)|(L1 & L2)];
        rewrite ?L1, ?L2 in H2; lia.
  - rewrite flat_map_app, !map_app. apply Permutation_app.
    + rewrite (flat_map_ext_in _ (edges_of (lml_bounds L))); [exact Pm|]. intros x I. unfold edges_of.
      rewrite Forall_forall in Id. destruct (Id x I) as ((_ & I1) & (_ & I2)).
      destruct (Same _ I1) as (-> & _). destruct (Same _ I2) as (-> & _). reflexivity.
    + cbn [flat_map]. rewrite app_nil_r. unfold edges_of.
      rewrite <- P. destruct (ms_min_left m) eqn:Em; unfold lm; cbn [lm_left lm_right]; rewrite Gmin, Gmax; cbn.
      * reflexivity.
      * rewrite !map_app. apply Permutation_app_comm.
  - assert (Tmin : tip (ms_min m) = Some a) by (apply (tip_asc _ c); assumption).
    assert (Tmax : tip (ms_max m) = Some b) by (apply (tip_asc _ c); assumption).
    assert (Nn : new ++ [lm] <> []) by (destruct new; discriminate).
    destruct last as [j|].
    + destruct first as [f|]; [|contradiction].
      destruct En as (If & Ij & Nfj & Mf & Mj & Wf & Wj & Kf & Kj & Tf & Tj & Nw & Pr).
      assert (Gf : bget bs' f = bget (lml_bounds L) f) by (apply Gold; [apply If|congruence]).
      specialize (Glast j eq_refl). rewrite Gf, Gmax. cbn [b_max b_wd b_kind b_edges max_bound new_bound].
      destruct If as (If1 & If2). destruct Ij as (Ij1 & Ij2).
      unfold inside. repeat split; auto; try lia.
      intros i (H1 & H2) Nif Nin.
      destruct (Pos.lt_total i n) as [H|[->|H]]; [| |lia].
      * destruct (Pos.eq_dec i j) as [->|Nij].
        -- exists n. split; [lia|]. unfold paired. rewrite Glast, Gmin. cbn. rewrite Tmin, Tj, Wj, Kj. auto 10.
        -- destruct (Pr i (conj H1 H) Nif Nij) as (k & (Ik1 & Ik2) & P1 & P2 & P3). exists k. split; [lia|].
           assert (k <> j) by (intros ->; congruence).
           unfold paired. rewrite (Gold i), (Gold k) by congruence. auto.
      * exists j. split; [lia|]. unfold paired. rewrite Glast, Gmin. cbn. rewrite Tmin, Tj, Wj, Kj. auto 10.
    + destruct first as [f|]; [contradiction|]. destruct En as (-> & -> & En). rewrite Gmin, Gmax.
      cbn [b_max b_wd b_kind b_edges max_bound min_bound new_bound]. unfold inside. rewrite <- En. cbn.
      repeat split; auto; try lia.
Qed.

(** ** The whole call *)
Definition ring_added (L L' : lm_list) (es : list edge) (kind : polygon_kind) (new : list local_minimum) : Prop :=
  new <> [] /\ lml_values L' = lml_values L ++ new /\
  (forall i, (i < lml_next L)%positive -> bget (lml_bounds L') i = bget (lml_bounds L) i) /\
  (lml_next L <= lml_next L')%positive /\
  Forall (minimum_ok (lml_bounds L') kind) new /\
  Forall (fun lm => inside (lml_next L) (lml_next L') (lm_left lm) /\ inside (lml_next L) (lml_next L') (lm_right lm)) new /\
  (forall i, inside (lml_next L) (lml_next L') i -> exists lm, In lm new /\ (i = lm_left lm \/ i = lm_right lm)) /\
  NoDup (flat_map ids_of new) /\
  (forall i, inside (lml_next L) (lml_next L') i ->
     exists j, inside (lml_next L) (lml_next L') j /\ paired (lml_bounds L') i j) /\
  Permutation (map undirected (flat_map (edges_of (lml_bounds L')) new)) (map undirected es).

Theorem add_linear_ring_spec L pts kind :
  match linear_ring_edges pts with
  | Ok [] => add_linear_ring L pts kind = Ok (false, L)
  | Ok es => exists L' new, add_linear_ring L pts kind = Ok (true, L') /\ ring_added L L' es kind new
  | Raise e => e = OverflowError /\ add_linear_ring L pts kind = Raise OverflowError
  | NoFuel => False
  end.
Proof.
  pose proof (linear_ring_edges_spec pts) as H. unfold add_linear_ring.
  destruct (linear_ring_edges pts) as [[|e es]|x|] eqn:El; cbn [rbind].
  - reflexivity.
  - destruct H as [(E & _)|(vs & G)]; [discriminate|].
    destruct (good_ring_walk _ _ _ G) as (v & ps & Rw).
    destruct (start_spec _ _ _ Rw) as (w & ps' & Rw' & Df & Pm).
    set (es' := start_on_local_maximum (e :: es)) in *. clearbody es'.
    destruct Rw' as [F W A _].
    assert (I0 : ring_inv L kind w es' (es', None, None, L)).
    { exists ps', w, [], []. constructor; auto.
      - exists (List.last ps' (w, w)). apply A.
      - rewrite app_nil_r. reflexivity.
      - lia.
      - intros i (H1 & H2). lia.
      - constructor. }
    pose proof (loopR_measure (add_minima_body kind) (ring_inv L kind w es')
      (fun r => let '(f, l, L1) := r in exists a used new, ring_state L kind w es' [] f l L1 [] a used new)
      (fun _ => False) (fun x => length (fst (fst (fst x)))) (ring_step L kind w es') (S (length es')) _ I0) as Lp.
    cbn [fst] in Lp. specialize (Lp ltac:(lia)).
    destruct (loopR _ _ _) as [[[f l] L1]|x|]; [|contradiction|contradiction]. cbn [rbind].
    destruct Lp as (a & used & new & [Fm Wk Ad Dn Us Vl Nx Ol Ok_ Id Al Nd Pm' En]).
    rewrite app_nil_r in Us. subst used. cbn in Wk. subst a.
    destruct f as [f|], l as [l|]; try contradiction.
    2:{ destruct En as (-> & _ & En). exfalso. destruct Df as (p & t & -> & _). inversion F as [|? e0 ? es0]; subst.
        cbn in Pm'. apply Permutation_nil in Pm'. discriminate. }
    destruct En as (If & Ij & Nfj & Mf & Mj & Wf & Wj & Kf & Kj & Tf & Tj & Nw & Pr).
    set (bs1 := lml_bounds L1) in *.
    set (bs2 := hset (hset bs1 l (bget bs1 l <| b_max := Some f |>)) f
                  (bget (hset bs1 l (bget bs1 l <| b_max := Some f |>)) f <| b_max := Some l |>)).
    exists (LML (lml_values L1) bs2 (lml_next L1)), new. split; [reflexivity|].
    assert (Gf : bget bs2 f = bget bs1 f <| b_max := Some l |>).
    { unfold bs2. rewrite bget_hset_eq, bget_hset_neq by congruence. reflexivity. }
    assert (Gl : bget bs2 l = bget bs1 l <| b_max := Some f |>).
    { unfold bs2. rewrite bget_hset_neq by congruence. apply bget_hset_eq. }
    assert (Go : forall i, i <> f -> i <> l -> bget bs2 i = bget bs1 i).
    { intros i N1 N2. unfold bs2. rewrite !bget_hset_neq by congruence. reflexivity. }
    assert (Same : forall i, same_but_max (bget bs1 i) (bget bs2 i)).
    { intros i. destruct (Pos.eq_dec i f) as [->|N1]; [rewrite Gf; repeat split|].
      destruct (Pos.eq_dec i l) as [->|N2]; [rewrite Gl; repeat split|]. rewrite (Go i N1 N2). repeat split. }
    clearbody bs2. unfold ring_added. cbn [lml_values lml_bounds lml_next].
    split; [exact Nw|]. split; [exact Vl|]. split.
    { intros i Hi. rewrite Go; [apply Ol, Hi|..]; intros ->; [destruct If|destruct Ij]; lia. }
    split; [exact Nx|]. split.
    { eapply Forall_impl; [|exact Ok_]. intros lm H0. eapply minimum_ok_same; [apply Same|apply Same|exact H0]. }
    split; [exact Id|]. split; [exact Al|]. split; [exact Nd|]. split.
    { intros i Hi. destruct (Pos.eq_dec i f) as [->|N1].
      - exists l. split; [exact Ij|]. unfold paired. rewrite Gf, Gl. cbn. rewrite Tf, Tj, Wf, Wj, Kf, Kj. auto 10.
      - destruct (Pos.eq_dec i l) as [->|N2].
        + exists f. split; [exact If|]. unfold paired. rewrite Gf, Gl. cbn. rewrite Tf, Tj, Wf, Wj, Kf, Kj. auto 10.
        + destruct (Pr i Hi N1 N2) as (j & Hj & P1 & P2 & P3). exists j. split; [exact Hj|].
          assert (j <> f) by (intros ->; congruence). assert (j <> l) by (intros ->; congruence).
          unfold paired. rewrite (Go i), (Go j) by assumption. auto. }
    rewrite (flat_map_ext_in _ (edges_of bs1)).
    + rewrite Pm'. apply Permutation_map. symmetry. exact Pm.
    + intros lm _. unfold edges_of. destruct (Same (lm_left lm)) as (-> & _). destruct (Same (lm_right lm)) as (-> & _). reflexivity.
  - destruct H as (-> & _). auto.
  - exact H.
Qed.
