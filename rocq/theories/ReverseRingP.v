(** * The edges of a ring written backwards *)
From Coq Require Import ZArith List Bool Lia.
From Verif Require Import Py Monad Utils Geometry LinearRingM SpecRing SpecReduce
     MiscP ListP ScanP LinearRingP LinearRing2P RingEdgesP ReduceP ShapeP.
Import ListNotations.
Open Scope Z_scope.

(** an edge gone through the other way: only level edges have a direction *)
Definition backwards (e : edge) : edge :=
  if py (etop e) =? py (ebot e) then Edge (ebot e) (etop e) (eslope e) else e.
Lemma mk_edge_back a b e : mk_edge a b = Ok e -> mk_edge b a = Ok (backwards e).
Proof.
  unfold mk_edge, backwards. destruct (Z.ltb_spec (py a) (py b)) as [L|L], (Z.ltb_spec (py b) (py a)) as [L'|L']; cbv beta iota zeta; try lia.
  - destruct (Z.eqb_spec (py a - py b) 0) as [Q|Q]; [lia|]. destruct (int_truediv _ _) as [s| |]; cbn [rbind]; try discriminate.
    intros [= <-]. cbn [etop ebot]. destruct (Z.eqb_spec (py a) (py b)); [lia|reflexivity].
  - destruct (Z.eqb_spec (py b - py a) 0) as [Q|Q]; [lia|]. destruct (int_truediv _ _) as [s| |]; cbn [rbind]; try discriminate.
    intros [= <-]. cbn [etop ebot]. destruct (Z.eqb_spec (py b) (py a)); [lia|reflexivity].
  - assert (Q : py a = py b) by lia. rewrite (proj2 (Z.eqb_eq (py b - py a) 0)) by lia. rewrite (proj2 (Z.eqb_eq (py a - py b) 0)) by lia.
    intros [= <-]. cbn [etop ebot eslope]. rewrite (proj2 (Z.eqb_eq (py b) (py a))) by lia. reflexivity.
Qed.

(** ** Shapes written backwards *)
Lemma last_rev (l : list point) d : last (rev l) d = hd d l.
Proof. destruct l as [|x l]; [reflexivity|]. cbn [rev hd]. apply last_last. Qed.
Lemma hd_rev (l : list point) d : hd d (rev l) = last l d.
Proof. rewrite <- (rev_involutive l) at 2. rewrite last_rev. reflexivity. Qed.
Lemma shape_rev l l' : same_shape l l' -> same_shape (rev l) (rev l').
Proof.
  induction 1 as [a b|p t L|l l' _ IH|l l' l'' _ IH1 _ IH2].
  - rewrite !rev_app_distr. apply shape_start.
  - cbn [rev]. eapply shape_chain; [apply shape_start|]. cbn [app]. apply shape_drop. rewrite last_rev, hd_rev. apply on_line_flip, L.
  - apply shape_back, IH.
  - eapply shape_chain; eassumption.
Qed.
Lemma turned_rev l l' : turned l l' -> turned (rev l) (rev l').
Proof. intros (a & b & -> & ->). rewrite !rev_app_distr. apply turned_app. Qed.
Lemma normal_rev l : normal l -> normal (rev l).
Proof.
  intros N l' (p & t & A & L & C). apply (N (rev l')). exists p, (rev t). split; [|split].
  - apply turned_rev in A. rewrite rev_involutive in A. eapply turned_trans; [exact A|]. cbn [rev]. apply (turned_app (rev t) [p]).
  - unfold loose in *. rewrite last_rev, hd_rev. apply on_line_flip, L.
  - apply turned_rev, C.
Qed.
(** ** Edges *)
Notation edges_of ps es := (Forall2 (fun p e => mk_edge (fst p) (snd p) = Ok e) ps es).
Lemma edges_same : forall ps u w, edges_of ps u -> edges_of ps w -> u = w.
Proof. induction ps as [|x ps IH]; intros u w U W; inversion U; inversion W; subst; [reflexivity|]. f_equal; [congruence|apply IH; assumption]. Qed.
Lemma edges_turned vs vs' es es' : turned vs vs' -> edges_of (cyclic_pairs vs) es -> edges_of (cyclic_pairs vs') es' -> exists a b, es = a ++ b /\ es' = b ++ a.
Proof.
  intros (a & b & -> & ->) F F'.
  destruct a as [|p a]; [exists [], es; split; [reflexivity|]; rewrite app_nil_r in *; cbn [app] in *; exact (edges_same _ _ _ F' F)|].
  destruct b as [|q b]; [exists es, []; split; [rewrite app_nil_r; reflexivity|]; rewrite app_nil_r in *; cbn [app] in *; exact (edges_same _ _ _ F' F)|].
  unfold cyclic_pairs in F, F'. cbn [app] in F, F'. rewrite <- app_assoc in F, F'. cbn [app] in F, F'.
  change (p :: a ++ q :: b ++ [p]) with ((p :: a) ++ q :: b ++ [p]) in F. change (q :: b ++ p :: a ++ [q]) with ((q :: b) ++ p :: a ++ [q]) in F'.
  rewrite pairs_app in F, F'. destruct (Forall2_app_inv_l _ _ F) as (e1 & e2 & F1 & F2 & ->). destruct (Forall2_app_inv_l _ _ F') as (f1 & f2 & G1 & G2 & ->).
  exists e1, e2. split; [reflexivity|]. rewrite (edges_same _ _ _ G1 F2), (edges_same _ _ _ G2 F1). reflexivity.
Qed.
Definition swap (p : point * point) : point * point := (snd p, fst p).
Lemma pairs_rev l : pairs (rev l) = map swap (rev (pairs l)).
Proof.
  induction l as [|a l IH]; [reflexivity|]. destruct l as [|b l]; [reflexivity|].
  rewrite pairs_cons. cbn [rev] in *. rewrite <- app_assoc. cbn [app]. rewrite pairs_snoc, IH, map_app. reflexivity.
Qed.
Lemma edges_back a l es : edges_of (cyclic_pairs (a :: l)) es -> edges_of (cyclic_pairs (a :: rev l)) (map backwards (rev es)).
Proof.
  unfold cyclic_pairs. intros F. assert (Q : (a :: rev l) ++ [a] = rev ((a :: l) ++ [a])).
  { rewrite rev_app_distr. cbn [rev app]. reflexivity. }
  rewrite Q, pairs_rev. revert F. generalize (pairs ((a :: l) ++ [a])). intros ps F.
  assert (Fr : edges_of (rev ps) (rev es)).
  { induction F as [|p e ps es H _ IH]; [constructor|]. cbn [rev]. apply Forall2_app; [exact IH|]. constructor; [exact H|constructor]. }
  clear F Q. induction Fr as [|p e qs fs H _ IH]; cbn [map]; constructor; [|exact IH]. cbn [swap fst snd]. apply mk_edge_back, H.
Qed.
Lemma edges_reversed r r' es es' : same_shape (rev r) r' -> linear_ring_edges r = Ok es -> linear_ring_edges r' = Ok es' ->
  exists a b, es = a ++ b /\ es' = map backwards (rev (b ++ a)).
Proof.
  intros Sh E E'. destruct (edges_steps r es E) as [(-> & St)|(vs & G & St)].
  - apply steps_shape in St. assert (Q : same_shape r' []).
    { eapply shape_chain; [apply shape_back, Sh|]. change (@nil point) with (rev (@nil point)). apply shape_rev, St. }
    destruct (edges_shape r' [] es' [] Q E' eq_refl) as (a & b & -> & Z). symmetry in Z. apply app_eq_nil in Z. destruct Z as (-> & ->).
    exists [], []. auto.
  - destruct G as (L & F & _ & T & _). pose proof (ring_normal _ L T) as N. apply steps_shape in St.
    assert (Shr : same_shape (rev vs) r').
    { eapply shape_chain; [apply shape_back, shape_rev, St|exact Sh]. }
    destruct (edges_steps r' es' E') as [(-> & St')|(vs' & G' & St')].
    { exfalso. pose proof (shape_normal _ _ Shr _ _ (steps_refl _) (normal_rev _ N) St' nil_normal) as Q.
      apply turned_length in Q. rewrite rev_length in Q. cbn in Q. lia. }
    destruct G' as (L' & F' & _ & T' & _).
    pose proof (shape_normal _ _ Shr _ _ (steps_refl _) (normal_rev _ N) St' (ring_normal _ L' T')) as Q.
    destruct vs as [|a l]; [cbn in L; lia|].
    assert (Q' : turned (a :: rev l) vs') by (eapply turned_trans; [|exact Q]; cbn [rev]; apply (turned_app [a] (rev l))).
    destruct (edges_turned _ _ _ _ Q' (edges_back a l es F) F') as (x & y & Ex & ->).
    apply map_eq_app in Ex. destruct Ex as (u & v & Er & <- & <-).
    exists (rev v), (rev u). split.
    + rewrite <- (rev_involutive es), Er, rev_app_distr. reflexivity.
    + rewrite rev_app_distr, !rev_involutive, map_app. reflexivity.
Qed.
(** ** and back *)
Lemma backwards_twice e : backwards (backwards e) = e.
Proof.
  destruct e as [t b s]. unfold backwards. cbn [etop ebot eslope]. destruct (Z.eqb_spec (py t) (py b)) as [Q|Q]; cbn [etop ebot eslope].
  - rewrite (proj2 (Z.eqb_eq (py b) (py t))) by lia. reflexivity.
  - rewrite (proj2 (Z.eqb_neq (py t) (py b))) by exact Q. reflexivity.
Qed.
Lemma edges_reversed_back r r' a b : linear_ring_edges r = Ok (a ++ b) -> linear_ring_edges r' = Ok (map backwards (rev (b ++ a))) -> same_shape (rev r) r'.
Proof.
  intros E E'. destruct (edges_steps r _ E) as [(Z & St)|(vs & G & St)].
  - apply app_eq_nil in Z. destruct Z as (-> & ->). cbn in E'. apply steps_shape in St. apply shape_rev in St. cbn [rev] in St.
    eapply shape_chain; [exact St|]. apply (edges_shape_back [] r' [] []); [reflexivity|exact E'].
  - rewrite rev_app_distr, map_app in E'. destruct (edges_steps r' _ E') as [(Z & _)|(vs' & G' & St')].
    { exfalso. rewrite <- map_app, <- rev_app_distr in Z. apply map_eq_nil in Z. apply (f_equal (@length _)) in Z. rewrite rev_length, app_length in Z. cbn in Z.
      destruct a, b; cbn in Z; try lia. destruct G as (L & F & _). cbn [app] in F. destruct vs as [|p [|q vs]]; [cbn in L; lia..|].
      unfold cyclic_pairs in F. cbn [app] in F. rewrite pairs_cons in F. inversion F. }
    destruct (ring_turn _ _ _ _ G') as (vs2 & T & L2 & F2). rewrite <- map_app, <- rev_app_distr in F2.
    destruct vs2 as [|q m]; [cbn in L2; lia|].
    pose proof (edges_back q m _ F2) as F3. rewrite <- map_rev, rev_involutive, map_map in F3.
    rewrite (map_ext _ (fun e => e) backwards_twice), map_id in F3.
    assert (Q : vs = q :: rev m) by (apply (ring_unique r (a ++ b)); [exact G|cbn [length] in *; rewrite rev_length; exact L2|exact F3]).
    eapply shape_chain; [apply shape_rev, steps_shape, St|]. rewrite Q. cbn [rev]. rewrite rev_involutive.
    eapply shape_chain; [apply (shape_start m [q])|]. cbn [app]. apply turned_sym in T. destruct T as (x & y & -> & Ev).
    eapply shape_chain; [apply shape_start|]. rewrite <- Ev. apply shape_back, steps_shape, St'.
Qed.
