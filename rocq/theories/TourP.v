(** * Reconnecting the rings of a tour: the chains of vertices *)
From Coq Require Import ZArith List Bool Lia FMapPositive Permutation.
From Coq Require Import Floats.SpecFloat.
From RecordUpdate Require Import RecordSet.
From Verif Require Import Py Monad Utils Geometry LinearRingM BoundM LocalMinimumM
     StateM PointNodeM RingM SweepM TopologyM WagyuM HoareP SpecRing SpecHeap SpecRings SpecTour
     CircleP HeapOpsP SplitP NodeFrameP RingedP.
Import ListNotations RecordSetNotations.
Open Scope Z_scope.

(** ** Tours *)
Definition exit_ (t : stop) : nid := fst (snd t).
Definition next_entry (t : stop) : nid := snd (snd t).
Fixpoint entries (e : nid) (l : list stop) : list nid :=
  match l with [] => [] | t :: l' => e :: entries (next_entry t) l' end.
Lemma leads_app s l1 : forall e l2 x, leads s e (l1 ++ l2) x <-> exists y, leads s e l1 y /\ leads s y l2 x.
Proof.
  induction l1 as [|(r & a & b) l1 IH]; intros e l2 x; cbn [app leads].
  - split; [intros H; exists e; auto|intros (y & -> & H); exact H].
  - rewrite IH. split.
    + intros (A & B & C & y & D & E). exists y. auto.
    + intros (y & (A & B & C & D) & E). repeat split; auto. exists y. auto.
Qed.
Lemma tour_turn s l1 l2 : tour s (l1 ++ l2) -> tour s (l2 ++ l1).
Proof.
  intros (N & e & L). split.
  - rewrite map_app in *. eapply Permutation_NoDup; [apply Permutation_app_comm|exact N].
  - apply leads_app in L as (y & A & B). exists y. apply leads_app. exists e. auto.
Qed.
Lemma entries_shift l : forall s e x, leads s e l x -> entries e l ++ [x] = e :: map next_entry l.
Proof.
  induction l as [|(r & a & b) l IH]; intros s e x L; cbn [leads entries map app] in *.
  - subst x. reflexivity.
  - destruct L as (_ & _ & _ & L). f_equal. exact (IH _ _ _ L).
Qed.
Lemma leads_ends s l : forall e x, leads s e l x -> NoDup (map fst l) ->
  NoDup (map exit_ l ++ entries e l) /\ forall i, In i (map exit_ l ++ entries e l) -> on_tour s l i.
Proof.
  induction l as [|(r & a & b) l IH]; intros e x L N; cbn [leads entries map app] in *; [split; [constructor|intros i []]|].
  destruct L as (Re & Ra & NE & L). inversion N as [|? ? N1 N2]; subst. destruct (IH b x L N2) as (D & O).
  change (next_entry (r, (a, b))) with b. change (exit_ (r, (a, b))) with a.
  assert (K : forall i, ring_of s i = Some r -> ~ In i (map exit_ l ++ entries b l)).
  { intros i Ri Hi. destruct (O i Hi) as (q & Hq & Rq). replace q with r in Hq by congruence. exact (N1 Hq). }
  assert (P : Permutation (a :: map exit_ l ++ e :: entries b l) (a :: e :: map exit_ l ++ entries b l)).
  { constructor. symmetry. apply Permutation_middle. }
  split.
  - eapply Permutation_NoDup; [symmetry; exact P|]. constructor.
    + intros [H|H]; [congruence|]. exact (K a Ra H).
    + constructor; [exact (K e Re)|exact D].
  - intros i Hi. apply (Permutation_in _ P) in Hi. destruct Hi as [<-|[<-|Hi]].
    + exists r. split; [left; reflexivity|exact Ra].
    + exists r. split; [left; reflexivity|exact Re].
    + destruct (O i Hi) as (q & Hq & Rq). exists q. split; [right; exact Hq|exact Rq].
Qed.
Definition pairs_of (l : list stop) : list (nid * nid) := map snd l.
Definition touched (l : list (nid * nid)) : list nid := map fst l ++ map snd l.
Lemma tour_touched s l : tour s l -> NoDup (touched (pairs_of l)) /\ forall i, In i (touched (pairs_of l)) -> on_tour s l i.
Proof.
  intros (N & e & L). destruct (leads_ends s l e e L N) as (D & O).
  pose proof (entries_shift l s e e L) as S.
  assert (P : Permutation (touched (pairs_of l)) (map exit_ l ++ entries e l)).
  { unfold touched, pairs_of. rewrite !map_map. apply Permutation_app_head. change (map (fun x => snd (snd x)) l) with (map next_entry l).
    apply (Permutation_cons_inv (a := e)). rewrite <- S. symmetry. apply Permutation_cons_append. }
  split; [eapply Permutation_NoDup; [symmetry; exact P|exact D]|]. intros i Hi. apply O. apply (Permutation_in _ P Hi).
Qed.

(** ** Exchanging the successors of several pairs of vertices *)
Definition switches (l : list (nid * nid)) : prog unit := forM l (fun p => switch_nexts (fst p) (snd p)).
Definition crossed (l : list (nid * nid)) (s s' : st) : Prop :=
  (forall a b an bn, In (a, b) l -> linked s a an -> linked s b bn -> linked s' a bn /\ linked s' b an) /\
  (forall i j, ~ In i (touched l) -> linked s i j -> linked s' i j) /\
  (forall i, ~ In i (touched l) -> (forall j, In j (touched l) -> ~ linked s j i) -> node_at s' i = node_at s i).
Lemma linked_fun s a b c : linked s a b -> linked s a c -> b = c.
Proof. intros (A & _) (B & _). congruence. Qed.
Lemma linked_inj s a b c : linked s a c -> linked s b c -> a = b.
Proof. intros (_ & A) (_ & B). congruence. Qed.
Lemma switch_crossed s a b an bn : a <> b -> linked s a an -> linked s b bn ->
  exists s', switch_nexts a b s = Ok (tt, s') /\ crossed [(a, b)] s s' /\ same_vertices s s' /\ same_but_nodes s s'.
Proof.
  intros N La Lb. eexists. split; [exact (switch_nexts_run _ _ _ _ _ (proj1 La) (proj1 Lb))|].
  assert (Nn : an <> bn) by (intros ->; apply N; exact (linked_inj s a b bn La Lb)).
  assert (NX : forall i, n_next (node_at (sprev (sprev (snext (snext s a (Some bn)) b (Some an)) an (Some b)) bn (Some a)) i) =
     if Pos.eqb i b then Some an else if Pos.eqb i a then Some bn else n_next (node_at s i)).
  { intros i. rewrite !next_sprev, !next_snext. reflexivity. }
  assert (PX : forall i, n_prev (node_at (sprev (sprev (snext (snext s a (Some bn)) b (Some an)) an (Some b)) bn (Some a)) i) =
     if Pos.eqb i bn then Some a else if Pos.eqb i an then Some b else n_prev (node_at s i)).
  { intros i. rewrite !prev_sprev, !prev_snext. reflexivity. }
  split; [|split].
  - split; [|split].
    + intros a0 b0 an0 bn0 [[= <- <-]|[]] H1 H2.
      replace an0 with an by exact (linked_fun s a an an0 La H1). replace bn0 with bn by exact (linked_fun s b bn bn0 Lb H2).
      unfold linked. rewrite !NX, !PX, !Pos.eqb_refl.
      destruct (Pos.eqb_spec a b); [contradiction|]. destruct (Pos.eqb_spec an bn); [contradiction|]. auto.
    + intros i j Hi L. unfold touched in Hi. cbn in Hi. unfold linked. rewrite NX, PX.
      destruct (Pos.eqb_spec i b) as [->|_]; [tauto|]. destruct (Pos.eqb_spec i a) as [->|_]; [tauto|].
      destruct (Pos.eqb_spec j bn) as [->|_]; [destruct Hi; right; left; exact (linked_inj s b i bn Lb L)|].
      destruct (Pos.eqb_spec j an) as [->|_]; [destruct Hi; left; exact (linked_inj s a i an La L)|]. exact L.
    + intros i Hi Hj. unfold touched in Hi, Hj. cbn in Hi, Hj.
      assert (i <> an) by (intros ->; apply (Hj a); tauto). assert (i <> bn) by (intros ->; apply (Hj b); tauto).
      assert (i <> a) by (intros ->; tauto). assert (i <> b) by (intros ->; tauto).
      unfold sprev, snext. rewrite !node_at_put_neq by auto. reflexivity.
  - eapply same_vertices_trans; [apply same_snext|]. eapply same_vertices_trans; [apply same_snext|]. eapply same_vertices_trans; apply same_sprev.
  - eapply same_but_nodes_trans; [apply sbn_snext|]. eapply same_but_nodes_trans; [apply sbn_snext|]. eapply same_but_nodes_trans; apply sbn_sprev.
Qed.
Lemma switches_crossed l : forall s, NoDup (touched l) -> (forall i, In i (touched l) -> exists j, linked s i j) ->
  exists s', switches l s = Ok (tt, s') /\ crossed l s s' /\ same_vertices s s' /\ same_but_nodes s s'.
Proof.
  induction l as [|[a b] l IH]; intros s N D.
  - exists s. split; [reflexivity|]. split; [|split; [apply same_vertices_refl|apply same_but_nodes_refl]].
    split; [intros ? ? ? ? []|split; auto].
  - assert (P : Permutation (touched ((a, b) :: l)) (a :: b :: touched l)).
    { unfold touched. cbn [map app fst snd]. constructor. symmetry. apply Permutation_middle. }
    pose proof (Permutation_NoDup P N) as N'. inversion N' as [|? ? Na N2]; subst. inversion N2 as [|? ? Nb N3]; subst.
    assert (Nab : a <> b) by (intros ->; apply Na; left; reflexivity).
    assert (D' : forall i, In i (a :: b :: touched l) -> exists j, linked s i j).
    { intros i Hi. apply D. apply (Permutation_in _ (Permutation_sym P) Hi). }
    destruct (D' a) as (an & La); [left; reflexivity|]. destruct (D' b) as (bn & Lb); [right; left; reflexivity|].
    destruct (switch_crossed s a b an bn Nab La Lb) as (s1 & E1 & (C1 & C2 & C3) & V1 & B1).
    assert (T1 : forall i, In i (touched [(a, b)]) -> i = a \/ i = b) by (intros i; cbn; intuition).
    destruct (IH s1 N3) as (s' & E & (K1 & K2 & K3) & V & B).
    { intros i Hi. destruct (D' i) as (j & Lj); [right; right; exact Hi|]. exists j. apply C2; [|exact Lj].
      intros H. destruct (T1 i H) as [-> | ->]; [apply Na; right; exact Hi|exact (Nb Hi)]. }
    exists s'. split; [unfold switches in *; cbn [forM]; rewrite (bind_run _ _ _ _ _ E1); exact E|].
    split; [|split; [eapply same_vertices_trans; eassumption|eapply same_but_nodes_trans; eassumption]].
    destruct (C1 a b an bn (or_introl eq_refl) La Lb) as (G1 & G2).
    split; [|split].
    + intros a0 b0 an0 bn0 [[= <- <-]|H] H1 H2.
      * replace an0 with an by exact (linked_fun s a an an0 La H1). replace bn0 with bn by exact (linked_fun s b bn bn0 Lb H2).
        split; apply K2; auto. intros H. apply Na. right. exact H.
      * assert (Ha : In a0 (touched l)) by (unfold touched; apply in_or_app; left; exact (in_map fst _ _ H)).
        assert (Hb : In b0 (touched l)) by (unfold touched; apply in_or_app; right; exact (in_map snd _ _ H)).
        apply (K1 a0 b0 an0 bn0 H); apply C2; auto; intros J; destruct (T1 _ J) as [-> | ->]; try (apply Na; right; assumption); contradiction.
    + intros i j Hi L. assert (Hi' : ~ In i (a :: b :: touched l)) by (intros H; apply Hi; apply (Permutation_in _ (Permutation_sym P) H)).
      apply K2; [intros H; apply Hi'; right; right; exact H|]. apply C2; [|exact L]. intros H. destruct (T1 i H) as [-> | ->]; apply Hi'; [left|right; left]; reflexivity.
    + intros i Hi Hj. assert (Hi' : ~ In i (a :: b :: touched l)) by (intros H; apply Hi; apply (Permutation_in _ (Permutation_sym P) H)).
      assert (Hj' : forall j, In j (a :: b :: touched l) -> ~ linked s j i) by (intros j H; apply Hj; apply (Permutation_in _ (Permutation_sym P) H)).
      assert (Q : node_at s1 i = node_at s i).
      { apply C3; [intros H; destruct (T1 i H) as [-> | ->]; apply Hi'; [left|right; left]; reflexivity|].
        intros j H. apply Hj'. destruct (T1 j H) as [-> | ->]; [left|right; left]; reflexivity. }
      rewrite <- Q. apply K3; [intros H; apply Hi'; right; right; exact H|]. intros j H L.
      destruct (D' j) as (k & Lk); [right; right; exact H|].
      assert (L1 : linked s1 j k).
      { apply C2; [|exact Lk]. intros J. destruct (T1 j J) as [-> | ->]; [apply Na; right; exact H|exact (Nb H)]. }
      apply (Hj' j); [right; right; exact H|]. replace i with k by exact (linked_fun s1 j k i L1 L). exact Lk.
Qed.
(** the order of the pairs does not matter *)
Lemma touched_perm l l' : Permutation l l' -> Permutation (touched l) (touched l').
Proof. intros P. unfold touched. apply Permutation_app; apply Permutation_map; exact P. Qed.
Lemma crossed_linked l l' s s1 s2 i j : Permutation l l' -> crossed l s s1 -> crossed l' s s2 ->
  (forall k, In k (touched l) -> exists m, linked s k m) -> (exists m, linked s i m) ->
  linked s1 i j -> linked s2 i j.
Proof.
  intros P (A1 & A2 & _) (B1 & B2 & _) D (m & Lm) L.
  destruct (in_dec Pos.eq_dec i (touched l)) as [Hi|Hi].
  - unfold touched in Hi. apply in_app_or in Hi. destruct Hi as [Hi|Hi]; apply in_map_iff in Hi as ((a & b) & <- & Hp); cbn [fst snd] in *.
    + destruct (D b) as (bn & Lb); [unfold touched; apply in_or_app; right; exact (in_map snd _ _ Hp)|].
      destruct (A1 a b m bn Hp Lm Lb) as (G & _). replace j with bn by exact (linked_fun s1 a bn j G L).
      apply (B1 a b m bn); auto. apply (Permutation_in _ P Hp).
    + destruct (D a) as (an & La); [unfold touched; apply in_or_app; left; exact (in_map fst _ _ Hp)|].
      destruct (A1 a b an m Hp La Lm) as (_ & G). replace j with an by exact (linked_fun s1 b an j G L).
      apply (B1 a b an m); auto. apply (Permutation_in _ P Hp).
  - replace j with m. 2:{ exact (linked_fun s1 i m j (A2 i m Hi Lm) L). }
    apply B2; [|exact Lm]. intros H. apply Hi. apply (Permutation_in _ (Permutation_sym (touched_perm _ _ P)) H).
Qed.
Lemma chained_linked s1 s2 z : forall l a, (forall i j, In i (a :: l) -> linked s1 i j -> linked s2 i j) -> chained s1 a (l ++ [z]) -> chained s2 a (l ++ [z]).
Proof.
  induction l as [|b l IH]; intros a H (C1 & C2); (split; [apply H; [left; reflexivity|exact C1]|]); [exact I|].
  apply IH; [|exact C2]. intros i j Hi. apply H. right. exact Hi.
Qed.
Lemma circle_linked s1 s2 l : (forall i j, In i l -> linked s1 i j -> linked s2 i j) -> circle s1 l -> circle s2 l.
Proof. destruct l as [|a l]; [auto|]. intros H (N & C). split; [exact N|]. apply (chained_linked s1 s2 a l a); [exact H|exact C]. Qed.
Lemma circle_link s l i : circle s l -> In i l -> exists j, linked s i j /\ In j l.
Proof.
  intros C H. apply in_split in H as (l1 & l2 & ->). pose proof (circle_rotate s l1 (i :: l2) C) as C2. cbn [app] in C2. destruct C2 as (_ & C2).
  destruct (l2 ++ l1) as [|b m] eqn:E; cbn [app chained] in C2.
  - exists i. split; [apply C2|]. apply in_or_app. right. left. reflexivity.
  - exists b. split; [apply C2|]. assert (Hb : In b (l2 ++ l1)) by (rewrite E; left; reflexivity). apply in_app_or in Hb.
    apply in_or_app. destruct Hb; [right; right; assumption|left; assumption].
Qed.

(** ** Following the tour: all rings become one, and then two *)
Definition whole (s : st) (r : rid) : Prop := forall i, ring_of s i = Some r -> exists m, circle s (i :: m) /\ members s r (i :: m).
Lemma same_ring_of_v s s' i : same_vertices s s' -> ring_of s' i = ring_of s i.
Proof. intros V. apply (V i). Qed.
Lemma whole_frame s s' r (L : list nid) : whole s r -> same_vertices s s' -> only_vertices L s s' -> (forall i, In i L -> ring_of s i <> Some r) -> whole s' r.
Proof.
  intros W V O D i Ri. rewrite (same_ring_of_v _ _ i V) in Ri. destruct (W i Ri) as (m & C & M). exists m. split.
  - apply (circle_only s s' (i :: m) L C O). intros k Hk HL. apply (D k HL). apply M. exact Hk.
  - intros k. rewrite (same_ring_of_v _ _ k V). apply M.
Qed.
Ltac inn := repeat (progress (cbn [app In]; rewrite ?in_app_iff)).
Lemma tour_rest l : forall s o1 P a Q b x Y,
  circle s (o1 :: P ++ a :: Q ++ x :: Y) -> leads s b l x ->
  (forall i r, In i (o1 :: P ++ a :: Q ++ x :: Y) -> In r (map fst l) -> ring_of s i <> Some r) ->
  NoDup (map fst l) -> (forall r, In r (map fst l) -> whole s r) ->
  exists s' C1 C2, switches ((a, b) :: pairs_of l) s = Ok (tt, s') /\ circle s' C1 /\ circle s' C2 /\
    In o1 C1 /\ (forall q, In q Q -> In q C2) /\ same_vertices s s' /\
    (forall i, In i (C1 ++ C2) <-> In i (o1 :: P ++ a :: Q ++ x :: Y) \/ on_tour s l i) /\ NoDup (C1 ++ C2).
Proof.
  induction l as [|(r & a' & b') l IH]; intros s o1 P a Q b x Y C L D N W; cbn [leads map fst pairs_of] in *.
  - subst x. assert (C' : circle s (a :: Q ++ b :: (Y ++ o1 :: P))).
    { pose proof (circle_rotate s (o1 :: P) (a :: Q ++ b :: Y) C) as H. cbn [app] in H. rewrite <- app_assoc in H. exact H. }
    destruct (switch_nexts_split s a Q b (Y ++ o1 :: P) C') as (s' & E & K1 & K2 & V & B & O).
    exists s', (a :: Y ++ o1 :: P), (b :: Q). split; [unfold switches; cbn [forM fst snd]; rewrite (bind_run _ _ _ _ _ E); reflexivity|].
    split; [exact K1|]. split; [exact K2|]. split; [right; apply in_or_app; right; left; reflexivity|]. split; [intros q Hq; right; exact Hq|]. split; [exact V|].
    assert (PP : Permutation ((a :: Y ++ o1 :: P) ++ b :: Q) (o1 :: P ++ a :: Q ++ b :: Y)).
    { transitivity (a :: Q ++ b :: (Y ++ o1 :: P)).
      - transitivity ((b :: Q) ++ (a :: Y ++ o1 :: P)); [apply Permutation_app_comm|].
        transitivity ((Q ++ [b]) ++ (a :: Y ++ o1 :: P)); [apply Permutation_app_tail, Permutation_cons_append|].
        rewrite <- app_assoc. cbn [app]. change (a :: Q ++ b :: Y ++ o1 :: P) with ((a :: Q) ++ (b :: Y ++ o1 :: P)).
        transitivity (Q ++ a :: b :: (Y ++ o1 :: P)); [apply Permutation_app_head, perm_swap|].
        symmetry. cbn [app]. apply (Permutation_middle Q (b :: Y ++ o1 :: P) a).
      - transitivity ((a :: Q ++ b :: Y) ++ o1 :: P); [cbn [app]; rewrite <- app_assoc; reflexivity|]. apply (Permutation_app_comm (a :: Q ++ b :: Y) (o1 :: P)). }
    split.
    + intros i. split.
      * intros H. left. apply (Permutation_in _ PP H).
      * intros [H|(q & [] & _)]. apply (Permutation_in _ (Permutation_sym PP) H).
    + eapply Permutation_NoDup; [symmetry; exact PP|]. exact (circle_nodup _ _ C).
  - destruct L as (Rb & Ra & NE & L). inversion N as [|? ? N1 N2]; subst.
    destruct (W r (or_introl eq_refl) b Rb) as (m & Cm & Mm).
    assert (Ia : In a' m) by (destruct (proj1 (Mm a') Ra) as [H|H]; [congruence|exact H]).
    apply in_split in Ia as (X & Z & ->).
    assert (C' : circle s (a :: Q ++ x :: (Y ++ o1 :: P))).
    { pose proof (circle_rotate s (o1 :: P) (a :: Q ++ x :: Y) C) as H. cbn [app] in H. rewrite <- app_assoc in H. exact H. }
    assert (PM : Permutation (a :: Q ++ x :: (Y ++ o1 :: P)) (o1 :: P ++ a :: Q ++ x :: Y)).
    { transitivity ((a :: Q ++ x :: Y) ++ o1 :: P); [cbn [app]; rewrite <- app_assoc; reflexivity|]. apply (Permutation_app_comm (a :: Q ++ x :: Y) (o1 :: P)). }
    destruct (switch_nexts_merge s a (Q ++ x :: (Y ++ o1 :: P)) b (X ++ a' :: Z) C' Cm) as (s1 & E & K & V & B & O).
    { intros i Hi Hb. apply (D i r); [apply (Permutation_in _ PM Hi)|left; reflexivity|]. apply Mm. exact Hb. }
    assert (OM : forall i, In i (a :: (Q ++ x :: Y ++ o1 :: P) ++ b :: X ++ a' :: Z) -> In i (o1 :: P ++ a :: Q ++ x :: Y) \/ ring_of s i = Some r).
    { intros i Hi. change (In i ((a :: Q ++ x :: Y ++ o1 :: P) ++ b :: X ++ a' :: Z)) in Hi. apply in_app_or in Hi. destruct Hi as [Hi|Hi].
      - left. apply (Permutation_in _ PM Hi).
      - right. apply Mm. exact Hi. }
    assert (K' : circle s1 (o1 :: (P ++ a :: X) ++ a' :: (Z ++ b :: Q) ++ x :: Y)).
    { assert (Q1 : a :: (X ++ a' :: Z) ++ b :: Q ++ x :: Y ++ o1 :: P = (a :: X ++ a' :: (Z ++ b :: Q) ++ x :: Y) ++ o1 :: P).
      { cbn [app]. repeat (rewrite <- app_assoc; cbn [app]). reflexivity. }
      rewrite Q1 in K. apply circle_rotate in K. cbn [app] in K |- *. rewrite <- app_assoc. cbn [app]. exact K. }
    destruct (IH s1 o1 (P ++ a :: X) a' (Z ++ b :: Q) b' x Y K') as (s' & C1 & C2 & E2 & KC1 & KC2 & I1 & I2 & V2 & MM & ND).
    + clear - L V. revert b' L. induction l as [|(q & c & d) l IH]; intros e L; cbn [leads] in *; [exact L|].
      rewrite !(same_ring_of_v s s1) by exact V. destruct L as (A & B & C & L). repeat split; auto.
    + intros i q Hi Hq. rewrite (same_ring_of_v _ _ i V).
      assert (Hi' : In i (a :: (X ++ a' :: Z) ++ b :: Q ++ x :: Y ++ o1 :: P)).
      { revert Hi. inn. tauto. }
      assert (Hi2 : In i (o1 :: P ++ a :: Q ++ x :: Y) \/ ring_of s i = Some r).
      { apply OM. revert Hi'. inn. tauto. }
      destruct Hi2 as [Hi2|Hi2]; [apply (D i q Hi2); right; exact Hq|]. intros E3. apply N1. replace r with q by congruence. exact Hq.
    + exact N2.
    + intros q Hq. apply (whole_frame s s1 q _ (W q (or_intror Hq)) V O). intros i Hi E3. destruct (OM i Hi) as [H|H].
      * apply (D i q H); [right; exact Hq|exact E3].
      * apply N1. replace r with q by congruence. exact Hq.
    + exists s', C1, C2. split; [unfold switches in *; cbn [forM]; cbn [fst snd] in *; rewrite (bind_run _ _ _ _ _ E); exact E2|].
      split; [exact KC1|]. split; [exact KC2|]. split; [exact I1|]. split; [intros q Hq; apply I2; apply in_or_app; right; right; exact Hq|].
      split; [eapply same_vertices_trans; eassumption|]. split; [|exact ND].
      intros i. rewrite MM. split.
      * intros [H|(q & Hq & Rq)].
        -- assert (Hi : In i (a :: (Q ++ x :: Y ++ o1 :: P) ++ b :: X ++ a' :: Z)).
           { revert H. inn. tauto. }
           destruct (OM i Hi) as [G|G]; [left; exact G|right; exists r; split; [left; reflexivity|exact G]].
        -- right. exists q. split; [right; exact Hq|]. rewrite (same_ring_of_v _ _ i V) in Rq. exact Rq.
      * intros [H|(q & [<-|Hq] & Rq)].
        -- left. revert H. inn. tauto.
        -- left. apply Mm in Rq. revert Rq. inn. tauto.
        -- right. exists q. split; [exact Hq|]. rewrite (same_ring_of_v _ _ i V). exact Rq.
Qed.
Lemma tour_two s r o1 o2 t l : tour s ((r, (o1, o2)) :: t :: l) -> (forall q, In q (map fst ((r, (o1, o2)) :: t :: l)) -> whole s q) ->
  exists s' C1 C2, switches (pairs_of ((r, (o1, o2)) :: t :: l)) s = Ok (tt, s') /\ circle s' C1 /\ circle s' C2 /\
    In o1 C1 /\ In o2 C2 /\ same_vertices s s' /\
    (forall i, In i (C1 ++ C2) <-> on_tour s ((r, (o1, o2)) :: t :: l) i) /\ NoDup (C1 ++ C2).
Proof.
  destruct t as (r1 & a & b). intros (N & x & L) W. cbn [leads map fst] in *. destruct L as (Rx & Ro1 & NE & Ro2 & Ra & NE2 & L).
  inversion N as [|? ? N1 N2]; subst. inversion N2 as [|? ? N3 N4]; subst.
  assert (Nr : r <> r1) by (intros ->; apply N1; left; reflexivity).
  destruct (W r (or_introl eq_refl) o1 Ro1) as (m & Cm & Mm).
  assert (Ix : In x m) by (destruct (proj1 (Mm x) Rx) as [H|H]; [congruence|exact H]). apply in_split in Ix as (X0 & Y0 & ->).
  destruct (W r1 (or_intror (or_introl eq_refl)) o2 Ro2) as (m & Cm' & Mm').
  assert (Ia : In a m) by (destruct (proj1 (Mm' a) Ra) as [H|H]; [congruence|exact H]). apply in_split in Ia as (X1 & Y1 & ->).
  destruct (switch_nexts_merge s o1 (X0 ++ x :: Y0) o2 (X1 ++ a :: Y1) Cm Cm') as (s1 & E & K & V & B & O).
  { intros i Hi Hj. apply Mm in Hi. apply Mm' in Hj. congruence. }
  assert (Q1 : o1 :: (X1 ++ a :: Y1) ++ o2 :: X0 ++ x :: Y0 = o1 :: X1 ++ a :: (Y1 ++ o2 :: X0) ++ x :: Y0).
  { repeat (rewrite <- app_assoc; cbn [app]). reflexivity. }
  rewrite Q1 in K.
  assert (OM : forall i, In i (o1 :: X1 ++ a :: (Y1 ++ o2 :: X0) ++ x :: Y0) <-> ring_of s i = Some r \/ ring_of s i = Some r1).
  { intros i. rewrite (Mm i), (Mm' i). inn. tauto. }
  destruct (tour_rest l s1 o1 X1 a (Y1 ++ o2 :: X0) b x Y0 K) as (s' & C1 & C2 & E2 & KC1 & KC2 & I1 & I2 & V2 & MM & ND).
  - clear - L V. revert b L. induction l as [|(q & c & d) l IH]; intros e L; cbn [leads] in *; [exact L|].
    rewrite !(same_ring_of_v s s1) by exact V. destruct L as (A & B & C & L). repeat split; auto.
  - intros i q Hi Hq. rewrite (same_ring_of_v _ _ i V). apply OM in Hi. intros E3. destruct Hi as [Hi|Hi].
    + apply N1. right. replace r with q by congruence. exact Hq.
    + apply N3. replace r1 with q by congruence. exact Hq.
  - exact N4.
  - intros q Hq. apply (whole_frame s s1 q _ (W q (or_intror (or_intror Hq))) V O). intros i Hi E3.
    assert (Hi' : ring_of s i = Some r \/ ring_of s i = Some r1).
    { apply OM. rewrite <- Q1. revert Hi. inn. tauto. }
    destruct Hi' as [Hi'|Hi'].
    + apply N1. right. replace r with q by congruence. exact Hq.
    + apply N3. replace r1 with q by congruence. exact Hq.
  - exists s', C1, C2. split; [unfold switches, pairs_of in *; cbn [forM map fst snd] in *; rewrite (bind_run _ _ _ _ _ E); exact E2|].
    split; [exact KC1|]. split; [exact KC2|]. split; [exact I1|]. split; [apply I2; apply in_or_app; right; left; reflexivity|].
    split; [eapply same_vertices_trans; eassumption|]. split; [|exact ND].
    intros i. rewrite MM, OM. unfold on_tour. cbn [map fst]. split.
    + intros [[H|H]|(q & Hq & Rq)]; [exists r; split; [left; reflexivity|exact H]|exists r1; split; [right; left; reflexivity|exact H]|].
      exists q. rewrite (same_ring_of_v _ _ i V) in Rq. split; [right; right; exact Hq|exact Rq].
    + intros (q & [<-|[<-|Hq]] & Rq); [auto|auto|]. right. exists q. rewrite (same_ring_of_v _ _ i V). auto.
Qed.
