(** * The heap stays well ringed: removing collinear paths *)
From Coq Require Import ZArith List Bool Lia FMapPositive Permutation.
From Coq Require Import Floats.SpecFloat.
From RecordUpdate Require Import RecordSet.
From Verif Require Import Py Monad Utils Geometry LinearRingM BoundM LocalMinimumM
     StateM PointNodeM RingM SweepM TopologyM WagyuM HoareP SpecRing SpecHeap SpecRings SweepFrameP OrderP VatP FuelP PipP SortP
     CircleP HeapOpsP SplitP NodeFrameP RingedP RingedTopP RingedCutP.
Import ListNotations RecordSetNotations.
Open Scope Z_scope.

(** ** Detaching a path *)
Definition sring (s : st) (i : nid) (o : option rid) : st := put s i (fun n => n <| n_ring := o |>).
Lemma next_sring s i o j : n_next (node_at (sring s i o) j) = n_next (node_at s j).
Proof. unfold sring. rewrite node_at_put. destruct (Pos.eqb_spec i j) as [->|_]; reflexivity. Qed.
Lemma prev_sring s i o j : n_prev (node_at (sring s i o) j) = n_prev (node_at s j).
Proof. unfold sring. rewrite node_at_put. destruct (Pos.eqb_spec i j) as [->|_]; reflexivity. Qed.
Lemma ring_sring s i o j : ring_of (sring s i o) j = if Pos.eqb j i then o else ring_of s j.
Proof. unfold ring_of, sring. rewrite node_at_put, Pos.eqb_sym. destruct (Pos.eqb_spec j i) as [->|_]; reflexivity. Qed.
Lemma ring_snext s i o j : ring_of (snext s i o) j = ring_of s j.
Proof. apply (same_snext s i o j). Qed.
Lemma ring_sprev s i o j : ring_of (sprev s i o) j = ring_of s j.
Proof. apply (same_sprev s i o j). Qed.
Definition cut_off (s : st) (p i : nid) : st := sring (sprev (snext s p None) i None) i None.
Lemma detach_run s i p : n_prev (node_at s i) = Some p -> detach i s = Ok (n_next (node_at (snext s p None) i), cut_off s p i).
Proof.
  intros H. unfold detach. rewrite (bind_run _ _ _ _ _ (prev_of_run s i p H)).
  rewrite (bind_run _ _ _ _ _ (set_next_s s p None)), (bind_run _ _ _ _ _ (set_prev_s _ i None)).
  rewrite (bind_run _ _ _ tt (cut_off s p i)) by reflexivity. rewrite (bind_run _ _ _ _ _ (nd_run _ i)).
  unfold cut_off at 1. rewrite next_sring, next_sprev. reflexivity.
Qed.
Lemma detach_none s i x : n_prev (node_at s i) = None -> detach i s <> Ok x.
Proof. intros H. unfold detach, prev_of, bind, nd, gets. fold (node_at s i). rewrite H. discriminate. Qed.
Lemma sbn_cut_off s p i : same_but_nodes s (cut_off s p i).
Proof. destruct s; reflexivity. Qed.
(** the vertices of [m] leave; [p] was in front of them *)
Record detached (p : nid) (m : list nid) (s s' : st) : Prop := {
  dt_ring : forall j, ring_of s' j = if in_dec Pos.eq_dec j m then None else ring_of s j;
  dt_prev : forall j, n_prev (node_at s' j) = if in_dec Pos.eq_dec j m then None else n_prev (node_at s j);
  dt_next : forall j, n_next (node_at s' j) = if in_dec Pos.eq_dec j (p :: removelast m) then None else n_next (node_at s j);
  dt_sbn : same_but_nodes s s'
}.
Lemma detached_one s p c : detached p [c] s (cut_off s p c).
Proof.
  split.
  - intros j. unfold cut_off. rewrite ring_sring, ring_sprev, ring_snext. destruct (in_dec _ _ _) as [[->|[]]|I]; [rewrite Pos.eqb_refl; reflexivity|].
    destruct (Pos.eqb_spec j c) as [->|_]; [destruct I; left; reflexivity|reflexivity].
  - intros j. unfold cut_off. rewrite prev_sring, prev_sprev, prev_snext. destruct (in_dec _ _ _) as [[->|[]]|I]; [rewrite Pos.eqb_refl; reflexivity|].
    destruct (Pos.eqb_spec j c) as [->|_]; [destruct I; left; reflexivity|reflexivity].
  - intros j. unfold cut_off. rewrite next_sring, next_sprev, next_snext. cbn [removelast]. destruct (in_dec _ _ _) as [[->|[]]|I]; [rewrite Pos.eqb_refl; reflexivity|].
    destruct (Pos.eqb_spec j p) as [->|_]; [destruct I; left; reflexivity|reflexivity].
  - apply sbn_cut_off.
Qed.
Lemma detached_cons s s' p c d rest : detached c (d :: rest) (cut_off s p c) s' -> detached p (c :: d :: rest) s s'.
Proof.
  intros [A1 A2 A3 A4]. destruct (detached_one s p c) as [B1 B2 B3 B4]. cbn [removelast] in B3. split.
  - intros j. rewrite A1, B1. destruct (in_dec Pos.eq_dec j (d :: rest)) as [I|I]; [destruct (in_dec Pos.eq_dec j (c :: d :: rest)) as [J|J]; [reflexivity|destruct J; right; exact I]|].
    destruct (in_dec Pos.eq_dec j [c]) as [[->|[]]|K]; [destruct (in_dec _ _ _) as [J|J]; [reflexivity|destruct J; left; reflexivity]|].
    destruct (in_dec _ _ _) as [[->|J]|J]; [destruct K; left; reflexivity|contradiction|reflexivity].
  - intros j. rewrite A2, B2. destruct (in_dec Pos.eq_dec j (d :: rest)) as [I|I]; [destruct (in_dec Pos.eq_dec j (c :: d :: rest)) as [J|J]; [reflexivity|destruct J; right; exact I]|].
    destruct (in_dec Pos.eq_dec j [c]) as [[->|[]]|K]; [destruct (in_dec _ _ _) as [J|J]; [reflexivity|destruct J; left; reflexivity]|].
    destruct (in_dec _ _ _) as [[->|J]|J]; [destruct K; left; reflexivity|contradiction|reflexivity].
  - intros j. rewrite A3, B3. change (removelast (c :: d :: rest)) with (c :: removelast (d :: rest)).
    destruct (in_dec Pos.eq_dec j (c :: removelast (d :: rest))) as [I|I];
      [destruct (in_dec Pos.eq_dec j (p :: c :: removelast (d :: rest))) as [J|J]; [reflexivity|destruct J; right; exact I]|].
    destruct (in_dec Pos.eq_dec j [p]) as [[->|[]]|K]; [destruct (in_dec _ _ _) as [J|J]; [reflexivity|destruct J; left; reflexivity]|].
    destruct (in_dec _ _ _) as [[->|J]|J]; [destruct K; left; reflexivity|contradiction|reflexivity].
  - eapply same_but_nodes_trans; [exact B4|exact A4].
Qed.
Lemma in_removelast (m : list nid) j : In j (removelast m) -> In j m.
Proof. destruct m as [|a m]; [intros []|]. intros H. rewrite (app_removelast_last a (l := a :: m)) by discriminate. apply in_app_iff. left. exact H. Qed.
(** what remains of the path once its first vertex is cut off *)
Lemma cut_chain s p c d rest : chained (snext s p None) c (d :: rest) -> NoDup (c :: d :: rest) ->
  n_prev (node_at (cut_off s p c) d) = Some c /\ chained (snext (cut_off s p c) c None) d rest /\
  n_next (node_at (snext (cut_off s p c) c None) (List.last rest d)) = n_next (node_at (snext s p None) (List.last (d :: rest) c)).
Proof.
  intros ((L1 & L2) & C) ND. inversion ND as [|? ? Hc ND']. subst.
  assert (N : forall j, In j (d :: rest) -> Pos.eqb j c = false) by (intros j J; apply Pos.eqb_neq; intros ->; contradiction).
  split; [|split].
  - unfold cut_off. rewrite prev_sring, prev_sprev. rewrite (N d) by (left; reflexivity). exact L2.
  - revert C. apply chained_frame.
    + rewrite next_snext. rewrite (N d) by (left; reflexivity). unfold cut_off. rewrite next_sring, next_sprev. reflexivity.
    + intros j J. rewrite prev_snext. unfold cut_off. rewrite prev_sring, prev_sprev. rewrite (N j) by (right; exact J). reflexivity.
    + intros j J. rewrite next_snext.
      assert (In j (d :: rest)). { right. apply in_removelast. exact J. }
      rewrite (N j) by assumption. unfold cut_off. rewrite next_sring, next_sprev. reflexivity.
  - rewrite last_cons_hd, next_snext. rewrite (N (List.last rest d)) by apply CircleP.last_in. unfold cut_off. rewrite next_sring, next_sprev. reflexivity.
Qed.
Definition do_body (stop : nid) (i : nid) : prog (nid + unit) :=
  bind (detach i) (fun n => match n with None => ret (inr tt) | Some j => ret (if Pos.eqb j stop then inr tt else inl j) end).
Lemma detach_do_run stop fuel : forall rest c p s u s', n_prev (node_at s c) = Some p ->
  chained (snext s p None) c rest -> NoDup (c :: rest) ->
  n_next (node_at (snext s p None) (List.last rest c)) = None \/ n_next (node_at (snext s p None) (List.last rest c)) = Some stop ->
  ~ In stop rest -> loopM fuel (do_body stop) c s = Ok (u, s') -> detached p (c :: rest) s s'.
Proof.
  induction fuel as [|fuel IH]; intros rest c p s u s' HP C ND HE NS E; [discriminate|]. rewrite loopM_S in E.
  assert (B : do_body stop c s = match n_next (node_at (snext s p None) c) with None => ret (inr tt) | Some j => ret (if Pos.eqb j stop then inr tt else inl j) end (cut_off s p c)).
  { unfold do_body. rewrite (bind_run _ _ _ _ _ (detach_run s c p HP)). reflexivity. }
  rewrite B in E. clear B. destruct rest as [|d rest].
  - cbn [List.last] in HE. destruct HE as [HE|HE]; rewrite HE in E; [|rewrite Pos.eqb_refl in E]; injection E as <- <-; apply detached_one.
  - pose proof (cut_chain s p c d rest C ND) as (P1 & C1 & L1). destruct C as ((L & _) & _). rewrite L in E.
    destruct (Pos.eqb_spec d stop) as [->|Nd]; [destruct NS; left; reflexivity|]. cbn in E. inversion ND as [|? ? _ ND']. subst.
    apply detached_cons. apply (IH rest d c (cut_off s p c) u s' P1 C1 ND'); [|intros I; apply NS; right; exact I|exact E].
    rewrite L1. exact HE.
Qed.
Definition until_body (stop : option nid) (itr : option nid) : prog (option nid + unit) :=
  if opt_is itr stop then ret (inr tt) else bind (deref itr) (fun i => bind (detach i) (fun n => ret (inl n))).
Lemma until_stop stop fuel u s s' : loopM fuel (until_body stop) stop s = Ok (u, s') -> s' = s.
Proof.
  destruct fuel as [|fuel]; [discriminate|]. rewrite loopM_S. unfold until_body at 1.
  assert (opt_is stop stop = true) as -> by (destruct stop; [apply Pos.eqb_refl|reflexivity]). intros E. injection E as _ <-. reflexivity.
Qed.
Lemma detach_until_run stop fuel : forall rest c p s u s', n_prev (node_at s c) = Some p ->
  chained (snext s p None) c rest -> NoDup (c :: rest) ->
  n_next (node_at (snext s p None) (List.last rest c)) = stop ->
  (forall x, stop = Some x -> ~ In x (c :: rest)) -> loopM fuel (until_body stop) (Some c) s = Ok (u, s') -> detached p (c :: rest) s s'.
Proof.
  induction fuel as [|fuel IH]; intros rest c p s u s' HP C ND HE NS E; [discriminate|]. rewrite loopM_S in E.
  assert (T : opt_is (Some c) stop = false).
  { destruct stop as [x|]; [|reflexivity]. cbn. apply Pos.eqb_neq. intros ->. apply (NS x eq_refl). left. reflexivity. }
  assert (B : until_body stop (Some c) s = Ok (inl (n_next (node_at (snext s p None) c)), cut_off s p c)).
  { unfold until_body. rewrite T. rewrite (bind_run _ _ _ c s) by reflexivity. rewrite (bind_run _ _ _ _ _ (detach_run s c p HP)). reflexivity. }
  rewrite B in E. clear B. destruct rest as [|d rest].
  - cbn [List.last] in HE. rewrite HE in E. apply until_stop in E. subst s'. apply detached_one.
  - pose proof (cut_chain s p c d rest C ND) as (P1 & C1 & L1). destruct C as ((L & _) & _). rewrite L in E. inversion ND as [|? ? _ ND']. subst.
    apply detached_cons. apply (IH rest d c (cut_off s p c) u s' P1 C1 ND'); [|intros x X I; apply (NS x X); right; exact I|exact E].
    exact L1.
Qed.
(** what is needed of a circle to detach its beginning *)
Lemma circle_path s x K e D : circle s (x :: K ++ e :: D) ->
  n_prev (node_at s x) = Some (List.last D e) /\ chained (snext s (List.last D e) None) x K /\ NoDup (x :: K) /\
  n_next (node_at (snext s (List.last D e) None) (List.last K x)) = Some e /\ ~ In e (x :: K).
Proof.
  intros C. pose proof C as (ND & CH). pose proof (circle_last _ _ _ C) as (_ & L). rewrite last_last_app in L.
  apply (nodup_app (x :: K) (e :: D)) in ND as (N1 & N2 & A).
  rewrite <- app_assoc in CH. cbn [app] in CH. apply chained_app in CH as (CH & _).
  assert (P : forall j, In j (x :: K) -> Pos.eqb j (List.last D e) = false).
  { intros j J. apply Pos.eqb_neq. intros ->. apply (A _ J). apply CircleP.last_in. }
  split; [exact L|]. split; [|split; [exact N1|split]].
  - assert (CH' : chained s x K). { clear - CH. revert x CH. induction K as [|b K IH]; intros x; [intros _; exact I|]. intros (H & K'). split; [exact H|]. apply IH. exact K'. }
    revert CH'. apply chained_frame.
    + rewrite next_snext, P by (left; reflexivity). reflexivity.
    + intros j J. rewrite prev_snext. reflexivity.
    + intros j J. rewrite next_snext, P by (right; apply in_removelast; exact J). reflexivity.
  - rewrite next_snext, P by apply CircleP.last_in. apply (chained_last _ _ _ _ CH).
  - intros I. apply (A e I). left. reflexivity.
Qed.
(** a whole circle *)
Lemma circle_whole s x K : circle s (x :: K) ->
  n_prev (node_at s x) = Some (List.last K x) /\ chained (snext s (List.last K x) None) x K /\ NoDup (x :: K) /\
  n_next (node_at (snext s (List.last K x) None) (List.last K x)) = None.
Proof.
  intros C. pose proof C as (ND & CH). pose proof (circle_last _ _ _ C) as (_ & L). split; [exact L|]. split; [|split; [exact ND|]].
  - destruct K as [|z K _] using rev_ind; [exact I|]. rewrite last_last. rewrite <- app_assoc in CH. cbn [app] in CH.
    apply chained_app in CH as (CH & _). apply (nodup_app (x :: K) [z]) in ND as (_ & _ & A).
    assert (P : forall j, In j (x :: K) -> Pos.eqb j z = false) by (intros j J; apply Pos.eqb_neq; intros ->; apply (A _ J); left; reflexivity).
    revert CH. apply chained_frame.
    + rewrite next_snext, P by (left; reflexivity). reflexivity.
    + intros j J. rewrite prev_snext. reflexivity.
    + intros j J. rewrite removelast_last in J. rewrite next_snext, P by (right; exact J). reflexivity.
  - rewrite next_snext, Pos.eqb_refl. reflexivity.
Qed.
(** links of the vertices that stay *)
Lemma dt_in p m s s' j : detached p m s s' -> In j m -> ring_of s' j = None /\ n_prev (node_at s' j) = None.
Proof. intros [A B _ _] I. rewrite A, B. destruct (in_dec _ _ _); [auto|contradiction]. Qed.
Lemma dt_out p m s s' j : detached p m s s' -> ~ In j m -> ring_of s' j = ring_of s j /\ n_prev (node_at s' j) = n_prev (node_at s j).
Proof. intros [A B _ _] I. rewrite A, B. destruct (in_dec _ _ _); [contradiction|auto]. Qed.
Lemma dt_next_out p m s s' j : detached p m s s' -> j <> p -> ~ In j m -> n_next (node_at s' j) = n_next (node_at s j).
Proof. intros [_ _ A _] N I. rewrite A. destruct (in_dec _ _ _) as [[->|J]|J]; [congruence| |reflexivity]. destruct I. apply in_removelast. exact J. Qed.
Lemma dt_next_p p m s s' : detached p m s s' -> n_next (node_at s' p) = None.
Proof. intros [_ _ A _]. rewrite A. destruct (in_dec _ _ _) as [J|J]; [reflexivity|]. destruct J. left. reflexivity. Qed.
Definition slink (s : st) (p e : nid) : st := sprev (snext s p (Some e)) e (Some p).
Lemma link_run s p e : link p e s = Ok (tt, slink s p e). Proof. reflexivity. Qed.
Lemma next_slink s p e j : n_next (node_at (slink s p e) j) = if Pos.eqb j p then Some e else n_next (node_at s j).
Proof. unfold slink. rewrite next_sprev, next_snext. reflexivity. Qed.
Lemma prev_slink s p e j : n_prev (node_at (slink s p e) j) = if Pos.eqb j e then Some p else n_prev (node_at s j).
Proof. unfold slink. rewrite prev_sprev, prev_snext. reflexivity. Qed.
Lemma ring_slink s p e j : ring_of (slink s p e) j = ring_of s j.
Proof. unfold slink. rewrite ring_sprev, ring_snext. reflexivity. Qed.
Lemma sbn_slink s p e : same_but_nodes s (slink s p e). Proof. destruct s; reflexivity. Qed.
Lemma eqb_no (a b : nid) : a <> b -> Pos.eqb a b = false. Proof. apply Pos.eqb_neq. Qed.
(** [e :: D] closed on itself after its surroundings were detached *)
Lemma close_circle s s' e D x : chained s e (D ++ [x]) -> NoDup (e :: D) ->
  (forall j, In j D -> n_prev (node_at s' j) = n_prev (node_at s j)) ->
  (forall j, In j (e :: D) -> j <> List.last D e -> n_next (node_at s' j) = n_next (node_at s j)) ->
  linked s' (List.last D e) e -> circle s' (e :: D).
Proof. intros C N P X L. split; [exact N|]. eapply chain_redirect; eassumption. Qed.

(** ** Ring-level bookkeeping *)
Definition outside (l : list nid) (s s' : st) : Prop :=
  forall j, ~ In j l -> n_next (node_at s' j) = n_next (node_at s j) /\ n_prev (node_at s' j) = n_prev (node_at s j).
Definition killed (m : list nid) (s s' : st) : Prop :=
  forall j, ring_of s' j = if in_dec Pos.eq_dec j m then None else ring_of s j.
Lemma outside_circle l s s' c : outside l s s' -> (forall i, In i c -> ~ In i l) -> circle s c -> circle s' c.
Proof. intros O D. apply circle_frame. intros i I. apply O. apply D. exact I. Qed.
Lemma killed_in m s s' j q : killed m s s' -> ring_of s' j = Some q -> ring_of s j = Some q /\ ~ In j m.
Proof. intros K. rewrite (K j). destruct (in_dec _ _ _); [discriminate|auto]. Qed.
Lemma killed_out m s s' j q : killed m s s' -> ring_of s j = Some q -> ~ In j m -> ring_of s' j = Some q.
Proof. intros K H N. rewrite (K j). destruct (in_dec _ _ _); [contradiction|auto]. Qed.
Lemma killed_other s s' r l m q k : members s r l -> (forall j, In j m -> In j l) -> killed m s s' -> q <> r -> members s q k -> members s' q k.
Proof.
  intros M I K Q Mk j. split.
  - intros H. apply (killed_in m s s' j q K) in H as (H & _). apply Mk. exact H.
  - intros H. apply Mk in H. apply (killed_out m s s' j q K H). intros J. apply I in J. apply M in J. congruence.
Qed.
(** one circle of [r] stays *)
Lemma but_shrunk s s' r l m l' : well_ringed s -> members s r l -> (forall j, In j m -> In j l) ->
  killed m s s' -> outside l s s' -> same_but_nodes s s' -> (forall j, In j l' <-> In j l /\ ~ In j m) -> l' = [] \/ circle s' l' ->
  well_but (eq r) s' /\ members s' r l'.
Proof.
  intros W M I K O SB L C. destruct (sbn_next _ _ SB) as (Hn & Hr & _).
  assert (ML : members s' r l').
  { intros j. rewrite (L j). split.
    - intros H. apply (killed_in m s s' j r K) in H as (H & N). split; [apply M; exact H|exact N].
    - intros (H & N). apply (killed_out m s s' j r K); [apply M; exact H|exact N]. }
  split; [|exact ML]. split.
  - intros q. destruct (Pos.eq_dec q r) as [->|Q]; [exists l'; auto|]. destruct (wr_circles s W q) as (k & Mk & Ck). exists k.
    split; [apply (killed_other s s' r l m); assumption|]. destruct Ck as [Ck|Ck]; [auto|right]. apply (outside_circle l s s'); auto.
    intros i J J'. apply Mk in J. apply M in J'. congruence.
  - intros q n Q. rewrite (sbn_first _ _ _ SB). intros F. pose proof (wr_first s W q n F) as H. apply (killed_out m s s' n q K H).
    intros J. apply I in J. apply M in J. congruence.
  - intros i q H. rewrite Hn, Hr. apply (killed_in m s s' i q K) in H as (H & _). apply (wr_known s W i q H).
Qed.
(** two circles of [r] stay *)
Lemma split_shrunk s s' r l m D H : well_ringed s -> members s r l -> (forall j, In j m -> In j l) ->
  killed m s s' -> outside l s s' -> same_but_nodes s s' -> (forall j, In j (D ++ H) <-> In j l /\ ~ In j m) ->
  circle s' D -> circle s' H -> (forall j, In j D -> ~ In j H) -> split_in r D H s'.
Proof.
  intros W M I K O SB L CD CH A. destruct (sbn_next _ _ SB) as (Hn & Hr & _). split; auto.
  - intros j. rewrite (L j). split.
    + intros X. apply (killed_in m s s' j r K) in X as (X & N). split; [apply M; exact X|exact N].
    + intros (X & N). apply (killed_out m s s' j r K); [apply M; exact X|exact N].
  - intros q Q. destruct (wr_circles s W q) as (k & Mk & Ck). exists k.
    split; [apply (killed_other s s' r l m); assumption|]. destruct Ck as [Ck|Ck]; [auto|right]. apply (outside_circle l s s'); auto.
    intros i J J'. apply Mk in J. apply M in J'. congruence.
  - intros q n Q. rewrite (sbn_first _ _ _ SB). intros F. pose proof (wr_first s W q n F) as X. apply (killed_out m s s' n q K X).
    intros J. apply I in J. apply M in J. congruence.
  - intros i q X. rewrite Hn, Hr. apply (killed_in m s s' i q K) in X as (X & _). apply (wr_known s W i q X).
Qed.
(** what stays of two rings is on one circle, or nothing stays *)
Record pooled (k r : rid) (l : list nid) (s : st) : Prop := {
  po_neq : k <> r;
  po_in : forall i, In i l <-> ring_of s i = Some k \/ ring_of s i = Some r;
  po_circle : l = [] \/ circle s l;
  po_circles : forall q, q <> k -> q <> r -> exists m, members s q m /\ (m = [] \/ circle s m);
  po_first : forall q n, q <> k -> q <> r -> first_of s q = Some n -> ring_of s n = Some q;
  po_known : forall i q, ring_of s i = Some q -> (i < s_nnext s)%positive /\ (q < s_rnext s)%positive;
  po_lt : (k < s_rnext s)%positive /\ (r < s_rnext s)%positive
}.
Lemma pooled_sym k r l s : pooled k r l s -> pooled r k l s.
Proof.
  intros [A1 A2 A3 A4 A5 A6 A7]. split; auto.
  - intros i. rewrite A2. tauto.
  - tauto.
Qed.
Lemma pooled_shrunk s s' k r l1 l2 m l' : well_ringed s -> k <> r -> members s k l1 -> members s r l2 -> l1 <> [] -> l2 <> [] ->
  (forall j, In j m -> In j (l1 ++ l2)) -> killed m s s' -> outside (l1 ++ l2) s s' -> same_but_nodes s s' ->
  (forall j, In j l' <-> In j (l1 ++ l2) /\ ~ In j m) -> l' = [] \/ circle s' l' -> pooled k r l' s'.
Proof.
  intros W N M1 M2 E1 E2 I K O SB L C. destruct (sbn_next _ _ SB) as (Hn & Hr & _).
  assert (IN : forall j, In j (l1 ++ l2) <-> ring_of s j = Some k \/ ring_of s j = Some r).
  { intros j. rewrite in_app_iff, <- (M1 j), <- (M2 j). tauto. }
  split; auto.
  - intros j. rewrite (L j), IN. split.
    + intros ([H|H] & X); [left|right]; apply (killed_out m s s' j _ K H X).
    + intros [H|H]; apply (killed_in m s s' j _ K) in H as (H & X); auto.
  - intros q Q1 Q2. destruct (wr_circles s W q) as (c & Mc & Cc). exists c. split.
    + intros j. split.
      * intros H. apply (killed_in m s s' j q K) in H as (H & _). apply Mc. exact H.
      * intros H. apply Mc in H. apply (killed_out m s s' j q K H). intros J. apply I in J. apply IN in J as [J|J]; congruence.
    + destruct Cc as [Cc|Cc]; [auto|right]. apply (outside_circle (l1 ++ l2) s s'); auto. intros i J J'. apply Mc in J. apply IN in J' as [J'|J']; congruence.
  - intros q n Q1 Q2. rewrite (sbn_first _ _ _ SB). intros F. pose proof (wr_first s W q n F) as X. apply (killed_out m s s' n q K X).
    intros J. apply I in J. apply IN in J as [J|J]; congruence.
  - intros i q X. rewrite Hn, Hr. apply (killed_in m s s' i q K) in X as (X & _). apply (wr_known s W i q X).
  - rewrite Hr. split.
    + destruct l1 as [|a l1]; [congruence|]. apply (wr_known s W a k). apply M1. left. reflexivity.
    + destruct l2 as [|a l2]; [congruence|]. apply (wr_known s W a r). apply M2. left. reflexivity.
Qed.
Lemma pooled_same k r l s s' : same_ringed s s' -> pooled k r l s -> pooled k r l s'.
Proof.
  intros S [A1 A2 A3 A4 A5 A6 A7]. pose proof S as (_ & Hn & Hr & _). split; auto.
  - intros i. rewrite (same_ring_of _ _ _ S). apply A2.
  - destruct A3; [auto|right; apply (same_circle s); assumption].
  - intros q Q1 Q2. destruct (A4 q Q1 Q2) as (m & M & C). exists m. split; [apply (same_members s); assumption|].
    destruct C; [auto|right; apply (same_circle s); assumption].
  - intros q n. rewrite (same_first _ _ _ S), (same_ring_of _ _ _ S). apply A5.
  - intros i q. rewrite (same_ring_of _ _ _ S), Hn, Hr. apply A6.
  - rewrite Hr. exact A7.
Qed.
Lemma pooled_nil k r s : pooled k r [] s -> well_but (fun q => q = k \/ q = r) s.
Proof.
  intros [A1 A2 A3 A4 A5 A6 A7]. split; auto.
  - intros q. destruct (Pos.eq_dec q k) as [->|Q1]; [|destruct (Pos.eq_dec q r) as [->|Q2]]; [exists []|exists []|apply A4; assumption];
      (split; [|auto]); intros i; (split; [|intros []]); intros H; apply (A2 i); auto.
Qed.
Lemma pooled_relabel k r n l s fuel u s' : pooled k r l s -> In n l -> first_of s k = Some n -> update_points fuel k s = Ok (u, s') ->
  well_but (eq r) s' /\ ring_of s' n = Some k.
Proof.
  intros [A1 A2 A3 A4 A5 A6 A7] I F E. destruct A3 as [->|C]; [destruct I|].
  assert (exists m, circle s (n :: m) /\ forall i, In i (n :: m) <-> ring_of s i = Some k \/ ring_of s i = Some r) as (m & C' & M).
  { apply in_split in I as (l1 & l2 & ->). exists (l2 ++ l1). split; [apply (circle_rotate s l1 (n :: l2)); exact C|].
    intros i. rewrite <- (A2 i). change (n :: l2 ++ l1) with ((n :: l2) ++ l1). rewrite !in_app_iff. tauto. }
  destruct (relabel s k n m fuel u s' C' F E) as (O & SB).
  assert (U := fun i => owned_ring k (n :: m) s s' i O). destruct (sbn_next _ _ SB) as (Hn & Hr & _).
  assert (CC : forall l, circle s l -> circle s' l) by (intros x; apply (owned_circle k (n :: m)); exact O).
  assert (NI : ring_of s' n = Some k).
  { rewrite U. destruct (in_dec _ _ _) as [J|J]; [reflexivity|]. destruct J. left. reflexivity. }
  split; [split|exact NI].
  - intros q. destruct (Pos.eq_dec q k) as [->|Q1]; [|destruct (Pos.eq_dec q r) as [->|Q2]].
    + exists (n :: m). split; [|right; apply CC; exact C']. intros i. rewrite U. destruct (in_dec _ _ _) as [J|J]; [tauto|].
      split; [|tauto]. intros H. destruct J. apply M. auto.
    + exists []. split; [|auto]. intros i. rewrite U. destruct (in_dec _ _ _) as [J|J]; (split; [|intros []]); [congruence|].
      intros H. apply J. apply M. auto.
    + destruct (A4 q Q1 Q2) as (x & Mx & Cx). exists x. split; [|destruct Cx; auto]. intros i. rewrite U, <- (Mx i).
      destruct (in_dec _ _ _) as [J|J]; [|tauto]. split; [congruence|]. intros H. apply M in J as [J|J]; congruence.
  - intros q x Q. rewrite (sbn_first _ _ _ SB). intros H. destruct (Pos.eq_dec q k) as [->|Q1].
    + rewrite F in H. injection H as <-. exact NI.
    + pose proof (A5 q x Q1 (fun e => Q (eq_sym e)) H) as H'. rewrite U. destruct (in_dec _ _ _) as [J|J]; [|exact H']. apply M in J as [J|J]; congruence.
  - intros i q. rewrite U, Hn, Hr. destruct (in_dec _ _ _) as [J|J]; [|apply A6]. intros H. injection H as <-. split; [|apply A7].
    apply M in J as [J|J]; apply (A6 i _ J).
Qed.
Lemma pooled_rput k r l s f : pooled k r l s -> pooled k r l (rput s k f).
Proof.
  intros [A1 A2 A3 A4 A5 A6 A7].
  assert (C : forall l, circle s l -> circle (rput s k f) l) by (intros x; apply circle_same; reflexivity). split; auto.
  - destruct A3; auto.
  - intros p P1 P2. destruct (A4 p P1 P2) as (x & M & K). exists x. split; [exact M|]. destruct K; auto.
  - intros p n P1 P2. rewrite first_rput. destruct (Pos.eqb_spec k p); [congruence|]. apply A5; assumption.
Qed.
Lemma remove_ring_first fuel d r b : tri (fun _ => True) (remove_ring fuel d r false b) (fun _ s => first_of s r = None).
Proof.
  destruct d as [|d]; cbn [remove_ring]; [apply tri_nofuel|].
  eapply tri_bind with (Q := fun _ _ => True); [intros ? ? ? _ _; exact I|]. intros ?.
  eapply tri_bind with (Q := fun _ _ => True); [intros ? ? ? _ _; exact I|]. intros ?.
  eapply tri_bind with (Q := fun _ s => first_of s r = None).
  { intros s u s' _ E. rewrite upd_ring_rput in E. injection E as <- <-. rewrite first_rput, Pos.eqb_refl. reflexivity. }
  intros ?. apply tri_same; [nf_auto|]. intros s s' S. rewrite (same_first _ _ _ S). auto.
Qed.
Lemma tri_remove_one (X : rid -> Prop) fuel d r b : tri (well_but (fun q => X q \/ q = r)) (remove_ring fuel d r false b) (fun _ => well_but X).
Proof.
  intros s u s' W E. pose proof (remove_ring_first fuel d r b s u s' Logic.I E) as F.
  pose proof (dr_remove_ring fuel d (eq r) r b eq_refl s u s' E) as D. destruct (but_drops _ _ _ _ D W) as [A B C]. split; auto.
  intros q n Q H. apply B; [|exact H]. intros [K| ->]; [auto|congruence].
Qed.
