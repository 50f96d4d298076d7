(** * Vertex rings: circular doubly linked lists *)
From Coq Require Import ZArith List Bool Lia FMapPositive Permutation.
From Coq Require Import Floats.SpecFloat.
From RecordUpdate Require Import RecordSet.
From Verif Require Import Py Monad Utils Geometry LinearRingM BoundM LocalMinimumM StateM
     PointNodeM RingM SweepM HoareP SweepFrameP CalmP SpecHeap.
Import ListNotations RecordSetNotations.
Open Scope Z_scope.

(** ** Reading the heap after an update *)
Lemma node_at_upd s i f j :
  node_at (s <| s_nodes := hset (s_nodes s) i (f (hget dummy_node (s_nodes s) i)) |>) j =
  if Pos.eqb i j then f (node_at s i) else node_at s j.
Proof. unfold node_at. cbn. rewrite hget_hset. reflexivity. Qed.
Lemma upd_node_run i f s : upd_node i f s =
  Ok (tt, s <| s_nodes := hset (s_nodes s) i (f (hget dummy_node (s_nodes s) i)) |>).
Proof. reflexivity. Qed.
Definition put (s : st) (i : nid) (f : node -> node) : st :=
  s <| s_nodes := hset (s_nodes s) i (f (hget dummy_node (s_nodes s) i)) |>.
Lemma upd_node_put i f s : upd_node i f s = Ok (tt, put s i f). Proof. reflexivity. Qed.
Lemma node_at_put s i f j : node_at (put s i f) j = if Pos.eqb i j then f (node_at s i) else node_at s j.
Proof. apply node_at_upd. Qed.
Lemma node_at_put_eq s i f : node_at (put s i f) i = f (node_at s i).
Proof. rewrite node_at_put, Pos.eqb_refl. reflexivity. Qed.
Lemma node_at_put_neq s i f j : i <> j -> node_at (put s i f) j = node_at s j.
Proof. intros N. rewrite node_at_put. apply Pos.eqb_neq in N. rewrite N. reflexivity. Qed.

(** ** Chains *)
Lemma nodup_app {A} (l1 l2 : list A) : NoDup (l1 ++ l2) <-> NoDup l1 /\ NoDup l2 /\ (forall i, In i l1 -> ~ In i l2).
Proof.
  induction l1 as [|a l1 IH]; cbn.
  - split; [intros H; split; [constructor|split; [exact H|intros i []]]|intros (_ & H & _); exact H].
  - rewrite !NoDup_cons_iff, in_app_iff, IH. split.
    + intros (H & N1 & N2 & D). split; [split; [tauto|exact N1]|]. split; [exact N2|]. intros i [<-|Hi]; [tauto|apply D; exact Hi].
    + intros ((H & N1) & N2 & D). split; [intros [I|I]; [contradiction|apply (D a); [left; reflexivity|exact I]]|].
      split; [exact N1|]. split; [exact N2|]. intros i Hi. apply D. right. exact Hi.
Qed.
Lemma chained_app s a l1 b l2 : chained s a (l1 ++ b :: l2) <-> chained s a (l1 ++ [b]) /\ chained s b l2.
Proof.
  revert a. induction l1 as [|c l1 IH]; intros a; cbn; [tauto|]. rewrite (IH c). tauto.
Qed.
Lemma circle_nodup s l : circle s l -> NoDup l.
Proof. destruct l; [contradiction|]. intros (H & _). exact H. Qed.
Lemma circle_rotate s l1 l2 : circle s (l1 ++ l2) -> circle s (l2 ++ l1).
Proof.
  destruct l1 as [|a l1]; [rewrite app_nil_r; auto|]. destruct l2 as [|b l2]; [rewrite app_nil_r; auto|].
  cbn [app circle]. intros (N & C). split.
  - apply (Permutation_NoDup (l := (a :: l1) ++ b :: l2)); [apply Permutation_app_comm|exact N].
  - rewrite <- app_assoc in C. cbn [app] in C. apply chained_app in C as (C1 & C2).
    rewrite <- app_assoc. cbn [app]. apply chained_app. split; [|exact C1]. exact C2.
Qed.
(** the nodes that a chain reads *)
Lemma chained_frame s s' a l :
  n_next (node_at s' a) = n_next (node_at s a) ->
  (forall i, In i l -> n_prev (node_at s' i) = n_prev (node_at s i)) ->
  (forall i, In i (removelast l) -> n_next (node_at s' i) = n_next (node_at s i)) ->
  chained s a l -> chained s' a l.
Proof.
  revert a. induction l as [|b l IH]; intros a Ha Hp Hn; [auto|]. intros ((L1 & L2) & C). split.
  - split; [congruence|]. rewrite Hp by (left; reflexivity). exact L2.
  - destruct l as [|c l]; [exact I|]. apply IH; auto.
    + apply Hn. left. reflexivity.
    + intros i Hi. apply Hp. right. exact Hi.
    + intros i Hi. apply Hn. right. exact Hi.
Qed.
Lemma circle_frame s s' l :
  (forall i, In i l -> n_next (node_at s' i) = n_next (node_at s i) /\ n_prev (node_at s' i) = n_prev (node_at s i)) ->
  circle s l -> circle s' l.
Proof.
  intros H. destruct l as [|a l]; [auto|]. intros (N & C). split; [exact N|].
  revert C. apply chained_frame.
  - apply H. left. reflexivity.
  - intros i Hi. apply H. apply in_app_or in Hi as [Hi|[<-|[]]]; [right|left]; auto.
  - intros i Hi. rewrite removelast_last in Hi. apply H. right. exact Hi.
Qed.
Lemma circle_only s s' l m : circle s l -> only_vertices m s s' -> (forall i, In i l -> ~ In i m) -> circle s' l.
Proof. intros C O D. revert C. apply circle_frame. intros i Hi. rewrite O by auto. auto. Qed.
Lemma chained_prev_in s a l i : chained s a l -> In i l -> exists j, n_prev (node_at s i) = Some j /\ In j (a :: l).
Proof.
  revert a. induction l as [|b l IH]; intros a C Hi; [destruct Hi|]. destruct C as ((_ & P) & C). destruct Hi as [<-|Hi].
  - exists a. split; [exact P|left; reflexivity].
  - destruct (IH b C Hi) as (j & E & J). exists j. split; [exact E|right; exact J].
Qed.
Lemma chained_next_in s a l i : chained s a l -> In i (a :: removelast l) -> l <> [] -> exists j, n_next (node_at s i) = Some j /\ In j l.
Proof.
  revert a. induction l as [|b l IH]; intros a C Hi N; [contradiction|]. destruct C as ((P & _) & C). destruct Hi as [<-|Hi].
  - exists b. split; [exact P|left; reflexivity].
  - destruct l as [|c l]; [destruct Hi|]. change (removelast (b :: c :: l)) with (b :: removelast (c :: l)) in Hi.
    destruct (IH b C Hi ltac:(discriminate)) as (j & E & J). exists j. split; [exact E|right; exact J].
Qed.

(** the last element *)
Lemma chained_last s a l b : chained s a (l ++ [b]) -> linked s (List.last l a) b.
Proof.
  destruct l as [|c l _] using rev_ind; intros C; [apply C|]. rewrite last_last.
  rewrite <- app_assoc in C. cbn [app] in C. apply chained_app in C as (_ & C). apply C.
Qed.
Lemma circle_last s a l : circle s (a :: l) -> linked s (List.last l a) a.
Proof. intros (_ & C). apply chained_last. exact C. Qed.
Lemma last_in (a : nid) l : In (List.last l a) (a :: l).
Proof. destruct l as [|c l _] using rev_ind; [left; reflexivity|]. rewrite last_last. right. apply in_or_app. right. left. reflexivity. Qed.

(** ** Walking along a direction *)
Fixpoint dpath (dir : node -> option nid) (s : st) (c : nid) (rest : list nid) (start : nid) : Prop :=
  match rest with
  | [] => dir (node_at s c) = Some start
  | d :: rest' => dir (node_at s c) = Some d /\ dpath dir s d rest' start
  end.
Lemma dpath_next s c l a : chained s c (l ++ [a]) -> dpath n_next s c l a.
Proof.
  revert c. induction l as [|b l IH]; intros c C; cbn; [apply C|]. destruct C as ((L & _) & C). auto.
Qed.
Lemma dpath_snoc dir s c l d a : dpath dir s c l d -> dir (node_at s d) = Some a -> dpath dir s c (l ++ [d]) a.
Proof. revert c. induction l as [|b l IH]; intros c; cbn; [auto|]. intros (E & H) Hd. auto. Qed.
Lemma dpath_prev s c l a : chained s c (l ++ [a]) -> dpath n_prev s a (rev l) c.
Proof.
  revert c. induction l as [|b l IH]; intros c C; cbn; [apply C|]. destruct C as ((_ & L) & C).
  apply dpath_snoc; [apply IH; exact C|exact L].
Qed.
Lemma opt_is_some a b : opt_is (Some a) (Some b) = Pos.eqb a b. Proof. reflexivity. Qed.

Definition collect_body (dir : node -> option nid) (start : nid) (x : option nid * list nid) :=
  let '(cursor, acc) := x in
  bind (deref cursor) (fun c => bind (nd c) (fun n =>
    ret (if opt_is (dir n) (Some start) then inr (rev (c :: acc)) else inl (dir n, c :: acc)))).
Lemma collect_loop dir s start fuel : forall rest c acc,
  dpath dir s c rest start -> ~ In start rest -> (length rest < fuel)%nat ->
  loopM fuel (collect_body dir start) (Some c, acc) s = Ok (rev acc ++ c :: rest, s).
Proof.
  induction fuel as [|fuel IH]; intros rest c acc H N L; [lia|]. cbn [loopM]. unfold bind at 1.
  replace (collect_body dir start (Some c, acc) s) with
    (Ok (if opt_is (dir (node_at s c)) (Some start) then inr (rev (c :: acc)) else inl (dir (node_at s c), c :: acc), s)) by reflexivity.
  destruct rest as [|d rest]; cbn [dpath] in H.
  - rewrite H. cbn [opt_is]. rewrite Pos.eqb_refl. reflexivity.
  - destruct H as (E & H). rewrite E. cbn [opt_is]. destruct (Pos.eqb_spec d start) as [->|Nd]; [destruct N; left; reflexivity|].
    rewrite (IH rest d); [|exact H|intros I; apply N; right; exact I|cbn in L; lia]. cbn [rev]. rewrite <- app_assoc. reflexivity.
Qed.
(** iteration in both directions *)
Lemma nodes_list_circle s a l fuel : circle s (a :: l) -> (length (a :: l) <= fuel)%nat ->
  nodes_list fuel a s = Ok (a :: l, s).
Proof.
  intros (N & C) L. inversion N. change (nodes_list fuel a) with (loopM fuel (collect_body n_next a) (Some a, [])). rewrite (collect_loop n_next s a fuel l a []); auto.
  apply dpath_next. exact C.
Qed.
Lemma nodes_list_rev_circle s a l fuel : circle s (a :: l) -> (length (a :: l) <= fuel)%nat ->
  nodes_list_rev fuel a s = Ok (a :: rev l, s).
Proof.
  intros (N & C) L. inversion N. change (nodes_list_rev fuel a) with (loopM fuel (collect_body n_prev a) (Some a, [])). rewrite (collect_loop n_prev s a fuel (rev l) a []); auto.
  - apply dpath_prev. exact C.
  - rewrite <- in_rev. auto.
  - rewrite rev_length. cbn in L. lia.
Qed.

(** ** Reversal *)
Definition flip_node (n : node) : node := n <| n_next := n_prev n |> <| n_prev := n_next n |>.
Definition flipped (m : list nid) (s s' : st) : Prop :=
  (forall i, In i m -> node_at s' i = flip_node (node_at s i)) /\ only_vertices m s s'.
Lemma dpath_frame dir s s' c l a : (forall i, In i (c :: l) -> dir (node_at s' i) = dir (node_at s i)) ->
  dpath dir s c l a -> dpath dir s' c l a.
Proof.
  revert c. induction l as [|d l IH]; intros c H; cbn; [rewrite H by (left; reflexivity); auto|].
  intros (E & P). rewrite H by (left; reflexivity). split; [exact E|]. apply IH; [|exact P]. intros i Hi. apply H. right. exact Hi.
Qed.
Definition same_but_nodes (s s' : st) : Prop := s' = s <| s_nodes := s_nodes s' |>.
Lemma same_but_nodes_refl s : same_but_nodes s s. Proof. destruct s; reflexivity. Qed.
Lemma same_but_nodes_trans s1 s2 s3 : same_but_nodes s1 s2 -> same_but_nodes s2 s3 -> same_but_nodes s1 s3.
Proof. unfold same_but_nodes. intros -> ->. destruct s1; reflexivity. Qed.
Lemma same_but_nodes_put s i f : same_but_nodes s (put s i f). Proof. destruct s; reflexivity. Qed.
Definition flip_body (start : nid) (cursor : option nid) :=
  bind (deref cursor) (fun c =>
  bind (upd_node c flip_node) (fun _ => bind (nd c) (fun n =>
    ret (if opt_is (n_next n) (Some start) then inr tt else inl (n_next n))))).
Lemma reverse_loop start fuel : forall rest c s,
  dpath n_prev s c rest start -> NoDup (c :: rest) -> ~ In start rest -> (length rest < fuel)%nat ->
  exists s', loopM fuel (flip_body start) (Some c) s = Ok (tt, s') /\ flipped (c :: rest) s s' /\ same_but_nodes s s'.
Proof.
  induction fuel as [|fuel IH]; intros rest c s H ND N L; [lia|]. cbn [loopM]. unfold bind at 1.
  replace (flip_body start (Some c) s) with
    (Ok (if opt_is (n_next (node_at (put s c flip_node) c)) (Some start) then inr tt else inl (n_next (node_at (put s c flip_node) c)),
         put s c flip_node)) by reflexivity.
  rewrite node_at_put_eq. change (n_next (flip_node (node_at s c))) with (n_prev (node_at s c)).
  destruct rest as [|d rest]; cbn [dpath] in H.
  - rewrite H. cbn [opt_is]. rewrite Pos.eqb_refl. eexists. split; [reflexivity|]. split; [split|].
    + intros i [<-|[]]. apply node_at_put_eq.
    + intros i Hi. apply node_at_put_neq. intros ->. apply Hi. left. reflexivity.
    + apply same_but_nodes_put.
  - destruct H as (E & H). rewrite E. cbn [opt_is]. destruct (Pos.eqb_spec d start) as [->|Nd]; [destruct N; left; reflexivity|].
    inversion ND as [|? ? Hc ND']. subst.
    destruct (IH rest d (put s c flip_node)) as (s' & E' & (F & O) & SB).
    + revert H. apply dpath_frame. intros i Hi. rewrite node_at_put_neq; [reflexivity|]. intros ->. contradiction.
    + exact ND'.
    + intros I. apply N. right. exact I.
    + cbn in L. lia.
    + exists s'. split; [exact E'|]. split; [split|].
      * intros i [<-|Hi].
        { rewrite O by exact Hc. apply node_at_put_eq. }
        { rewrite F by exact Hi. rewrite node_at_put_neq; [reflexivity|]. intros ->. contradiction. }
      * intros i Hi. rewrite O by (intros I; apply Hi; right; exact I). apply node_at_put_neq. intros ->. apply Hi. left. reflexivity.
      * eapply same_but_nodes_trans; [apply same_but_nodes_put|exact SB].
Qed.
Lemma chained_flip s s' c l a : (forall i, In i (a :: c :: l) -> node_at s' i = flip_node (node_at s i)) ->
  chained s c (l ++ [a]) -> chained s' a (rev l ++ [c]).
Proof.
  revert c. induction l as [|b l IH]; intros c H C.
  - cbn. destruct C as ((L1 & L2) & _). split; [|exact I]. split.
    + rewrite H by (left; reflexivity). exact L2.
    + rewrite H by (right; left; reflexivity). exact L1.
  - destruct C as ((L1 & L2) & C). cbn [rev]. rewrite <- app_assoc. cbn [app]. apply chained_app. split.
    + apply IH; [|exact C]. intros i [<-|Hi]; apply H; [left; reflexivity|right; right; exact Hi].
    + split; [|exact I]. split; rewrite H; cbn; auto.
Qed.
Lemma circle_flip s s' a l : circle s (a :: l) -> flipped (a :: l) s s' -> circle s' (a :: rev l).
Proof.
  intros (N & C) (F & _). split.
  - inversion N. constructor; [rewrite <- in_rev; auto|apply NoDup_rev; auto].
  - apply chained_flip with (s := s); [|exact C]. intros i [<-|[<-|Hi]]; apply F; cbn; auto.
Qed.
Lemma reverse_nodes_circle s a l fuel : circle s (a :: l) -> (length (a :: l) <= fuel)%nat ->
  exists s', reverse_nodes fuel a s = Ok (tt, s') /\ circle s' (a :: rev l) /\ flipped (a :: l) s s' /\ same_but_nodes s s'.
Proof.
  intros C L. pose proof C as (N & CH). inversion N as [|? ? Ha N']. subst.
  destruct (reverse_loop a fuel (rev l) a s) as (s' & E & F & SB).
  - apply dpath_prev. exact CH.
  - constructor; [rewrite <- in_rev; exact Ha|apply NoDup_rev; exact N'].
  - rewrite <- in_rev. exact Ha.
  - rewrite rev_length. cbn in L. lia.
  - assert (F' : flipped (a :: l) s s').
    { destruct F as (F1 & F2). split.
      - intros i [<-|Hi]; apply F1; [left; reflexivity|right; rewrite <- in_rev; exact Hi].
      - intros i Hi. apply F2. intros [<-|I]; apply Hi; [left; reflexivity|right; rewrite in_rev; exact I]. }
    exists s'. split; [exact E|]. split; [|split; [exact F'|exact SB]]. eapply circle_flip; eassumption.
Qed.

(** ** Relinking *)
Lemma chain_redirect s s' a l b b' : chained s a (l ++ [b]) -> NoDup (a :: l) ->
  (forall j, In j l -> n_prev (node_at s' j) = n_prev (node_at s j)) ->
  (forall j, In j (a :: l) -> j <> List.last l a -> n_next (node_at s' j) = n_next (node_at s j)) ->
  linked s' (List.last l a) b' -> chained s' a (l ++ [b']).
Proof.
  destruct l as [|z l _] using rev_ind; intros C ND Hp Hn Hl; [split; [exact Hl|exact I]|].
  rewrite last_last in *. rewrite <- app_assoc in *. cbn [app] in *. apply chained_app in C as (C & _).
  apply chained_app. split; [|split; [exact Hl|exact I]].
  assert (ND' : NoDup ((a :: l) ++ [z])) by exact ND. apply NoDup_remove in ND' as (_ & Nz). rewrite app_nil_r in Nz.
  revert C. apply chained_frame.
  - apply Hn; [left; reflexivity|]. intros ->. apply Nz. left. reflexivity.
  - exact Hp.
  - intros i Hi. rewrite removelast_last in Hi. apply Hn; [right; apply in_or_app; left; exact Hi|].
    intros ->. apply Nz. right. exact Hi.
Qed.

(** [a -> b] and [c -> d] are the only links that were made *)
Definition relinked (s s' : st) (a b c d : nid) : Prop :=
  (forall j, n_next (node_at s' j) = if Pos.eqb j a then Some b else if Pos.eqb j c then Some d else n_next (node_at s j)) /\
  (forall j, n_prev (node_at s' j) = if Pos.eqb j b then Some a else if Pos.eqb j d then Some c else n_prev (node_at s j)) /\
  same_vertices s s' /\ same_but_nodes s s'.
Lemma relinked_neq s s' a b c d : relinked s s' a b c d -> a <> c -> b <> d -> linked s' a b /\ linked s' c d.
Proof.
  intros (Hn & Hp & _) Nac Nbd. unfold linked. rewrite !Hn, !Hp, !Pos.eqb_refl.
  assert (E1 : Pos.eqb c a = false) by (apply Pos.eqb_neq; congruence).
  assert (E2 : Pos.eqb d b = false) by (apply Pos.eqb_neq; congruence). rewrite E1, E2. auto.
Qed.
Lemma circle_merge s s' p1 l1 p2 l2 : circle s (p1 :: l1) -> circle s (p2 :: l2) ->
  (forall i, In i (p1 :: l1) -> ~ In i (p2 :: l2)) ->
  relinked s s' (List.last l1 p1) p2 (List.last l2 p2) p1 -> circle s' ((p1 :: l1) ++ p2 :: l2).
Proof.
  intros C1 C2 D R. pose proof C1 as (N1 & H1). pose proof C2 as (N2 & H2).
  pose proof (last_in p1 l1) as I1. pose proof (last_in p2 l2) as I2.
  assert (Np : p2 <> p1) by (intros ->; apply (D p1); left; reflexivity).
  assert (Nl : List.last l1 p1 <> List.last l2 p2) by (intros E; apply (D _ I1); rewrite E; exact I2).
  destruct (relinked_neq _ _ _ _ _ _ R Nl Np) as (L1 & L2). destruct R as (Hn & Hp & _).
  split.
  - apply (proj2 (nodup_app (p1 :: l1) (p2 :: l2))). auto.
  - rewrite <- app_assoc. cbn [app]. apply chained_app. split.
    + apply chain_redirect with (s := s) (b := p1); auto.
      * intros j Hj. rewrite Hp. destruct (Pos.eqb_spec j p2) as [->|_]; [destruct (D p2); [right; exact Hj|left; reflexivity]|].
        destruct (Pos.eqb_spec j p1) as [->|_]; [inversion N1; contradiction|reflexivity].
      * intros j Hj Nj. rewrite Hn. destruct (Pos.eqb_spec j (List.last l1 p1)) as [->|_]; [contradiction|].
        destruct (Pos.eqb_spec j (List.last l2 p2)) as [->|_]; [destruct (D _ Hj I2)|reflexivity].
    + apply chain_redirect with (s := s) (b := p2); auto.
      * intros j Hj. rewrite Hp. destruct (Pos.eqb_spec j p2) as [->|_]; [inversion N2; contradiction|].
        destruct (Pos.eqb_spec j p1) as [->|_]; [destruct (D p1); [left; reflexivity|right; exact Hj]|reflexivity].
      * intros j Hj Nj. rewrite Hn. destruct (Pos.eqb_spec j (List.last l1 p1)) as [->|_]; [destruct (D _ I1 Hj)|].
        destruct (Pos.eqb_spec j (List.last l2 p2)) as [->|_]; [contradiction|reflexivity].
Qed.
Lemma circle_split s s' p1 l1 p2 l2 : circle s ((p1 :: l1) ++ p2 :: l2) ->
  relinked s s' (List.last l1 p1) p1 (List.last l2 p2) p2 -> circle s' (p1 :: l1) /\ circle s' (p2 :: l2).
Proof.
  intros C R. pose proof C as (N & H). cbn [app] in H. rewrite <- app_assoc in H. cbn [app] in H. apply chained_app in H as (H1 & H2).
  destruct (proj1 (nodup_app (p1 :: l1) (p2 :: l2)) N) as (N1 & N2 & D).
  pose proof (last_in p1 l1) as I1. pose proof (last_in p2 l2) as I2.
  assert (Np : p1 <> p2) by (intros ->; apply (D p2); left; reflexivity).
  assert (Nl : List.last l1 p1 <> List.last l2 p2) by (intros E; apply (D _ I1); rewrite E; exact I2).
  destruct (relinked_neq _ _ _ _ _ _ R Nl Np) as (L1 & L2). destruct R as (Hn & Hp & _). split; (split; [assumption|]).
  - apply chain_redirect with (s := s) (b := p2); auto.
    * intros j Hj. rewrite Hp. destruct (Pos.eqb_spec j p1) as [->|_]; [inversion N1; contradiction|].
      destruct (Pos.eqb_spec j p2) as [->|_]; [destruct (D p2); [right; exact Hj|left; reflexivity]|reflexivity].
    * intros j Hj Nj. rewrite Hn. destruct (Pos.eqb_spec j (List.last l1 p1)) as [->|_]; [contradiction|].
      destruct (Pos.eqb_spec j (List.last l2 p2)) as [->|_]; [destruct (D _ Hj I2)|reflexivity].
  - apply chain_redirect with (s := s) (b := p1); auto.
    * intros j Hj. rewrite Hp. destruct (Pos.eqb_spec j p1) as [->|_]; [destruct (D p1); [left; reflexivity|right; exact Hj]|].
      destruct (Pos.eqb_spec j p2) as [->|_]; [inversion N2; contradiction|reflexivity].
    * intros j Hj Nj. rewrite Hn. destruct (Pos.eqb_spec j (List.last l1 p1)) as [->|_]; [destruct (D _ I1 Hj)|].
      destruct (Pos.eqb_spec j (List.last l2 p2)) as [->|_]; [contradiction|reflexivity].
Qed.

(** ** Running the primitive steps *)
Lemma bind_run {A B} (m : prog A) (k : A -> prog B) s a s1 : m s = Ok (a, s1) -> bind m k s = k a s1.
Proof. intros H. unfold bind. rewrite H. reflexivity. Qed.
Lemma prev_of_run s i p : n_prev (node_at s i) = Some p -> prev_of i s = Ok (p, s).
Proof. intros H. unfold prev_of, bind, nd, gets. fold (node_at s i). rewrite H. reflexivity. Qed.
Lemma next_of_run s i p : n_next (node_at s i) = Some p -> next_of i s = Ok (p, s).
Proof. intros H. unfold next_of, bind, nd, gets. fold (node_at s i). rewrite H. reflexivity. Qed.
Lemma set_next_run s i o : set_next i o s = Ok (tt, put s i (fun n => n <| n_next := o |>)).
Proof. reflexivity. Qed.
Lemma set_prev_run s i o : set_prev i o s = Ok (tt, put s i (fun n => n <| n_prev := o |>)).
Proof. reflexivity. Qed.
Lemma nd_run s i : nd i s = Ok (node_at s i, s). Proof. reflexivity. Qed.
Definition snext (s : st) (i : nid) (o : option nid) : st := put s i (fun n => n <| n_next := o |>).
Definition sprev (s : st) (i : nid) (o : option nid) : st := put s i (fun n => n <| n_prev := o |>).
Lemma set_next_s s i o : set_next i o s = Ok (tt, snext s i o). Proof. reflexivity. Qed.
Lemma set_prev_s s i o : set_prev i o s = Ok (tt, sprev s i o). Proof. reflexivity. Qed.
Lemma next_snext s i o j : n_next (node_at (snext s i o) j) = if Pos.eqb j i then o else n_next (node_at s j).
Proof. unfold snext. rewrite node_at_put, Pos.eqb_sym. destruct (Pos.eqb_spec j i) as [->|_]; reflexivity. Qed.
Lemma prev_snext s i o j : n_prev (node_at (snext s i o) j) = n_prev (node_at s j).
Proof. unfold snext. rewrite node_at_put. destruct (Pos.eqb_spec i j) as [->|_]; reflexivity. Qed.
Lemma next_sprev s i o j : n_next (node_at (sprev s i o) j) = n_next (node_at s j).
Proof. unfold sprev. rewrite node_at_put. destruct (Pos.eqb_spec i j) as [->|_]; reflexivity. Qed.
Lemma prev_sprev s i o j : n_prev (node_at (sprev s i o) j) = if Pos.eqb j i then o else n_prev (node_at s j).
Proof. unfold sprev. rewrite node_at_put, Pos.eqb_sym. destruct (Pos.eqb_spec j i) as [->|_]; reflexivity. Qed.
Lemma same_snext s i o : same_vertices s (snext s i o).
Proof. intros j. unfold snext, same_vertex. rewrite node_at_put. destruct (Pos.eqb_spec i j) as [->|_]; auto. Qed.
Lemma same_sprev s i o : same_vertices s (sprev s i o).
Proof. intros j. unfold sprev, same_vertex. rewrite node_at_put. destruct (Pos.eqb_spec i j) as [->|_]; auto. Qed.
Lemma same_vertices_refl s : same_vertices s s. Proof. intros j. repeat split. Qed.
Lemma same_vertices_trans s1 s2 s3 : same_vertices s1 s2 -> same_vertices s2 s3 -> same_vertices s1 s3.
Proof. intros H1 H2 j. destruct (H1 j) as (A & B & C), (H2 j) as (A' & B' & C'). repeat split; congruence. Qed.
Lemma sbn_snext s i o : same_but_nodes s (snext s i o). Proof. apply same_but_nodes_put. Qed.
Lemma sbn_sprev s i o : same_but_nodes s (sprev s i o). Proof. apply same_but_nodes_put. Qed.
Ltac eqbs := repeat match goal with |- context [Pos.eqb ?a ?b] => destruct (Pos.eqb_spec a b) end; subst; try congruence.
Ltac relink := intros ? ?; split; [|split; [|split]];
  [ intros j; repeat (rewrite ?next_snext, ?next_sprev); eqbs
  | intros j; repeat (rewrite ?prev_snext, ?prev_sprev); eqbs
  | repeat (first [apply same_vertices_refl | eapply same_vertices_trans; [|first [apply same_snext|apply same_sprev]]])
  | repeat (first [apply same_but_nodes_refl | eapply same_but_nodes_trans; [|first [apply sbn_snext|apply sbn_sprev]]]) ].
(** the four assignments, in the orders in which they occur *)
Lemma relinked_pnpn s a b c d : a <> c -> b <> d ->
  relinked s (snext (sprev (snext (sprev s b (Some a)) a (Some b)) d (Some c)) c (Some d)) a b c d.
Proof. relink. Qed.
Lemma relinked_nnpp s a b c d : a <> c -> b <> d ->
  relinked s (sprev (sprev (snext (snext s a (Some b)) c (Some d)) d (Some c)) b (Some a)) a b c d.
Proof. relink. Qed.
Lemma relinked_npnp s a b c d : a <> c -> b <> d ->
  relinked s (sprev (snext (sprev (snext s a (Some b)) b (Some a)) c (Some d)) d (Some c)) a b c d.
Proof. relink. Qed.
Lemma relinked_nppn s a b c d : a <> c -> b <> d ->
  relinked s (snext (sprev (sprev (snext s a (Some b)) b (Some a)) d (Some c)) c (Some d)) a b c d.
Proof. relink. Qed.
Lemma relinked_swap s s' a b c d : a <> c -> b <> d -> relinked s s' a b c d -> relinked s s' c d a b.
Proof.
  intros N1 N2 (H1 & H2 & H3). split; [|split]; [intros j; rewrite H1; eqbs|intros j; rewrite H2; eqbs|exact H3].
Qed.
