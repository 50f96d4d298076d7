(** * The heap stays well ringed: sweep *)
From Coq Require Import ZArith List Bool Lia FMapPositive Permutation.
From Coq Require Import Floats.SpecFloat.
From RecordUpdate Require Import RecordSet.
From Verif Require Import Py Monad Utils Geometry LinearRingM BoundM LocalMinimumM
     StateM PointNodeM RingM SweepM TopologyM WagyuM HoareP SpecRing SpecHeap SpecRings SweepFrameP OrderP VatP FuelP
     CircleP HeapOpsP SplitP NodeFrameP.
Import ListNotations RecordSetNotations.
Open Scope Z_scope.

Lemma lem_Ok {A} (m m' : prog A) s x : lem m m' -> m s = Ok x -> m' s = Ok x.
Proof. intros L E. destruct (L s) as [F|F]; congruence. Qed.

(** ** Circles and members *)
Lemma members_rotate s r l i : members s r l -> l = [] \/ circle s l -> ring_of s i = Some r ->
  exists m, circle s (i :: m) /\ members s r (i :: m).
Proof.
  intros M C H. pose proof (proj1 (M i) H) as Hi. destruct C as [->|C]; [destruct Hi|].
  apply in_split in Hi as (l1 & l2 & ->). exists (l2 ++ l1). split.
  - apply (circle_rotate s l1 (i :: l2)). exact C.
  - intros j. rewrite (M j). change (i :: l2 ++ l1) with ((i :: l2) ++ l1). rewrite !in_app_iff. tauto.
Qed.
Lemma well_at s i r : well_ringed s -> ring_of s i = Some r -> exists m, circle s (i :: m) /\ members s r (i :: m).
Proof. intros W H. destruct (wr_circles s W r) as (l & M & C). eapply members_rotate; eassumption. Qed.
Lemma circle_same s s' l : (forall i, In i l -> node_at s' i = node_at s i) -> circle s l -> circle s' l.
Proof. intros H. apply circle_frame. intros i Hi. rewrite (H i Hi). auto. Qed.
Lemma members_of s r l i : members s r l -> In i l -> ring_of s i = Some r.
Proof. intros M H. apply M. exact H. Qed.

(** a change that leaves the vertices of the rings outside [X] alone *)
Lemma well_change s s' (X : rid -> Prop) :
  well_ringed s -> (forall r, X r \/ ~ X r) ->
  (forall i r, ~ X r -> ring_of s i = Some r -> node_at s' i = node_at s i) ->
  (forall i r, ~ X r -> ring_of s' i = Some r -> ring_of s i = Some r) ->
  (forall r, X r -> exists l, members s' r l /\ (l = [] \/ circle s' l)) ->
  (forall r n, first_of s' r = Some n -> ring_of s' n = Some r) ->
  (forall i r, ring_of s' i = Some r -> (i < s_nnext s')%positive /\ (r < s_rnext s')%positive) ->
  well_ringed s'.
Proof.
  intros W D U N C F K. split; [|exact F|exact K]. intros r. destruct (D r) as [Hr|Hr]; [apply C; exact Hr|].
  destruct (wr_circles s W r) as (l & M & Cl). exists l. split.
  - intros i. split.
    + intros H. apply M. eapply N; eassumption.
    + intros H. pose proof (members_of _ _ _ _ M H) as E. unfold ring_of in *. rewrite (U i r Hr E). exact E.
  - destruct Cl as [Cl|Cl]; [left; exact Cl|right]. apply (circle_same s); [|exact Cl].
    intros i H. apply (U i r Hr). eapply members_of; eassumption.
Qed.
Lemma well_same s s' : same_ringed s s' -> well_ringed s -> well_ringed s'.
Proof.
  intros (A1 & A2 & A3 & A4 & A5) W. apply (well_change s s' (fun _ => False) W).
  - auto.
  - auto.
  - intros i r _. unfold ring_of. rewrite A1. auto.
  - intros r [].
  - intros r n H. unfold first_of in H. rewrite (proj1 (A5 r)) in H. unfold ring_of. rewrite A1. apply (wr_first s W r n H).
  - intros i r H. unfold ring_of in H. rewrite A1 in H. rewrite A2, A3. apply (wr_known s W i r H).
Qed.
Lemma well_init b : well_ringed (init_st b).
Proof.
  assert (H : forall i, ring_of (init_st b) i = None).
  { intros i. unfold ring_of, node_at, hget. cbn. rewrite PositiveMap.gempty. reflexivity. }
  split.
  - intros r. exists []. split; [|left; reflexivity]. intros i. rewrite H. split; [discriminate|intros []].
  - intros r n E. unfold first_of, ring_at, hget in E. cbn in E. rewrite PositiveMap.gempty in E. discriminate.
  - intros i r E. rewrite H in E. discriminate.
Qed.

(** ** Programs *)
Definition keepw (s s' : st) : Prop := well_ringed s -> well_ringed s'.
#[export] Instance keepw_rel : NodeRel keepw.
Proof.
  split; [split; unfold keepw; auto|]. intros s s' H W. exact (well_same s s' H W).
Qed.
Notation kw := (pres keepw).
Lemma kw_tri {A} (m : prog A) : kw m <-> tri well_ringed m (fun _ => well_ringed).
Proof. split; intros H s a s'; [intros W E; exact (H s a s' E W)|intros E W; exact (H s a s' W E)]. Qed.

(** reading *)
Lemma tri_nd i (J : st -> Prop) : tri J (nd i) (fun n s => n = node_at s i /\ J s).
Proof. intros s a s' H E. injection E as <- <-. auto. Qed.
Lemma tri_rg r (J : st -> Prop) : tri J (rg r) (fun x s => x = ring_at s r /\ J s).
Proof. intros s a s' H E. injection E as <- <-. auto. Qed.
Lemma tri_next_of i (J : st -> Prop) : tri J (next_of i) (fun j s => n_next (node_at s i) = Some j /\ J s).
Proof.
  intros s a s' H E. unfold next_of, bind in E. cbn in E. fold (node_at s i) in E.
  destruct (n_next (node_at s i)) eqn:En; [|discriminate]. injection E as <- <-. auto.
Qed.
Lemma tri_prev_of i (J : st -> Prop) : tri J (prev_of i) (fun j s => n_prev (node_at s i) = Some j /\ J s).
Proof.
  intros s a s' H E. unfold prev_of, bind in E. cbn in E. fold (node_at s i) in E.
  destruct (n_prev (node_at s i)) eqn:En; [|discriminate]. injection E as <- <-. auto.
Qed.
Lemma tri_same {A} (m : prog A) (J : st -> Prop) : pres same_ringed m ->
  (forall s s', same_ringed s s' -> J s -> J s') -> tri J m (fun _ => J).
Proof. intros H K. eapply tri_pres; eassumption. Qed.
Lemma same_ring_of s s' i : same_ringed s s' -> ring_of s' i = ring_of s i.
Proof. intros H. unfold ring_of. rewrite (proj1 H). reflexivity. Qed.
Lemma same_first s s' r : same_ringed s s' -> first_of s' r = first_of s r.
Proof. intros (_ & _ & _ & _ & H). apply (H r). Qed.
Lemma same_circle s s' l : same_ringed s s' -> circle s l -> circle s' l.
Proof. intros H. apply circle_same. intros i _. apply H. Qed.
Lemma same_members s s' r l : same_ringed s s' -> members s r l -> members s' r l.
Proof. intros H M i. rewrite (same_ring_of _ _ _ H). apply M. Qed.

(** ** First vertices *)
Lemma first_rput s r f q : first_of (rput s r f) q = if Pos.eqb r q then r_node (f (ring_at s r)) else first_of s q.
Proof. unfold first_of. rewrite ring_at_rput. destruct (Pos.eqb_spec r q); reflexivity. Qed.
Lemma well_rput s r f : well_ringed s ->
  (forall n, r_node (f (ring_at s r)) = Some n -> ring_of s n = Some r) -> well_ringed (rput s r f).
Proof.
  intros W H. apply (well_change s _ (fun _ => False) W); auto.
  - intros q [].
  - intros q n. rewrite first_rput. destruct (Pos.eqb_spec r q) as [<-|_]; [apply H|]. apply (wr_first s W).
  - apply (wr_known s W).
Qed.
Lemma kw_none r f : (forall x, r_node (f x) = None) -> kw (upd_ring r f).
Proof. intros H s a s' E W. injection E as <- <-. apply (well_rput s r f W). intros n En. rewrite H in En. discriminate. Qed.
Lemma tri_first r n f (J : st -> Prop) : (forall x, r_node (f x) = Some n) ->
  tri (fun s => J s /\ well_ringed s /\ ring_of s n = Some r) (upd_ring r f) (fun _ => well_ringed).
Proof.
  intros H s a s' (_ & W & E) X. injection X as <- <-. apply (well_rput s r f W). intros m Em. rewrite H in Em. congruence.
Qed.
Lemma kw_create_ring : kw create_ring.
Proof.
  intros s a s' E W. rewrite create_ring_run in E. injection E as <- <-.
  apply (well_change s _ (fun _ => False) W); auto.
  - intros q [].
  - intros q n. unfold first_of. rewrite ring_at_alloc. destruct (Pos.eqb_spec (s_rnext s) q) as [<-|_]; [discriminate|]. apply (wr_first s W).
  - intros i q H. destruct (wr_known s W i q H) as (H1 & H2). split; [exact H1|]. cbn. lia.
Qed.

(** ** New vertices *)
Lemma well_alone s r p n s' : well_ringed s -> (r < s_rnext s)%positive -> (forall i, ring_of s i <> Some r) ->
  create_point_node (Some r) p None s = Ok (n, s') ->
  well_ringed s' /\ ring_of s' n = Some r /\ (forall q, first_of s' q = first_of s q).
Proof.
  intros W Hr N E. destruct (create_alone_circle s (Some r) p) as (s1 & E1 & C & P & Rn & O).
  assert (X : Ok (s_nnext s, s1) = Ok (n, s')) by (rewrite <- E1; exact E). injection X as <- <-.
  rewrite create_alone_run in E. injection E as E.
  assert (Hn : s_nnext s1 = Pos.succ (s_nnext s)) by (rewrite <- E; reflexivity).
  assert (Hrn : s_rnext s1 = s_rnext s) by (rewrite <- E; reflexivity).
  assert (Hf : forall q, first_of s1 q = first_of s q) by (intros q; rewrite <- E; reflexivity).
  clear E E1.
  assert (U : forall i, i <> s_nnext s -> ring_of s1 i = ring_of s i).
  { intros i Hi. unfold ring_of. rewrite O; [reflexivity|]. intros [H|[]]. congruence. }
  assert (Z : forall q, ring_of s (s_nnext s) <> Some q).
  { intros q H. apply (wr_known s W) in H. lia. }
  split; [|split; [exact Rn|exact Hf]].
  apply (well_change s s1 (eq r) W).
  - intros q. destruct (Pos.eq_dec r q); auto.
  - intros i q Hq H. apply O. intros [<-|[]]. apply (Z q H).
  - intros i q Hq H. destruct (Pos.eq_dec i (s_nnext s)) as [->|Hi]; [|rewrite <- U; assumption].
    unfold ring_of in H. congruence.
  - intros q <-. exists [s_nnext s]. split; [|right; exact C]. intros i. split.
    + intros H. destruct (Pos.eq_dec i (s_nnext s)) as [->|Hi]; [left; reflexivity|]. rewrite U in H by exact Hi. destruct (N i H).
    + intros [<-|[]]. exact Rn.
  - intros q m. rewrite Hf. intros H. pose proof (wr_first s W q m H) as H'. rewrite U; [exact H'|]. intros ->. apply (Z q H').
  - intros i q H. rewrite Hn, Hrn. destruct (Pos.eq_dec i (s_nnext s)) as [->|Hi].
    + unfold ring_of in H. rewrite Rn in H. injection H as <-. split; [lia|exact Hr].
    + rewrite U in H by exact Hi. destruct (wr_known s W i q H). split; [lia|assumption].
Qed.
Lemma well_insert s r p o n s' : well_ringed s -> ring_of s o = Some r ->
  create_point_node (Some r) p (Some o) s = Ok (n, s') ->
  well_ringed s' /\ ring_of s' n = Some r.
Proof.
  intros W Ho E. destruct (well_at s o r W Ho) as (m & C & M).
  assert (A : allocated s (o :: m)).
  { apply Forall_forall. intros i Hi. apply (wr_known s W i r). apply M. exact Hi. }
  destruct (create_before_circle s (Some r) p o m C A) as (s1 & E1 & C1 & P & Rn & SV & O & St).
  assert (X : Ok (s_nnext s, s1) = Ok (n, s')) by (rewrite <- E1; exact E). injection X as <- <-. clear E E1.
  assert (Hn : s_nnext s1 = Pos.succ (s_nnext s)) by (rewrite St; destruct s; reflexivity).
  assert (Hrn : s_rnext s1 = s_rnext s) by (rewrite St; destruct s; reflexivity).
  assert (Hf : forall q, first_of s1 q = first_of s q) by (intros q; rewrite St; destruct s; reflexivity).
  clear St.
  assert (U : forall i, i <> s_nnext s -> ring_of s1 i = ring_of s i) by (intros i Hi; apply (SV i Hi)).
  assert (Z : forall q, ring_of s (s_nnext s) <> Some q).
  { intros q H. apply (wr_known s W) in H. lia. }
  split; [|exact Rn].
  apply (well_change s s1 (eq r) W).
  - intros q. destruct (Pos.eq_dec r q); auto.
  - intros i q Hq H. apply O. intros [<-|Hi]; [apply (Z q H)|]. apply M in Hi. congruence.
  - intros i q Hq H. destruct (Pos.eq_dec i (s_nnext s)) as [->|Hi]; [|rewrite <- U; assumption].
    unfold ring_of in H. congruence.
  - intros q <-. exists (o :: m ++ [s_nnext s]). split; [|right; exact C1]. intros i.
    change (o :: m ++ [s_nnext s]) with ((o :: m) ++ [s_nnext s]). rewrite in_app_iff.
    destruct (Pos.eq_dec i (s_nnext s)) as [->|Hi].
    + split; [intros _; right; left; reflexivity|intros _; exact Rn].
    + rewrite U by exact Hi. rewrite (M i). split; [auto|]. intros [H|[H|[]]]; [exact H|congruence].
  - intros q k. rewrite Hf. intros H. pose proof (wr_first s W q k H) as H'. rewrite U; [exact H'|]. intros ->. apply (Z q H').
  - intros i q H. rewrite Hn, Hrn. destruct (Pos.eq_dec i (s_nnext s)) as [->|Hi].
    + unfold ring_of in H. rewrite Rn in H. injection H as <-. split; [lia|]. apply (wr_known s W o r Ho).
    + rewrite U in H by exact Hi. destruct (wr_known s W i q H). split; [lia|assumption].
Qed.

(** ** Rings that lose their vertices *)
Definition drops (X : rid -> Prop) (s s' : st) : Prop :=
  (forall i, node_at s' i = node_at s i) /\ s_nnext s' = s_nnext s /\ s_rnext s' = s_rnext s /\ s_conn s' = s_conn s /\
  forall r, (first_of s' r = first_of s r \/ X r /\ first_of s' r = None) /\ r_corrected (ring_at s' r) = r_corrected (ring_at s r).
#[export] Instance drops_rel X : NodeRel (drops X).
Proof.
  split; [split|].
  - intros s. repeat split; auto.
  - intros s1 s2 s3 (A1&A2&A3&A4&A5) (B1&B2&B3&B4&B5).
    split; [intros i; rewrite B1; apply A1|]. repeat split; try congruence; destruct (A5 r) as (A5a & A5b), (B5 r) as (B5a & B5b); [|congruence].
    destruct B5a as [E|E]; [|right; exact E]. rewrite E. exact A5a.
  - intros s s' (A1&A2&A3&A4&A5). repeat split; auto; [left; apply (A5 r)|apply (A5 r)].
Qed.
Lemma dr_none (X : rid -> Prop) r f : X r -> (forall x, r_node (f x) = None) -> (forall x, r_corrected (f x) = r_corrected x) -> pres (drops X) (upd_ring r f).
Proof.
  intros HX H1 H2. intros s a s' E. rewrite upd_ring_rput in E. injection E as <- <-. repeat split.
  - rewrite first_rput. destruct (Pos.eqb_spec r r0) as [<-|_]; [right; split; [exact HX|apply H1]|left; reflexivity].
  - rewrite ring_at_rput. destruct (Pos.eqb_spec r r0) as [<-|_]; [apply H2|reflexivity].
Qed.
Lemma drops_well X s s' : drops X s s' -> well_ringed s -> well_ringed s'.
Proof.
  intros (A1&A2&A3&A4&A5) W. apply (well_change s s' (fun _ => False) W); auto.
  - intros i r _. unfold ring_of. rewrite A1. auto.
  - intros r [].
  - intros r n H. unfold ring_of. rewrite A1. destruct (A5 r) as ([E|(_ & E)] & _); [|congruence]. apply (wr_first s W). congruence.
  - intros i r H. unfold ring_of in H. rewrite A1 in H. rewrite A2, A3. apply (wr_known s W i r H).
Qed.
#[export] Hint Resolve drops_rel keepw_rel same_ringed_rel : pres.
Ltac nf1 := apply nf_upd_ring; [typeclasses eauto|intros; reflexivity|intros; reflexivity].
Ltac nf_auto := repeat first [progress pres_step|nf1].
Lemma dr_replace_ring (X : rid -> Prop) fuel r o : X r -> pres (drops X) (replace_ring fuel r o).
Proof.
  intros HX. unfold replace_ring. destruct (opt_is _ _); [apply pres_raise|].
  apply pres_bind; [typeclasses eauto|apply nf_iter_children; [typeclasses eauto|nf_auto]|]. intros ?.
  nf_auto. apply dr_none; [exact HX|reflexivity|reflexivity].
Qed.
Lemma dr_remove_ring fuel d : forall (X : rid -> Prop) r b, X r -> pres (drops X) (remove_ring fuel d r false b).
Proof.
  destruct d as [|d]; intros X r b HX; cbn [remove_ring]; [apply pres_nofuel|].
  apply pres_bind; [typeclasses eauto|apply nf_iter_children; [typeclasses eauto|nf_auto]|]. intros ?.
  nf_auto. apply dr_none; [exact HX|reflexivity|reflexivity].
Qed.
Lemma kw_drops {A} X (m : prog A) : pres (drops X) m -> kw m.
Proof. intros H. eapply pres_mono; [|exact H]. intros s s' D. exact (drops_well X s s' D). Qed.

(** ** Taking over every vertex of a circle *)
Lemma relabel s r a l fuel u s' : circle s (a :: l) -> first_of s r = Some a -> update_points fuel r s = Ok (u, s') ->
  owned r (a :: l) s s' /\ same_but_nodes s s'.
Proof.
  intros C F E. destruct (update_points_circle s r a l (Nat.max fuel (length (a :: l))) C F (Nat.le_max_r _ _)) as (s1 & E1 & O & SB).
  pose proof (lem_Ok _ _ _ _ (fuel_update_points fuel (Nat.max fuel (length (a :: l))) (Nat.le_max_l _ _) r) E) as E2.
  rewrite E1 in E2. injection E2 as <- <-. split; assumption.
Qed.
Lemma owned_ring r m s s' i : owned r m s s' -> ring_of s' i = if in_dec Pos.eq_dec i m then Some r else ring_of s i.
Proof.
  intros (F & O). unfold ring_of. destruct (in_dec Pos.eq_dec i m) as [H|H]; [rewrite F by exact H; reflexivity|rewrite O by exact H; reflexivity].
Qed.
Lemma owned_circle r m s s' l : owned r m s s' -> circle s l -> circle s' l.
Proof. intros O. apply circle_frame. intros i _. destruct (owned_next r m s s' i O) as (A & B & _). auto. Qed.
Lemma sbn_first s s' r : same_but_nodes s s' -> first_of s' r = first_of s r.
Proof. intros H. unfold first_of. rewrite (ring_at_sbn s s' r H). reflexivity. Qed.
Lemma sbn_next s s' : same_but_nodes s s' -> s_nnext s' = s_nnext s /\ s_rnext s' = s_rnext s /\ s_conn s' = s_conn s.
Proof. intros H. rewrite H. repeat split. Qed.

(** ** Joining two rings *)
(** the vertices of [keep] and [remove] are on one circle *)
Record merged (keep remove : rid) (s : st) : Prop := {
  mg_neq : keep <> remove;
  mg_circle : exists n l, first_of s keep = Some n /\ circle s (n :: l) /\
    (forall i, In i (n :: l) <-> ring_of s i = Some keep \/ ring_of s i = Some remove);
  mg_circles : forall r, r <> keep -> r <> remove -> exists l, members s r l /\ (l = [] \/ circle s l);
  mg_first : forall r n, r <> keep -> r <> remove -> first_of s r = Some n -> ring_of s n = Some r;
  mg_known : forall i r, ring_of s i = Some r -> (i < s_nnext s)%positive /\ (r < s_rnext s)%positive;
  mg_keep : (keep < s_rnext s)%positive
}.
Lemma merged_drops k r s s' : drops (eq r) s s' -> merged k r s -> merged k r s'.
Proof.
  intros (A1&A2&A3&A4&A5) [H1 (n & l & H2 & H3 & H4) H5 H6 H7 H8].
  assert (F : forall q, q <> r -> first_of s' q = first_of s q).
  { intros q Hq. destruct (A5 q) as ([E|(E & _)] & _); [exact E|congruence]. }
  assert (U : forall i, ring_of s' i = ring_of s i) by (intros i; unfold ring_of; rewrite A1; reflexivity).
  assert (CC : forall l, circle s l -> circle s' l) by (intros m; apply circle_same; intros i _; apply A1).
  split.
  - exact H1.
  - exists n, l. rewrite F by exact H1. split; [exact H2|]. split; [apply CC; exact H3|]. intros i. rewrite U. apply H4.
  - intros q Q1 Q2. destruct (H5 q Q1 Q2) as (m & M & C). exists m. split; [intros i; rewrite U; apply M|]. destruct C as [C|C]; auto.
  - intros q m Q1 Q2. rewrite F by exact Q2. rewrite U. apply H6; assumption.
  - intros i q. rewrite U, A2, A3. apply H7.
  - rewrite A3. exact H8.
Qed.
Lemma drops_same X s s' : same_ringed s s' -> drops X s s'.
Proof. intros H. apply (nr_sub (R := drops X)). exact H. Qed.
Lemma merged_relabel k r s u s' fuel : merged k r s -> first_of s r = None -> update_points fuel k s = Ok (u, s') -> well_ringed s'.
Proof.
  intros [H1 (n & l & H2 & H3 & H4) H5 H6 H7 H8] N E. destruct (relabel s k n l fuel u s' H3 H2 E) as (O & SB).
  assert (U := owned_ring k (n :: l) s s'). destruct (sbn_next _ _ SB) as (Hn & Hr & _).
  assert (CC : forall l, circle s l -> circle s' l) by (intros m; apply (owned_circle k (n :: l)); exact O).
  assert (OUT : forall i q, q <> k -> q <> r -> ring_of s i = Some q -> ~ In i (n :: l)).
  { intros i q Q1 Q2 H I. apply H4 in I. destruct I; congruence. }
  split.
  - intros q. destruct (Pos.eq_dec q k) as [->|Q1].
    + exists (n :: l). split; [|right; apply CC; exact H3]. intros i. rewrite (U i O). destruct (in_dec _ _ _) as [I|I]; [tauto|].
      split; [|tauto]. intros X. exfalso. apply I. apply H4. left. exact X.
    + destruct (Pos.eq_dec q r) as [->|Q2].
      * exists []. split; [|left; reflexivity]. intros i. rewrite (U i O). destruct (in_dec _ _ _) as [I|I]; [split; [congruence|intros []]|].
        split; [|intros []]. intros X. apply I. apply H4. right. exact X.
      * destruct (H5 q Q1 Q2) as (m & M & C). exists m. split; [|destruct C; auto]. intros i. rewrite (U i O), <- (M i).
        destruct (in_dec _ _ _) as [I|I]; [|tauto]. split; [congruence|]. intros X. destruct (OUT i q Q1 Q2 X I).
  - intros q m. rewrite (sbn_first _ _ _ SB). intros H. rewrite (U m O). destruct (Pos.eq_dec q k) as [->|Q1].
    + rewrite H2 in H. injection H as <-. destruct (in_dec _ _ _) as [I|I]; [reflexivity|]. destruct I. left. reflexivity.
    + destruct (Pos.eq_dec q r) as [->|Q2]; [congruence|]. pose proof (H6 q m Q1 Q2 H) as X.
      destruct (in_dec _ _ _) as [I|I]; [destruct (OUT m q Q1 Q2 X I)|exact X].
  - intros i q. rewrite (U i O), Hn, Hr. destruct (in_dec _ _ _) as [I|I]; [|apply H7].
    intros X. injection X as <-. split; [|exact H8]. apply H4 in I. destruct I as [I|I]; apply (H7 i _ I).
Qed.
Lemma join_merged fuel kl rl k r p1 p2 s h s1 : well_ringed s -> k <> r -> first_of s k = Some p1 -> first_of s r = Some p2 ->
  join_chains fuel kl rl p1 p2 s = Ok (h, s1) ->
  merged k r s1 /\ match h with Some n => ring_of s1 n = Some r | None => True end.
Proof.
  intros W N F1 F2 E. pose proof (wr_first s W _ _ F1) as R1. pose proof (wr_first s W _ _ F2) as R2.
  destruct (well_at s p1 k W R1) as (l1 & C1 & M1). destruct (well_at s p2 r W R2) as (l2 & C2 & M2).
  assert (D : forall i, In i (p1 :: l1) -> ~ In i (p2 :: l2)).
  { intros i I1 I2. apply M1 in I1. apply M2 in I2. congruence. }
  set (fu := Nat.max fuel (length (p2 :: l2))).
  destruct (join_circle s p1 l1 p2 l2 fu kl rl C1 C2 D (Nat.le_max_r _ _)) as (s2 & E2 & C & SV & SB & O).
  pose proof (lem_Ok _ _ _ _ (fuel_join_chains fuel fu (Nat.le_max_l _ _) kl rl p1 p2) E) as E3.
  rewrite E2 in E3. injection E3 as <- <-. clear E E2.
  assert (U : forall i, ring_of s2 i = ring_of s i) by (intros i; apply (SV i)).
  destruct (sbn_next _ _ SB) as (Hn & Hr & _).
  split.
  - split.
    + exact N.
    + exists p1, (l1 ++ (if Bool.eqb kl rl then rev (p2 :: l2) else p2 :: l2)). rewrite (sbn_first _ _ _ SB). split; [exact F1|]. split; [exact C|].
      intros i. rewrite U, (M1 i), (M2 i). change (p1 :: l1 ++ ?x) with ((p1 :: l1) ++ x). rewrite in_app_iff.
      destruct (Bool.eqb kl rl); [rewrite <- in_rev|]; tauto.
    + intros q Q1 Q2. destruct (wr_circles s W q) as (m & M & Cm). exists m. split; [intros i; rewrite U; apply M|].
      destruct Cm as [Cm|Cm]; [auto|right]. apply (circle_only s s2 m _ Cm O). intros i I J. apply M in I.
      apply in_app_iff in J as [J|J]; [apply M1 in J|apply M2 in J]; congruence.
    + intros q n Q1 Q2. rewrite (sbn_first _ _ _ SB), U. apply (wr_first s W).
    + intros i q. rewrite U, Hn, Hr. apply (wr_known s W).
    + rewrite Hr. apply (wr_known s W p1 k R1).
  - destruct kl; [|exact I]. rewrite U. apply M2. destruct rl; [apply CircleP.last_in|left; reflexivity].
Qed.
Lemma merged_first k r s n f : merged k r s -> (forall x, r_node (f x) = Some n) -> ring_of s n = Some k \/ ring_of s n = Some r ->
  merged k r (rput s k f).
Proof.
  intros [H1 (m & l & H2 & H3 & H4) H5 H6 H7 H8] F Hn.
  assert (I : In n (m :: l)) by (apply H4; exact Hn).
  apply in_split in I as (l1 & l2 & E).
  split.
  - exact H1.
  - exists n, (l2 ++ l1). rewrite first_rput, Pos.eqb_refl. split; [apply F|]. split.
    + apply (circle_rotate _ l1 (n :: l2)). rewrite <- E. apply (circle_same s); [reflexivity|exact H3].
    + intros i. rewrite <- (H4 i). rewrite E. change (n :: l2 ++ l1) with ((n :: l2) ++ l1). rewrite !in_app_iff. tauto.
  - intros q Q1 Q2. destruct (H5 q Q1 Q2) as (x & M & C). exists x. split; [exact M|]. destruct C as [C|C]; [auto|right]. apply (circle_same s); [reflexivity|exact C].
  - intros q x Q1 Q2. rewrite first_rput. destruct (Pos.eqb_spec k q) as [->|_]; [congruence|]. apply H6; assumption.
  - exact H7.
  - exact H8.
Qed.

Lemma tri_drops {A} X (m : prog A) (J : st -> Prop) : pres (drops X) m ->
  (forall s s', drops X s s' -> J s -> J s') -> tri J m (fun _ => J).
Proof. intros H K. eapply tri_pres; eassumption. Qed.
Lemma first_drops r s s' : drops (eq r) s s' -> first_of s r = None -> first_of s' r = None.
Proof. intros (_&_&_&_&H) E. destruct (H r) as ([X|(_ & X)] & _); congruence. Qed.
(** [append_ring] once it is decided which ring stays *)
Definition append_rest (fuel : nat) (keep remove : rid) (kb rb : bid) : prog unit :=
  (kr <- rg keep ;; rr <- rg remove ;;
   p1_lft <- deref (r_node kr) ;; p2_lft <- deref (r_node rr) ;;
   kbd <- bd kb ;; rbd <- bd rb ;;
   head <- join_chains fuel (side_eqb (b_side kbd) LEFT) (side_eqb (b_side rbd) LEFT)
                       p1_lft p2_lft ;;
   match head with
   | Some n => upd_ring keep (fun x => x <| r_node := Some n |>)
   | None => ret tt
   end ;;
   upd_ring keep (fun x => x <| r_bottom := None |>) ;;
   kd <- ring_depth fuel keep ;;
   rd <- ring_depth fuel remove ;;
   upd_ring remove (fun x => x <| r_node := None |> <| r_bottom := None |>) ;;
   (if negb (Bool.eqb (is_odd kd) (is_odd rd))
    then (kr <- rg keep ;; replace_ring fuel remove (r_parent kr))
    else replace_ring fuel remove (Some keep)) ;;
   update_points fuel keep ;;
   upd_bound rb (fun b => b <| b_ring := None |>) ;;
   upd_bound kb (fun b => b <| b_ring := None |>) ;;
   s <- get ;;
   match find_ring_bound (s_bounds s) remove (s_abl s) with
   | None => ret tt
   | Some t =>
       (kbd <- bd kb ;;
        upd_bound t (fun b => b <| b_ring := Some keep |> <| b_side := b_side kbd |>))
   end)%M.
Lemma kw_append_rest fuel k r kb rb : k <> r -> kw (append_rest fuel k r kb rb).
Proof.
  intros Nkr. apply kw_tri. unfold append_rest.
  eapply tri_bind; [apply tri_rg|]. intros kr. eapply tri_bind; [apply tri_rg|]. intros rr. cbv beta.
  eapply tri_bind with (Q := fun p1 s => first_of s k = Some p1 /\ rr = ring_at s r /\ well_ringed s).
  { apply tri_deref. intros p1 s E (-> & -> & W). auto. }
  intros p1. eapply tri_bind with (Q := fun p2 s => first_of s k = Some p1 /\ first_of s r = Some p2 /\ well_ringed s).
  { apply tri_deref. intros p2 s E (F & -> & W). auto. }
  intros p2.
  assert (ST : forall s s', same_ringed s s' -> first_of s k = Some p1 /\ first_of s r = Some p2 /\ well_ringed s ->
                first_of s' k = Some p1 /\ first_of s' r = Some p2 /\ well_ringed s').
  { intros s s' H (F1 & F2 & W). rewrite !(same_first _ _ _ H). split; [exact F1|]. split; [exact F2|]. apply (well_same s); assumption. }
  eapply tri_bind; [apply tri_same; [nf_auto|exact ST]|]. intros kbd.
  eapply tri_bind; [apply tri_same; [nf_auto|exact ST]|]. intros rbd.
  eapply tri_bind with (Q := fun h s => merged k r s /\ match h with Some n => ring_of s n = Some r | None => True end).
  { intros s h s1 (F1 & F2 & W) E. eapply join_merged; eassumption. }
  intros h. eapply tri_bind with (Q := fun _ => merged k r).
  { destruct h as [n|]; [|apply tri_ret; tauto]. intros s u s' (M & H) E. rewrite upd_ring_rput in E. injection E as <- <-.
    apply (merged_first k r s n); auto. }
  intros ?. 
  assert (SM : forall s s', same_ringed s s' -> merged k r s -> merged k r s').
  { intros s s' H. apply merged_drops. apply drops_same. exact H. }
  eapply tri_bind; [apply tri_same; [nf_auto|exact SM]|]. intros ?.
  eapply tri_bind; [apply tri_same; [nf_auto|exact SM]|]. intros kd.
  eapply tri_bind; [apply tri_same; [nf_auto|exact SM]|]. intros rd.
  eapply tri_bind with (Q := fun _ s => merged k r s /\ first_of s r = None).
  { intros s u s' M E. split.
    - refine (merged_drops k r s s' _ M). refine (dr_none (eq r) r _ _ _ _ s u s' E); reflexivity.
    - rewrite upd_ring_rput in E. injection E as <- <-. rewrite first_rput, Pos.eqb_refl. reflexivity. }
  intros ?.
  assert (SD : forall s s', drops (eq r) s s' -> merged k r s /\ first_of s r = None -> merged k r s' /\ first_of s' r = None).
  { intros s s' H (M & F). split; [eapply merged_drops; eassumption|eapply first_drops; eassumption]. }
  eapply tri_bind.
  { apply (tri_drops (eq r)); [|exact SD]. destruct (negb _); [nf_auto|]; apply dr_replace_ring; reflexivity. }
  intros ?. eapply tri_bind with (Q := fun _ => well_ringed).
  { intros s u s' (M & F) E. eapply merged_relabel; eassumption. }
  intros ?. apply kw_tri. nf_auto.
Qed.
Lemma kw_append_ring fuel i j :
  tri (fun s => well_ringed s /\ opt_is (b_ring (bget (s_bounds s) i)) (b_ring (bget (s_bounds s) j)) = false)
      (append_ring fuel i j) (fun _ => well_ringed).
Proof.
  unfold append_ring.
  eapply tri_bind; [apply tri_gets with (Q := fun b s => b = bget (s_bounds s) i /\ well_ringed s /\ opt_is (b_ring (bget (s_bounds s) i)) (b_ring (bget (s_bounds s) j)) = false); auto|]. intros bi.
  eapply tri_bind; [apply tri_gets with (Q := fun b s => b = bget (s_bounds s) j /\ bi = bget (s_bounds s) i /\ well_ringed s /\ opt_is (b_ring (bget (s_bounds s) i)) (b_ring (bget (s_bounds s) j)) = false); auto|]. intros bj.
  eapply tri_bind with (Q := fun r1 s => b_ring bi = Some r1 /\ opt_is (Some r1) (b_ring bj) = false /\ well_ringed s).
  { apply tri_deref. intros r1 s E (-> & -> & W & D). rewrite E in D. auto. }
  intros r1. eapply tri_bind with (Q := fun r2 s => r1 <> r2 /\ well_ringed s).
  { apply tri_deref. intros r2 s E (_ & D & W). rewrite E in D. cbn in D. split; [apply Pos.eqb_neq; exact D|exact W]. }
  intros r2. apply tri_fact. intros N.
  eapply tri_bind; [apply kw_tri; nf_auto|]. intros d12.
  eapply tri_bind; [apply kw_tri; nf_auto|]. intros kf.
  assert (N' : r2 <> r1) by congruence. cbv beta.
  destruct kf; cbv iota; [exact (proj1 (kw_tri _) (kw_append_rest fuel r1 r2 i j N))|exact (proj1 (kw_tri _) (kw_append_rest fuel r2 r1 j i N'))].
Qed.
Lemma kw_put_point i p : kw (put_point i p).
Proof.
  apply kw_tri. unfold put_point. eapply tri_bind; [apply kw_tri; nf_auto|]. intros b.
  eapply tri_bind; [apply kw_tri; nf_auto|]. intros r. eapply tri_bind; [apply tri_rg|]. intros x. cbv beta.
  eapply tri_bind with (Q := fun op s => ring_of s op = Some r /\ well_ringed s).
  { apply tri_deref. intros op s E (-> & W). split; [apply (wr_first s W); exact E|exact W]. }
  intros op. cbv zeta.
  assert (ST : forall s s', same_ringed s s' -> ring_of s op = Some r /\ well_ringed s -> ring_of s' op = Some r /\ well_ringed s').
  { intros s s' H (F & W). rewrite (same_ring_of _ _ _ H). split; [exact F|]. apply (well_same s); assumption. }
  eapply tri_bind; [apply tri_same; [nf_auto|exact ST]|]. intros q.
  eapply tri_bind; [apply tri_same; [nf_auto|exact ST]|]. intros qp.
  destruct (point_eqb p qp); [apply tri_ret; tauto|].
  eapply tri_bind with (Q := fun n s => well_ringed s /\ ring_of s n = Some r).
  { intros s n s' (F & W) E. eapply well_insert; eassumption. }
  intros n. destruct (side_eqb _ _); [|apply tri_ret; tauto].
  eapply tri_pre; [apply (tri_first r n _ (fun _ => True)); reflexivity|]. tauto.
Qed.
Lemma kw_add_first_point i p : kw (add_first_point i p).
Proof.
  apply kw_tri. unfold add_first_point.
  eapply tri_bind with (Q := fun r s => well_ringed s /\ (r < s_rnext s)%positive /\ forall k, ring_of s k <> Some r).
  { intros s r s' W E. split; [exact (kw_create_ring s r s' E W)|]. rewrite create_ring_run in E. injection E as <- <-. split; [cbn; lia|].
    intros k H. apply (wr_known s W) in H. lia. }
  intros r.
  eapply tri_bind; [apply tri_same; [nf_auto|]|].
  { intros s s' H (W & L & F). split; [apply (well_same s); assumption|]. split; [destruct H as (_ & _ & E & _); rewrite E; exact L|].
    intros k. rewrite (same_ring_of _ _ _ H). apply F. }
  intros ?. eapply tri_bind with (Q := fun n s => well_ringed s /\ ring_of s n = Some r).
  { intros s n s' (W & L & F) E. destruct (well_alone s r p n s' W L F E) as (A & B & _). auto. }
  intros n. eapply tri_bind with (Q := fun _ => well_ringed).
  { eapply tri_pre; [apply (tri_first r n _ (fun _ => True)); reflexivity|]. tauto. }
  intros ?. apply kw_tri. nf_auto.
Qed.
#[export] Hint Resolve kw_put_point kw_add_first_point kw_create_ring : pres.
Section Sweep.
Notation R := keepw.
Ltac go f := intros; unfold f; nf_auto.
Lemma kw_hot_pixel_walk i x a sk sp l : pres R (hot_pixel_walk i x a sk sp l).
Proof. induction l as [|h l IH]; cbn [hot_pixel_walk]; nf_auto. Qed.
Hint Resolve kw_hot_pixel_walk : pres.
Lemma kw_hp_ltr y a b i g e : pres R (hot_pixel_set_left_to_right y a b i g e).
Proof. go hot_pixel_set_left_to_right. Qed.
Lemma kw_hp_rtl y a b i g e : pres R (hot_pixel_set_right_to_left y a b i g e).
Proof. go hot_pixel_set_right_to_left. Qed.
Hint Resolve kw_hp_ltr kw_hp_rtl : pres.
Lemma kw_insert_hp i p e : pres R (insert_hot_pixels_in_path i p e).
Proof. go insert_hot_pixels_in_path. Qed.
Hint Resolve kw_insert_hp : pres.
Lemma kw_add_point_to_ring i p : pres R (add_point_to_ring i p). Proof. go add_point_to_ring. Qed.
Hint Resolve kw_add_point_to_ring : pres.
Lemma kw_add_point i p : pres R (add_point i p). Proof. go add_point. Qed.
Hint Resolve kw_add_point : pres.
Lemma kw_add_lmin p i j : pres R (add_local_minimum_point p i j). Proof. go add_local_minimum_point. Qed.
Hint Resolve kw_add_lmin : pres.
Lemma opt_is_sym a b : opt_is a b = opt_is b a.
Proof. destruct a, b; cbn; try reflexivity. apply Pos.eqb_sym. Qed.
Lemma kw_add_lmax fuel p i j : pres R (add_local_maximum_point fuel p i j).
Proof.
  apply kw_tri. unfold add_local_maximum_point.
  eapply tri_bind; [apply kw_tri; nf_auto|]. intros ?. eapply tri_bind; [apply kw_tri; nf_auto|]. intros ?.
  eapply tri_bind; [apply tri_gets with (Q := fun b s => b = bget (s_bounds s) i /\ well_ringed s); auto|]. intros bi.
  eapply tri_bind; [apply tri_gets with (Q := fun b s => b = bget (s_bounds s) j /\ bi = bget (s_bounds s) i /\ well_ringed s); intros ? (? & ?); auto|]. intros bj.
  destruct (opt_is (b_ring bi) (b_ring bj)) eqn:O.
  - eapply tri_pre; [apply kw_tri; nf_auto|]. tauto.
  - eapply tri_bind; [apply tri_deref; intros ri s _ H; exact H|]. intros ri.
    eapply tri_bind; [apply tri_deref; intros rj s _ H; exact H|]. intros rj.
    destruct (Pos.ltb ri rj); (eapply tri_pre; [apply kw_append_ring|]); intros s (-> & -> & W); (split; [exact W|]); [exact O|rewrite opt_is_sym; exact O].
Qed.
Hint Resolve kw_add_lmax : pres.
Lemma kw_intersect_bounds fuel op a b p i j : pres R (intersect_bounds fuel op a b p i j).
Proof. go intersect_bounds. Qed.
Lemma kw_insert_lm op a b i j : pres R (insert_lm_left_and_right_bound op a b i j).
Proof. go insert_lm_left_and_right_bound. Qed.
Hint Resolve kw_intersect_bounds kw_insert_lm : pres.
Lemma kw_insert_local_minima fuel op a b h y ms k : pres R (insert_local_minima fuel op a b h y ms k).
Proof. go insert_local_minima. Qed.
Hint Resolve kw_insert_local_minima : pres.
Lemma kw_process_intersect_list fuel op a b c : forall l,
  pres R (process_intersect_list fuel op a b l c).
Proof.
  induction c as [|c IH]; intros [|n l]; cbn [process_intersect_list]; nf_auto.
Qed.
Hint Resolve kw_process_intersect_list : pres.
Lemma kw_process_intersections fuel op a b y : pres R (process_intersections fuel op a b y).
Proof. go process_intersections. Qed.
Lemma kw_add_hp_ltr i stop n : forall k, pres R (add_hot_pixels_ltr n stop i k).
Proof. induction n as [|n IH]; intros k; cbn [add_hot_pixels_ltr]; nf_auto. Qed.
Lemma kw_add_hp_rtl i stop k : pres R (add_hot_pixels_rtl stop i k).
Proof. induction k as [|n IH]; cbn [add_hot_pixels_rtl]; nf_auto. Qed.
Hint Resolve kw_process_intersections kw_add_hp_ltr kw_add_hp_rtl : pres.
Lemma kw_ltr_step fuel op a b i y mx mi j x : pres R (ltr_step fuel op a b i y mx mi j x).
Proof. unfold ltr_step. nf_auto. Qed.
Lemma kw_rtl_step fuel op a b i y mx mi j x : pres R (rtl_step fuel op a b i y mx mi j x).
Proof. unfold rtl_step. nf_auto. Qed.
Hint Resolve kw_ltr_step kw_rtl_step : pres.
Lemma kw_ltr_loop fuel op a b i y mx mi js : forall x, pres R (ltr_loop fuel op a b i y mx mi js x).
Proof. induction js as [|j js IH]; intros x; cbn [ltr_loop]; nf_auto. Qed.
Lemma kw_rtl_loop fuel op a b i y mx mi js : forall x, pres R (rtl_loop fuel op a b i y mx mi js x).
Proof. induction js as [|j js IH]; intros x; cbn [rtl_loop]; nf_auto. Qed.
Lemma kw_finish i k : pres R (finish_horizontal i k). Proof. go finish_horizontal. Qed.
Hint Resolve kw_ltr_loop kw_rtl_loop kw_finish : pres.
Lemma kw_ph_ltr fuel op a b y k : pres R (process_horizontal_left_to_right fuel op a b y k).
Proof. go process_horizontal_left_to_right. Qed.
Lemma kw_ph_rtl fuel op a b y k : pres R (process_horizontal_right_to_left fuel op a b y k).
Proof. go process_horizontal_right_to_left. Qed.
Hint Resolve kw_ph_ltr kw_ph_rtl : pres.
Lemma kw_ph fuel op a b y k : pres R (process_horizontal fuel op a b y k).
Proof. go process_horizontal. Qed.
Hint Resolve kw_ph : pres.
Lemma kw_phs fuel op a b y : pres R (process_horizontals fuel op a b y).
Proof. go process_horizontals. Qed.
Lemma kw_maxima_walk fuel op a b k m : pres R (maxima_walk fuel op a b k m).
Proof.
  unfold maxima_walk. apply pres_bind; [typeclasses eauto|nf_auto|]. intros n.
  generalize (range (S k) n) as js. generalize false. intros b0 js. revert k b0.
  induction js as [|j js IH]; intros k' sk; nf_auto.
Qed.
Hint Resolve kw_phs kw_maxima_walk : pres.
Lemma kw_do_maxima fuel op a b k m : pres R (do_maxima fuel op a b k m). Proof. go do_maxima. Qed.
Hint Resolve kw_do_maxima : pres.
Lemma kw_top_step fuel op a b y k i : pres R (top_step fuel op a b y k i). Proof. go top_step. Qed.
Hint Resolve kw_top_step : pres.
Lemma kw_peats fuel op a b y ms k : pres R (process_edges_at_top_of_scanbeam fuel op a b y ms k).
Proof. go process_edges_at_top_of_scanbeam. Qed.
Hint Resolve kw_peats : pres.
Lemma kw_execute_vatti fuel op a b ms : pres R (execute_vatti fuel op a b ms).
Proof. go execute_vatti. all: try (apply pres_modify; intros s0; apply nr_sub; repeat split). Qed.
Hint Resolve kw_execute_vatti : pres.
Lemma kw_build_hot_pixels fuel ms : pres R (build_hot_pixels fuel ms). Proof. nf_auto. Qed.
End Sweep.
