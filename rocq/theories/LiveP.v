(** * The late phase of [correct_topology]: live vertices stay on closed chains
    and the sides of the rings are conserved *)
From Coq Require Import ZArith List Bool Lia FMapPositive Permutation.
From Coq Require Import Floats.SpecFloat.
From RecordUpdate Require Import RecordSet.
From Verif Require MiscP.
From Verif Require Import Py Monad Utils Geometry LinearRingM BoundM LocalMinimumM
     StateM PointNodeM RingM SweepM TopologyM WagyuM HoareP SpecRing SpecHeap SpecRings SweepFrameP OrderP VatP FuelP PipP SortP PointersP
     CircleP HeapOpsP StatsP SplitP NodeFrameP RingedP RingedTopP RingedCutP RingedPathP RingedFixP RingedTreeP SpecEdges.
Import ListNotations RecordSetNotations.
Local Open Scope m_scope.
Open Scope Z_scope.

(** ** Sides *)
Lemma in_vertex_ids s i : In i (vertex_ids s) <-> (i < s_nnext s)%positive.
Proof.
  unfold vertex_ids. rewrite in_map_iff. split.
  - intros (k & <- & H). apply in_seq in H. lia.
  - intros H. exists (Nat.pred (Pos.to_nat i)). split; [|apply in_seq; lia]. rewrite <- (Pos2Nat.id i) at 2. destruct (Pos.to_nat i) eqn:E; [lia|]. cbn. apply Pos.of_nat_succ.
Qed.
Lemma nodup_vertex_ids s : NoDup (vertex_ids s).
Proof. unfold vertex_ids. apply FinFun.Injective_map_NoDup; [|apply seq_NoDup]. intros a b. apply SuccNat2Pos.inj. Qed.
Lemma side_from_eq s s' i : npos (node_at s' i) = npos (node_at s i) -> (ring_of s' i <> None <-> ring_of s i <> None) ->
  (ring_of s i <> None -> exists j j', n_next (node_at s i) = Some j /\ n_next (node_at s' i) = Some j' /\ npos (node_at s' j') = npos (node_at s j)) ->
  side_from s' i = side_from s i.
Proof.
  intros P L N. unfold side_from. destruct (ring_of s i) eqn:A, (ring_of s' i) eqn:B; try reflexivity.
  - destruct (N ltac:(congruence)) as (j & j' & -> & -> & E). congruence.
  - exfalso. apply (proj2 L); congruence.
  - exfalso. apply (proj1 L); congruence.
Qed.
Lemma sides_eq s s' : s_nnext s' = s_nnext s -> (forall i, side_from s' i = side_from s i) -> sides s' = sides s.
Proof. intros N H. unfold sides, vertex_ids. rewrite N. apply flat_map_ext. exact H. Qed.
Definition swap_ids (a b i : nid) : nid := if Pos.eqb i a then b else if Pos.eqb i b then a else i.
Lemma swap_swap a b i : swap_ids a b (swap_ids a b i) = i.
Proof.
  unfold swap_ids. destruct (Pos.eqb_spec i a) as [->|A]; [rewrite Pos.eqb_refl; destruct (Pos.eqb_spec b a); congruence|].
  destruct (Pos.eqb_spec i b) as [->|B]; [rewrite Pos.eqb_refl; reflexivity|]. destruct (Pos.eqb_spec i a); [congruence|]. destruct (Pos.eqb_spec i b); congruence.
Qed.
Lemma sides_swap s s' a b : s_nnext s' = s_nnext s -> (a < s_nnext s)%positive -> (b < s_nnext s)%positive ->
  (forall i, side_from s' i = side_from s (swap_ids a b i)) -> Permutation (sides s) (sides s').
Proof.
  intros N La Lb H. unfold sides. replace (vertex_ids s') with (vertex_ids s) by (unfold vertex_ids; rewrite N; reflexivity).
  rewrite (flat_map_ext (side_from s') (fun i => side_from s (swap_ids a b i)) H). 
  assert (E : flat_map (fun i => side_from s (swap_ids a b i)) (vertex_ids s) = flat_map (side_from s) (map (swap_ids a b) (vertex_ids s))).
  { rewrite !flat_map_concat_map, map_map. reflexivity. }
  rewrite E. apply Permutation_flat_map. apply NoDup_Permutation_bis.
  - apply nodup_vertex_ids.
  - rewrite map_length. lia.
  - intros i Hi. apply in_map_iff. exists (swap_ids a b i). split; [apply swap_swap|]. apply in_vertex_ids. apply in_vertex_ids in Hi.
    unfold swap_ids. destruct (Pos.eqb i a); [assumption|]. destruct (Pos.eqb i b); assumption.
Qed.

Section Live.
Context (G : nid -> Prop) (Kn : Prop) (P0 : nid -> point) (E0 : list side).
Definition gpair (p : nid * nid) : Prop := G (fst p) /\ G (snd p) /\ P0 (fst p) = P0 (snd p).
Definition ginter (x : inter) : Prop := gpair (snd x).
Record alive (s : st) : Prop := {
  al_live : forall i, ring_of s i <> None <-> G i;
  al_next : forall i, G i -> exists j, n_next (node_at s i) = Some j /\ G j /\ n_prev (node_at s j) = Some i;
  al_prev : forall i, G i -> exists j, n_prev (node_at s i) = Some j /\ G j /\ n_next (node_at s j) = Some i;
  al_first : forall r n, first_of s r = Some n -> G n;
  al_known : forall i, G i -> (i < s_nnext s)%positive;
  al_conn : Kn -> forall r, Forall gpair (hget [] (s_conn s) r);
  al_place : forall i, npos (node_at s i) = P0 i;
  al_sides : Permutation E0 (sides s)
}.
Definition lk {A} (m : prog A) (post : A -> Prop) : Prop := forall s a s', alive s -> m s = Ok (a, s') -> alive s' /\ post a.
Definition Any {A} (_ : A) : Prop := True.
Lemma lk_weak {A} (m : prog A) (p q : A -> Prop) : lk m p -> (forall a, p a -> q a) -> lk m q.
Proof. intros H K s a s' P E. destruct (H _ _ _ P E). auto. Qed.
Lemma lk_ret {A} (a : A) (p : A -> Prop) : p a -> lk (ret a) p.
Proof. intros H s b s' P E. injection E as <- <-. auto. Qed.
Lemma lk_raise {A} e (p : A -> Prop) : lk (raise e) p. Proof. intros s b s' P E. discriminate. Qed.
Lemma lk_nofuel {A} (p : A -> Prop) : lk nofuel p. Proof. intros s b s' P E. discriminate. Qed.
Lemma lk_lift {A} (r : res A) (p : A -> Prop) : (forall a, r = Ok a -> p a) -> lk (lift r) p.
Proof. intros H s b s' P E. destruct r; try discriminate. injection E as <- <-. auto. Qed.
Lemma lk_gets {A} (f : st -> A) (p : A -> Prop) : (forall s, alive s -> p (f s)) -> lk (gets f) p.
Proof. intros H s b s' P E. injection E as <- <-. auto. Qed.
Lemma lk_modify f : (forall s, alive s -> alive (f s)) -> lk (modify f) Any.
Proof. intros H s b s' P E. injection E as <- <-. split; [auto|exact I]. Qed.
Lemma lk_bind {A B} (m : prog A) (k : A -> prog B) (p : A -> Prop) (q : B -> Prop) :
  lk m p -> (forall a, p a -> lk (k a) q) -> lk (bind m k) q.
Proof.
  intros Hm Hk s b s' P E. unfold bind in E. destruct (m s) as [[a s1]| |] eqn:Em; try discriminate.
  destruct (Hm _ _ _ P Em) as (P1 & H). exact (Hk _ H _ _ _ P1 E).
Qed.
Lemma lk_bindT {A B} (m : prog A) (k : A -> prog B) (q : B -> Prop) :
  lk m Any -> (forall a, lk (k a) q) -> lk (bind m k) q.
Proof. intros H K. apply lk_bind with (p := Any); auto. Qed.
Lemma lk_loop {X R} f (b : X -> prog (X + R)) (inv : X -> Prop) (p : R -> Prop) x :
  (forall x, inv x -> lk (b x) (fun r => match r with inl x' => inv x' | inr v => p v end)) -> inv x ->
  lk (loopM f b x) p.
Proof.
  intros H. revert x. induction f as [|f IH]; intros x Hx; cbn [loopM]; [apply lk_nofuel|].
  eapply lk_bind; [apply H, Hx|]. intros [y|v] Hy; [apply IH, Hy|apply lk_ret, Hy].
Qed.
Lemma lk_loopT {X R} f (b : X -> prog (X + R)) x : (forall x, lk (b x) Any) -> lk (loopM f b x) Any.
Proof.
  intros H. apply lk_loop with (inv := Any); [|exact I]. intros y _. eapply lk_weak; [apply H|]. intros [a|a] _; exact I.
Qed.
Lemma lk_for {A} (l : list A) b (p : A -> Prop) : Forall p l -> (forall a, p a -> lk (b a) Any) -> lk (forM l b) Any.
Proof.
  intros F H. induction F as [|a l Ha F IH]; cbn [forM]; [apply lk_ret; exact I|].
  apply lk_bindT; auto.
Qed.
Lemma lk_forT {A} (l : list A) b : (forall a, lk (b a) Any) -> lk (forM l b) Any.
Proof. intros H. induction l; cbn [forM]; [apply lk_ret; exact I|]. apply lk_bindT; auto. Qed.
Lemma lk_acc {A B} (l : list A) (f : A -> B -> prog B) (p : B -> Prop) b : p b ->
  (forall a b, p b -> lk (f a b) p) -> lk (forM_acc l f b) p.
Proof.
  intros Hb H. revert b Hb. unfold forM_acc. induction l as [|a l IH]; intros b Hb; [apply lk_ret, Hb|].
  eapply lk_bind; [apply H, Hb|]. intros b' Hb'. apply IH, Hb'.
Qed.
Lemma lk_deref {A} (o : option A) (p : A -> Prop) : (forall a, o = Some a -> p a) -> lk (deref o) p.
Proof. intros H. destruct o; [apply lk_ret; auto|apply lk_raise]. Qed.
Lemma alive_same s s' : same_ringed s s' -> alive s -> alive s'.
Proof.
  intros S [A1 A2 A3 A4 A5 A6 A7 A8]. pose proof S as (Hn & H1 & H2 & H3 & H4). split.
  - intros i. rewrite (same_ring_of _ _ _ S). apply A1.
  - intros i H. destruct (A2 i H) as (j & X & Y & Z). exists j. rewrite !Hn. auto.
  - intros i H. destruct (A3 i H) as (j & X & Y & Z). exists j. rewrite !Hn. auto.
  - intros r n. rewrite (same_first _ _ _ S). apply A4.
  - intros i H. rewrite H1. auto.
  - intros k r. rewrite H3. auto.
  - intros i. rewrite Hn. apply A7.
  - rewrite (sides_eq s s'); [exact A8|exact H1|]. intros i. unfold side_from, ring_of. rewrite Hn. destruct (n_ring _); [|reflexivity]. destruct (n_next _); [rewrite Hn; reflexivity|reflexivity].
Qed.
Lemma lk_same {A} (m : prog A) : pres same_ringed m -> lk m Any.
Proof. intros H s a s' P E. split; [apply (alive_same s); [exact (H _ _ _ E)|exact P]|exact I]. Qed.
Ltac sm := apply lk_same; nf_auto.
Lemma lk_rput r f : (forall x, oG G (r_node x) -> oG G (r_node (f x))) -> lk (upd_ring r f) Any.
Proof.
  intros H s u s' [A1 A2 A3 A4 A5 A6 A7 A8] E. rewrite upd_ring_rput in E. injection E as <- <-. split; [|exact I]. split; auto.
  intros q n. rewrite first_rput. destruct (Pos.eqb_spec r q) as [<-|_]; [|apply A4]. intros F. apply (H (ring_at s r)); [|exact F].
  intros j K. apply (A4 r). exact K.
Qed.
Lemma lk_first r n : G n -> lk (upd_ring r (fun x => x <| r_node := Some n |>)) Any.
Proof. intros H. apply lk_rput. intros x _ j K. cbn in K. injection K as <-. exact H. Qed.
Lemma lk_corrected r b : lk (upd_ring r (fun x => x <| r_corrected := b |>)) Any.
Proof. apply lk_rput. intros x H. exact H. Qed.
Lemma lk_create_ring : lk create_ring Any.
Proof.
  intros s a s' [A1 A2 A3 A4 A5 A6 A7 A8] E. rewrite create_ring_run in E. injection E as <- <-. split; [|exact I]. split; auto.
  intros r n F. unfold first_of in F. rewrite ring_at_alloc in F. destruct (Pos.eqb_spec (s_rnext s) r); [discriminate|]. apply (A4 r). exact F.
Qed.
(** ** Rewiring live vertices *)
Lemma alive_links s s' : alive s -> (forall i, ring_of s' i = ring_of s i) -> (forall r, first_of s' r = first_of s r) ->
  s_nnext s' = s_nnext s -> s_conn s' = s_conn s ->
  (forall i, G i -> exists j, n_next (node_at s' i) = Some j /\ G j /\ n_prev (node_at s' j) = Some i) ->
  (forall i, G i -> exists j, n_prev (node_at s' i) = Some j /\ G j /\ n_next (node_at s' j) = Some i) ->
  (forall i, npos (node_at s' i) = npos (node_at s i)) -> Permutation (sides s) (sides s') -> alive s'.
Proof.
  intros [A1 A2 A3 A4 A5 A6 A7 A8] H1 H2 H3 H4 H5 H6 H7 H8. split; auto.
  - intros i. rewrite H1. apply A1.
  - intros r n. rewrite H2. apply A4.
  - intros i. rewrite H3. apply A5.
  - intros k r. rewrite H4. apply A6, k.
  - intros i. rewrite H7. apply A7.
  - etransitivity; eassumption.
Qed.
(** two successors exchanged: [a -> bn], [b -> an] *)
Lemma alive_relinked s s' a an b bn : alive s -> n_next (node_at s a) = Some an -> n_next (node_at s b) = Some bn -> G a -> G b -> a <> b ->
  P0 a = P0 b \/ P0 an = P0 bn -> relinked s s' a bn b an -> alive s'.
Proof.
  intros A Na Nb Ga Gb N EP (Rn & Rp & SV & SB). destruct (sbn_next _ _ SB) as (Hn & Hr & Hc).
  pose proof A as [A1 A2 A3 _ A5 _ A7 _].
  destruct (A2 a Ga) as (an' & E1 & Gan & P1). rewrite Na in E1. injection E1 as <-.
  destruct (A2 b Gb) as (bn' & E2 & Gbn & P2). rewrite Nb in E2. injection E2 as <-.
  assert (Nn : an <> bn) by (intros ->; congruence).
  apply (alive_links s); auto.
  - intros i. apply (SV i).
  - intros r. apply (sbn_first _ _ _ SB).
  - intros i Gi. rewrite Rn. destruct (Pos.eqb_spec i a) as [->|Ia].
    { exists bn. rewrite Rp, Pos.eqb_refl. auto. }
    destruct (Pos.eqb_spec i b) as [->|Ib].
    { exists an. rewrite Rp. destruct (Pos.eqb_spec an bn); [congruence|]. rewrite Pos.eqb_refl. auto. }
    destruct (A2 i Gi) as (j & E & Gj & P). exists j. split; [exact E|]. split; [exact Gj|]. rewrite Rp.
    destruct (Pos.eqb_spec j bn) as [->|_]; [congruence|]. destruct (Pos.eqb_spec j an) as [->|_]; [congruence|]. exact P.
  - intros i Gi. rewrite Rp. destruct (Pos.eqb_spec i bn) as [->|Ia].
    { exists a. rewrite Rn, Pos.eqb_refl. auto. }
    destruct (Pos.eqb_spec i an) as [->|Ib].
    { exists b. rewrite Rn. destruct (Pos.eqb_spec b a); [congruence|]. rewrite Pos.eqb_refl. auto. }
    destruct (A3 i Gi) as (j & E & Gj & P). exists j. split; [exact E|]. split; [exact Gj|]. rewrite Rn.
    destruct (Pos.eqb_spec j a) as [->|_]; [congruence|]. destruct (Pos.eqb_spec j b) as [->|_]; [congruence|]. exact P.
  - intros i. apply same_vertices_npos. exact SV.
  - assert (La : ring_of s a <> None) by (apply A1; exact Ga). assert (Lb : ring_of s b <> None) by (apply A1; exact Gb).
    assert (QV : forall i, npos (node_at s' i) = P0 i) by (intros i; rewrite <- A7; apply same_vertices_npos; exact SV).
    assert (RV : forall i, ring_of s' i = ring_of s i) by (intros i; apply (SV i)).
    destruct EP as [EP|EP].
    + apply (sides_swap s s' a b); auto. intros i. unfold side_from, swap_ids. rewrite Rn, RV. destruct (Pos.eqb_spec i a) as [->|Ia].
      * rewrite Nb, !QV, !A7, EP. destruct (ring_of s a); [|congruence]. destruct (ring_of s b); [reflexivity|congruence].
      * destruct (Pos.eqb_spec i b) as [->|Ib].
        { rewrite Na, !QV, !A7, EP. destruct (ring_of s a); [|congruence]. destruct (ring_of s b); [reflexivity|congruence]. }
        rewrite QV, A7. destruct (ring_of s i), (n_next (node_at s i)); try reflexivity. rewrite QV, A7. reflexivity.
    + rewrite (sides_eq s s'); [reflexivity|exact Hn|]. intros i. unfold side_from. rewrite Rn, RV. destruct (Pos.eqb_spec i a) as [->|Ia].
      * rewrite Na, !QV, !A7, EP. reflexivity.
      * destruct (Pos.eqb_spec i b) as [->|Ib]; [rewrite Nb, !QV, !A7, EP; reflexivity|].
        rewrite QV, A7. destruct (ring_of s i), (n_next (node_at s i)); try reflexivity. rewrite QV, A7. reflexivity.
Qed.
(** relinking a vertex to its own successor changes nothing *)
Lemma sides_idle s s' : s_nnext s' = s_nnext s -> (forall i, ring_of s' i = ring_of s i) -> (forall i, n_next (node_at s' i) = n_next (node_at s i)) ->
  (forall i, npos (node_at s' i) = npos (node_at s i)) -> Permutation (sides s) (sides s').
Proof.
  intros N L X Q. rewrite (sides_eq s s'); [reflexivity|exact N|]. intros i. unfold side_from. rewrite L, X, Q.
  destruct (ring_of s i), (n_next (node_at s i)); try reflexivity. rewrite Q. reflexivity.
Qed.

Lemma lk_nd i : lk (nd i) (fun n => (n_ring n <> None -> G i) /\ (G i -> exists j, n_next n = Some j /\ G j)).
Proof.
  intros s n s' P E. rewrite nd_run in E. injection E as <- <-. split; [exact P|]. split; [apply (al_live _ P)|].
  intros H. destruct (al_next _ P i H) as (j & X & Y & _). eauto.
Qed.
Lemma lk_switch_nexts a b : G a -> G b -> P0 a = P0 b -> lk (switch_nexts a b) Any.
Proof.
  intros Ga Gb EP s u s' P E. split; [|exact I]. destruct (al_next _ P a Ga) as (an & Na & Gan & Pa). destruct (al_next _ P b Gb) as (bn & Nb & Gbn & Pb).
  rewrite (switch_nexts_run _ _ _ _ _ Na Nb) in E. injection E as <- <-. destruct (Pos.eq_dec a b) as [->|N].
  - rewrite Na in Nb. injection Nb as <-. apply (alive_links s); auto.
    + intros i. unfold ring_of, sprev, snext. rewrite !node_at_put. eqbs; reflexivity.
    + intros i Gi. repeat (rewrite ?next_snext, ?next_sprev). destruct (al_next _ P i Gi) as (j & X & Y & Z).
      destruct (Pos.eqb_spec i b) as [->|Ib].
      * exists an. repeat (rewrite ?prev_snext, ?prev_sprev). rewrite Pos.eqb_refl. auto.
      * exists j. repeat (rewrite ?prev_snext, ?prev_sprev). destruct (Pos.eqb_spec j an) as [->|_]; [congruence|auto].
    + intros i Gi. repeat (rewrite ?prev_snext, ?prev_sprev). destruct (al_prev _ P i Gi) as (j & X & Y & Z).
      destruct (Pos.eqb_spec i an) as [->|Ib].
      * exists b. repeat (rewrite ?next_snext, ?next_sprev). rewrite Pos.eqb_refl. auto.
      * exists j. repeat (rewrite ?next_snext, ?next_sprev). destruct (Pos.eqb_spec j b) as [->|_]; [congruence|auto].
    + intros i. unfold sprev, snext. rewrite !node_at_put. eqbs; reflexivity.
    + apply sides_idle; [reflexivity| | |].
      * intros i. unfold ring_of, sprev, snext. rewrite !node_at_put. eqbs; reflexivity.
      * intros i. repeat (rewrite ?next_snext, ?next_sprev). destruct (Pos.eqb_spec i b) as [->|_]; congruence.
      * intros i. unfold sprev, snext. rewrite !node_at_put. eqbs; reflexivity.
  - apply (alive_relinked s _ a an b bn); auto. apply relinked_nnpp; [exact N|]. intros ->. congruence.
Qed.
Lemma lk_set_nring i r : G i -> lk (set_nring i (Some r)) Any.
Proof.
  intros Gi s u s' P E. split; [|exact I]. injection E as <- <-. destruct P as [A1 A2 A3 A4 A5 A6 A7 A8].
  assert (N : forall j, n_next (node_at (put s i (fun n => n <| n_ring := Some r |>)) j) = n_next (node_at s j)).
  { intros j. rewrite node_at_put. eqbs; reflexivity. }
  assert (Q : forall j, n_prev (node_at (put s i (fun n => n <| n_ring := Some r |>)) j) = n_prev (node_at s j)).
  { intros j. rewrite node_at_put. eqbs; reflexivity. }
  change (alive (put s i (fun n => n <| n_ring := Some r |>))). split; auto.
  - intros j. unfold ring_of. rewrite node_at_put. destruct (Pos.eqb_spec i j) as [<-|_]; [|apply A1]. cbn. split; [auto|discriminate].
  - intros j Gj. destruct (A2 j Gj) as (k & X & Y & Z). exists k. rewrite N, Q. auto.
  - intros j Gj. destruct (A3 j Gj) as (k & X & Y & Z). exists k. rewrite N, Q. auto.
  - intros j. rewrite node_at_put. eqbs; cbn; apply A7.
  - rewrite (sides_eq s); [exact A8|reflexivity|]. intros j. apply side_from_eq.
    + rewrite node_at_put. eqbs; reflexivity.
    + unfold ring_of. rewrite node_at_put. destruct (Pos.eqb_spec i j) as [<-|_]; [|tauto]. cbn. split; [intros _; apply A1; exact Gi|discriminate].
    + intros L. destruct (A2 j) as (k & X & _); [apply A1; exact L|]. exists k, k. rewrite N. split; [exact X|]. split; [exact X|]. rewrite node_at_put. eqbs; reflexivity.
Qed.
Lemma lk_update_points fuel r : lk (update_points fuel r) Any.
Proof.
  unfold update_points. apply lk_bind with (p := fun x => oG G (r_node x)).
  { apply lk_gets. intros s P j K. apply (al_first _ P r). exact K. }
  intros x H. destruct (r_node x) as [n|]; [|apply lk_raise].
  unfold iter_nodes. apply lk_loop with (inv := fun c => exists i, c = Some i /\ G i); [|exists n; split; [reflexivity|apply H; reflexivity]].
  intros c (i & -> & Gi). apply lk_bind with (p := eq i); [apply lk_deref; congruence|]. intros k <-.
  apply lk_bindT; [apply lk_set_nring; exact Gi|]. intros _. eapply lk_bind; [apply lk_nd|]. intros m (_ & Hm).
  apply lk_ret. destruct (Hm Gi) as (j & -> & Gj). destruct (opt_is _ _); [exact I|eauto].
Qed.
Ltac lks := first [sm | apply lk_nofuel | apply lk_raise
  | apply lk_ret; solve [auto | constructor | discriminate | split; constructor | exact I]].
Ltac lkk := repeat first [eassumption | solve [lks] | apply lk_bindT; [solve [lks]|intros ?]
  | match goal with |- lk (match ?x with _ => _ end) _ => destruct x eqn:? end].
Lemma lk_give_children f a b : lk (give_children f a b) Any. Proof. sm. Qed.
Lemma lk_replace_ring f a b : lk (replace_ring f a b) Any.
Proof.
  unfold replace_ring. destruct (opt_is _ _); [apply lk_raise|]. apply lk_bindT.
  { apply lk_same. apply nf_iter_children; [typeclasses eauto|]. intros. nf_auto. }
  intros _. apply lk_bindT; [sm|]. intros x. apply lk_bindT; [sm|]. intros _. apply lk_bindT; [|intros _; sm].
  apply lk_rput. intros y _ j K. discriminate.
Qed.
(** ** Runs of equal vertices *)
Definition same_spot (nodes : list nid) (a b : nat) : Prop :=
  forall k k' i j, (a <= k < b)%nat -> (a <= k' < b)%nat -> nth_error nodes k = Some i -> nth_error nodes k' = Some j -> P0 i = P0 j.
Definition running (nodes : list nid) (count prev index : nat) : Prop :=
  (length nodes <= index)%nat \/ index = S prev /\ (count <= prev)%nat /\ same_spot nodes (prev - count) (S prev).
Lemma spot_single nodes k : same_spot nodes k (S k).
Proof. intros a b i j A B Ea Eb. assert (a = b) by lia. congruence. Qed.
Lemma spot_extend nodes a p x y : (a <= p)%nat -> same_spot nodes a (S p) -> nth_error nodes p = Some x -> nth_error nodes (S p) = Some y -> P0 x = P0 y ->
  same_spot nodes a (S (S p)).
Proof.
  intros L H Hx Hy E k k' i j A B Hi Hj.
  assert (X : forall k i, (a <= k < S (S p))%nat -> nth_error nodes k = Some i -> P0 i = P0 y).
  { intros h z D Hz. destruct (Nat.eq_dec h (S p)) as [->|Np]; [congruence|]. rewrite <- E. apply (H h p); auto; lia. }
  rewrite (X k i), (X k' j); auto.
Qed.
Lemma lk_nth nodes k : lk (lift (nth_res nodes k)) (fun i : nid => nth_error nodes k = Some i).
Proof. apply lk_lift. intros i. unfold nth_res. destruct (nth_error nodes k); [congruence|discriminate]. Qed.
Lemma lk_node_eq i j : lk (node_eq i j) (fun e => e = true -> P0 i = P0 j).
Proof.
  intros s e s' P E. change (Ok (point_eqb (npos (node_at s i)) (npos (node_at s j)), s) = Ok (e, s')) in E. injection E as <- <-. split; [exact P|].
  intros T. apply MiscP.point_eqb_eq in T. rewrite !(al_place _ P) in T. exact T.
Qed.
Section Conn.
Context (HK : Kn).
Lemma lk_conn_get r : lk (conn_get r) (Forall gpair).
Proof. apply lk_gets. intros s P. apply (al_conn _ P HK). Qed.
Lemma lk_conn_set r l : Forall gpair l -> lk (conn_set r l) Any.
Proof.
  intros H. apply lk_modify. intros s [A1 A2 A3 A4 A5 A6 A7 A8]. split; auto. intros k q. cbn. rewrite hget_hset. destruct (Pos.eqb r q); auto.
Qed.
Lemma lk_conn_add r p : gpair p -> lk (conn_add r p) Any.
Proof. intros H. unfold conn_add. eapply lk_bind; [apply lk_conn_get|]. intros l F. apply lk_conn_set. apply Forall_app. auto. Qed.
Lemma lk_loop_scan f a b c d e l : Forall gpair l -> lk (loop_scan f a b c d e l)
  (fun r => (forall p, fst r = Some p -> gpair p) /\ Forall gpair (snd r)).
Proof.
  intros F. induction F as [|[x y] l H F IH]; cbn [loop_scan].
  - apply lk_ret. split; [discriminate|constructor].
  - apply lk_bindT; [lkk|]. intros n1. apply lk_bindT; [lkk|]. intros n2. apply lk_bindT; [lkk|]. intros dr. destruct dr; [exact IH|].
    apply lk_bindT; [lkk|]. intros hit. destruct hit; [apply lk_ret; cbn; split; [intros p [= <-]; exact H|constructor]|].
    eapply lk_bind; [exact IH|]. intros r (H1 & H2). apply lk_ret. cbn. split; [exact H1|]. constructor; assumption.
Qed.
Lemma lk_find_intersect_loop f dp : forall a b c v d e,
  lk (find_intersect_loop f dp a b c v d e) (fun r => forall l, fst r = Some l -> Forall ginter l).
Proof.
  induction dp as [|dp IH]; intros a b c v d e; cbn [find_intersect_loop]; [apply lk_nofuel|].
  eapply lk_bind; [apply lk_conn_get|]. intros prs Hp. eapply lk_bind; [apply lk_loop_scan, Hp|]. intros [o pr'] [H1 H2].
  cbn [fst snd] in *. destruct o as [p|].
  - apply lk_ret. cbn. intros l [= <-]. constructor; [apply H1; reflexivity|constructor].
  - apply lk_bindT; [apply lk_conn_set, H2|]. intros _.
    match goal with |- lk (_ _ ?w) _ => generalize w end.
    induction H2 as [|[x y] l Hxy H2 IHl]; intros w.
    + apply lk_ret. cbn. discriminate.
    + eapply lk_bind; [apply lk_nd|]. intros n2 _. destruct (n_ring n2) as [r|]; [|apply IHl].
      destruct (existsb _ _); [apply IHl|]. apply lk_bindT; [lks|]. intros x0. destruct (_ && _); [apply IHl|].
      apply lk_bindT; [lks|]. intros ar. apply lk_bindT; [lks|]. intros z. destruct z; [apply IHl|].
      apply lk_bindT; [lks|]. intros eq. destruct eq; [apply IHl|].
      eapply lk_bind; [apply IH|]. intros [g w'] Hg. cbn [fst snd] in *. destruct g as [items|]; [|apply IHl].
      apply lk_ret. cbn. intros l0 [= <-]. constructor; [exact Hxy|]. apply Hg. reflexivity.
Qed.
Lemma lk_direct_scan a b l : Forall gpair l -> lk (direct_scan a b l)
  (fun r => (forall p, snd (fst r) = Some p -> gpair p) /\ Forall gpair (snd r)).
Proof.
  intros F. induction F as [|[x y] l H F IH]; cbn [direct_scan].
  - apply lk_ret. split; [discriminate|constructor].
  - eapply lk_bind; [apply lk_nd|]. intros n1 _. eapply lk_bind; [apply lk_nd|]. intros n2 _.
    destruct (_ || _); [exact IH|]. destruct (opt_is _ _).
    + apply lk_bindT; [lks|]. intros e. destruct e.
      * eapply lk_bind; [apply IH|]. intros [[g it] kept] [H1 H2]. apply lk_ret. cbn in *. split; [exact H1|]. constructor; assumption.
      * apply lk_ret. cbn. split; [intros p [= <-]; exact H|]. constructor; assumption.
    + eapply lk_bind; [apply IH|]. intros [[g it] kept] [H1 H2]. apply lk_ret. cbn in *. split; [exact H1|]. constructor; assumption.
Qed.
Lemma lk_chain_scan f a b c d l : Forall gpair l -> forall v, lk (chain_scan f a b c d l v)
  (fun r => forall l, r = Some l -> Forall ginter l).
Proof.
  intros F. induction F as [|[x y] l H F IH]; intros v; cbn [chain_scan].
  - apply lk_ret. discriminate.
  - eapply lk_bind; [apply lk_nd|]. intros n2 _. destruct (n_ring n2) as [r|]; [|apply IH].
    destruct (Pos.eqb r c); [apply IH|]. apply lk_bindT; [lks|]. intros e. apply lk_bindT; [lks|]. intros x0.
    destruct (_ || _); [apply IH|]. apply lk_bindT; [lks|]. intros ar. apply lk_bindT; [lks|]. intros z.
    destruct z; [apply IH|]. eapply lk_bind; [apply lk_find_intersect_loop|]. intros [g w'] Hg. cbn [fst snd] in *.
    destruct g as [items|]; [|apply IH]. apply lk_ret. intros l0 [= <-]. constructor; [exact H|]. apply Hg. reflexivity.
Qed.
Lemma lk_origin_swap f a b c l : G b -> G c -> P0 b = P0 c -> Forall ginter l -> lk (origin_swap f a b c l)
  (fun r => let '(l2, ro, p1, p2, ch) := r in Forall ginter l2 /\ gpair (p1, p2)).
Proof.
  intros Hb Hc Hbc F. induction F as [|[r [x y]] l H F IH]; cbn [origin_swap].
  - apply lk_ret. repeat split; auto.
  - apply lk_bindT; [lks|]. intros h. destruct h.
    + eapply lk_bind; [apply IH|]. intros [[[[l2 ro] p1] p2] ch] (H1 & H2). apply lk_ret.
      split; auto.
    + apply lk_ret. split; [|exact H]. constructor; [repeat split; assumption|assumption].
Qed.
Lemma lk_moved_pairs f l : Forall gpair l -> lk (moved_pairs f l) (Forall ginter).
Proof.
  intros F. induction F as [|[x y] l H F IH]; cbn [moved_pairs]; [lks|].
  eapply lk_bind; [apply lk_nd|]. intros n1 _. eapply lk_bind; [apply lk_nd|]. intros n2 _.
  eapply lk_bind with (p := Forall ginter).
  - destruct (n_ring n1) as [r1|]; [|lks]. destruct (n_ring n2) as [r2|]; [|lks].
    destruct (Pos.eqb r1 r2); [lks|]. apply lk_bindT; [lks|]. intros h1. apply lk_bindT; [lks|]. intros h2.
    apply lk_ret. destruct h2; constructor; [exact H|constructor].
  - intros here Hh. eapply lk_bind; [apply IH|]. intros rest Hr. apply lk_ret. apply Forall_app. auto.
Qed.
Lemma lk_origin_pairs f r l : Forall gpair l -> lk (origin_pairs f r l)
  (fun x => Forall ginter (fst x) /\ Forall gpair (snd x)).
Proof.
  intros F. induction F as [|[x y] l H F IH]; cbn [origin_pairs]; [lks|].
  eapply lk_bind; [apply lk_nd|]. intros n1 _. eapply lk_bind; [apply lk_nd|]. intros n2 _.
  eapply lk_bind with (p := fun x => Forall ginter (fst x) /\ Forall gpair (snd x)).
  - destruct (n_ring n1) as [r1|]; [|lks]. destruct (n_ring n2) as [r2|]; [|lks].
    destruct (Pos.eqb r1 r2); [lks|]. apply lk_bindT; [lks|]. intros h1. apply lk_bindT; [lks|]. intros h2.
    apply lk_ret. destruct (negb _), h2; cbn; split; try constructor; try exact H; constructor.
  - intros here [Hh1 Hh2]. eapply lk_bind; [apply IH|]. intros rest [Hr1 Hr2]. apply lk_ret. cbn.
    split; apply Forall_app; auto.
Qed.

Lemma lk_reconnect f a b c d l : G c -> G d -> P0 c = P0 d -> Forall ginter l -> lk (reconnect f a b c d l) Any.
Proof.
  intros Hc Hd Hcd Hl. unfold reconnect. apply lk_bindT; [lks|]. intros h.
  eapply lk_bind with (p := fun r => let '(l2, ro, p1, p2, ch) := (r : list inter * rid * nid * nid * bool) in Forall ginter l2 /\ gpair (p1, p2)).
  { destruct h; [apply lk_origin_swap; assumption|apply lk_ret; repeat split; auto]. }
  intros [[[[l2 ro] p1] p2] ch] (H1 & H2 & H3 & H4). cbn [fst snd] in *. cbv zeta.
  apply lk_bindT; [lks|]. intros oh. apply lk_bindT; [apply lk_switch_nexts; assumption|]. intros _.
  apply lk_bindT. { eapply lk_for; [exact H1|]. intros it Hit. apply lk_switch_nexts; apply Hit. }
  intros _. apply lk_bindT; [apply lk_create_ring|]. intros nw. apply lk_bindT; [apply lk_corrected|]. intros _. apply lk_bindT; [lks|]. intros s1.
  apply lk_bindT; [lks|]. intros s2.
  apply lk_bindT.
  { destruct (_ && _); (apply lk_bindT; [apply lk_first; assumption|intros _]; apply lk_bindT; [lks|intros _];
      apply lk_bindT; [apply lk_first; assumption|intros _]; lks). }
  intros _. apply lk_bindT; [apply lk_update_points|]. intros _. apply lk_bindT; [apply lk_update_points|]. intros _. apply lk_bindT; [lks|]. intros _.
  apply lk_bindT.
  { apply lk_forT. intros it. apply lk_bindT; [lks|]. intros _. destruct oh; [apply lk_replace_ring|]. apply lk_bindT; [lks|]. intros x. apply lk_replace_ring. }
  intros _. apply lk_bindT.
  { destruct oh; (apply lk_bindT; [lks|intros _]); [apply lk_bindT; [lks|intros p]|]; apply lk_give_children. }
  intros _.
  eapply lk_bind with (p := Forall ginter).
  { apply lk_acc; [constructor|]. intros it acc Ha. eapply lk_bind; [apply lk_conn_get|]. intros l0 F0.
    eapply lk_bind; [apply lk_moved_pairs; exact F0|]. intros m Fm. apply lk_bindT; [apply lk_conn_set; constructor|]. intros _.
    apply lk_ret. apply Forall_app. auto. }
  intros m1 Hm1. eapply lk_bind; [apply lk_conn_get|]. intros l3 Hl3. eapply lk_bind; [apply lk_origin_pairs, Hl3|].
  intros op [Ho1 Ho2]. apply lk_bindT; [apply lk_conn_set, Ho2|]. intros _.
  apply lk_for with (p := ginter); [apply Forall_app; auto|]. intros it Hit. apply lk_conn_add, Hit.
Qed.
Lemma lk_process_single f i j : G i -> G j -> P0 i = P0 j -> lk (process_single_intersection f i j) Any.
Proof.
  intros Hi Hj Hij. unfold process_single_intersection.
  eapply lk_bind; [apply lk_nd|]. intros nj _. eapply lk_bind; [apply lk_nd|]. intros nk _.
  destruct (opt_is _ _); [lks|]. apply lk_bindT; [lks|]. intros rj. apply lk_bindT; [lks|]. intros rk.
  apply lk_bindT; [lks|]. intros hj. apply lk_bindT; [lks|]. intros hk. destruct (_ && _); [lks|].
  apply lk_bindT; [lks|]. intros xj.
  assert (K : forall origin parent search o1 o2, G o1 -> G o2 -> P0 o1 = P0 o2 -> lk (
         xs <- rg search ;;
         if negb (opt_is parent (r_parent xs)) then ret tt
         else
           (pairs <- conn_get search ;;
            ds <- direct_scan origin o1 pairs ;;
            let '(found, item, kept) :=
              (ds : bool * option (nid * nid) * list (nid * nid)) in
            conn_set search kept ;;
            fi <- match item with
                  | Some p => ret (true, [(search, p)])
                  | None =>
                      (c <- chain_scan f parent origin search o2 kept [search] ;;
                       match c with
                       | Some items => ret (true, items)
                       | None => ret (found, [])
                       end)
                  end ;;
            let '(found, ilist) := (fi : bool * list inter) in
            if negb found then
              (conn_add origin (o1, o2) ;; conn_add search (o2, o1))
            else
              match ilist with
              | [] =>
                  (l <- conn_get origin ;;
                   s <- get ;;
                   let missing := negb (existsb (fun p =>
                     opt_is (n_ring (hget dummy_node (s_nodes s) (snd p))) (Some search)) l) in
                   if missing then conn_add origin (o1, o2) else ret tt)
              | _ => reconnect f parent origin o1 o2 ilist
              end)) Any).
  { intros origin parent search o1 o2 H1 H2 H3.
  apply lk_bindT; [lks|]. intros xs. destruct (negb _); [lks|].
  eapply lk_bind; [apply lk_conn_get|]. intros prs Hp. eapply lk_bind; [apply lk_direct_scan, Hp|].
  intros [[found item] kept] [Hi1 Hi2]. cbn [fst snd] in *. apply lk_bindT; [apply lk_conn_set, Hi2|]. intros _.
  eapply lk_bind with (p := fun x => Forall ginter (snd x)).
  { destruct item as [p|].
    - apply lk_ret. cbn. constructor; [apply Hi1; reflexivity|constructor].
    - eapply lk_bind; [apply lk_chain_scan, Hi2|]. intros c Hc. destruct c as [items|]; apply lk_ret; cbn; [auto|constructor]. }
  intros [found' il] Hil. cbn [fst snd] in *. destruct (negb found').
  - apply lk_bindT; [|intros _]; apply lk_conn_add; repeat split; cbn; auto.
  - destruct il as [|x il]; [|apply lk_reconnect; assumption].
    eapply lk_bind; [apply lk_conn_get|]. intros l3 _. apply lk_bindT; [lks|]. intros s. cbv zeta.
    destruct (negb _); [|lks]. apply lk_conn_add; repeat split; assumption. }
  destruct (negb hj); [apply K; assumption|]. destruct (negb hk); apply K; auto.
Qed.

Lemma lk_correct_chained_repeats f l a b : same_spot l a b -> lk (correct_chained_repeats f l a b) Any.
Proof.
  intros SS. unfold correct_chained_repeats. apply lk_for with (p := fun k => (a <= k < b)%nat); [apply Forall_forall; intros k H; apply in_seq in H; lia|]. intros k Lk.
  eapply lk_bind; [apply lk_nth|]. intros i Hi. eapply lk_bind; [apply lk_nd|]. intros n (Hn & _).
  destruct (is_none (n_ring n)) eqn:T; [lks|]. assert (Gi : G i) by (apply Hn; destruct (n_ring n); discriminate).
  apply lk_for with (p := fun k => (a <= k < b)%nat); [apply Forall_forall; intros k' H; apply in_seq in H; lia|]. intros k' Lk'.
  eapply lk_bind; [apply lk_nth|]. intros j Hj. eapply lk_bind; [apply lk_nd|]. intros m (Hm & _).
  destruct (is_none (n_ring m)) eqn:T'; [lks|]. assert (Gj : G j) by (apply Hm; destruct (n_ring m); discriminate).
  apply lk_process_single; [assumption|assumption|]. apply (SS k k'); assumption.
Qed.
Lemma lk_for_repeats l f : (forall a b, same_spot l a b -> lk (f a b) Any) -> lk (for_repeats l f) Any.
Proof.
  intros H. unfold for_repeats. apply lk_loop with (inv := fun '(count, p, k) => running l count p k); [|right; split; [reflexivity|split; [lia|apply spot_single]]].
  intros ((count & p) & k) Hr. destruct (Nat.ltb_spec k (length l)) as [L|L]; [|lks]. destruct Hr as [Hr|(-> & Lc & SS)]; [lia|].
  eapply lk_bind; [apply lk_nth|]. intros x Hx. eapply lk_bind; [apply lk_nth|]. intros y Hy. eapply lk_bind; [apply lk_node_eq|]. intros e He. cbv zeta.
  assert (SS' : e = true -> same_spot l (p - count) (S (S p))) by (intros T; apply (spot_extend l _ p x y); auto; lia).
  destruct e; cbn [andb].
  - specialize (SS' eq_refl). destruct (Nat.ltb_spec (S (S p)) (length l)) as [L2|L2].
    + apply lk_ret. right. split; [reflexivity|]. split; [lia|]. exact SS'.
    + change (S count =? 0)%nat with false. cbv iota. apply lk_bindT; [apply H; replace (S (S p) - S (S count))%nat with (p - count)%nat by lia; exact SS'|]. intros _. apply lk_ret. left. lia.
  - destruct (Nat.eqb_spec count 0) as [->|Nc].
    + apply lk_ret. right. split; [reflexivity|]. split; [lia|]. rewrite Nat.sub_0_r. apply spot_single.
    + apply lk_bindT; [apply H; replace (S p - S count)%nat with (p - count)%nat by lia; exact SS|]. intros _. apply lk_ret. right. split; [reflexivity|]. split; [lia|]. rewrite Nat.sub_0_r. apply spot_single.
Qed.
End Conn.
Lemma lk_cut_rest fuel r i j : G i -> G j -> lk (cut_rest fuel r i j) Any.
Proof.
  intros Gi Gj. unfold cut_rest. apply lk_bindT; [apply lk_create_ring|]. intros new. apply lk_bindT; [lks|]. intros s1. apply lk_bindT; [lks|]. intros s2.
  apply lk_bindT.
  { destruct (num_gtb _ _); (apply lk_bindT; [apply lk_first; assumption|intros _]; apply lk_bindT; [lks|intros _];
      apply lk_bindT; [apply lk_first; assumption|intros _]; lks). }
  intros _. apply lk_bindT; [apply lk_update_points|]. intros _. lks.
Qed.
Lemma lk_cut fuel i j : P0 i = P0 j -> lk (correct_self_intersection fuel i j) Any.
Proof.
  intros EP.   unfold correct_self_intersection. eapply lk_bind; [apply lk_nd|]. intros a (Ha & _). eapply lk_bind; [apply lk_nd|]. intros b (Hb & _).
  destruct (negb (opt_is (n_ring a) (n_ring b))) eqn:T; [lks|]. apply negb_false_iff in T.
  apply lk_bind with (p := fun r => G i /\ G j).
  { apply lk_deref. intros r Er. split; [apply Ha; congruence|]. apply Hb. rewrite Er in T. destruct (n_ring b); discriminate. }
  intros r (Gi & Gj) s o s' P E. split; [|exact I].
  destruct (al_prev _ P i Gi) as (ip & Ni & Gip & Pi). destruct (al_prev _ P j Gj) as (jp & Nj & Gjp & Pj).
  rewrite (bind_run _ _ _ _ _ (prev_of_run _ _ _ Ni)) in E. rewrite (bind_run _ _ _ _ _ (prev_of_run _ _ _ Nj)) in E.
  rewrite (bind_run _ _ _ _ _ (set_prev_s s i (Some jp))) in E.
  rewrite (bind_run _ _ _ _ _ (set_next_s _ jp (Some i))) in E.
  rewrite (bind_run _ _ _ _ _ (set_prev_s _ j (Some ip))) in E.
  rewrite (bind_run _ _ _ _ _ (set_next_s _ ip (Some j))) in E.
  refine (proj1 (lk_cut_rest fuel r i j Gi Gj _ _ _ _ E)).
  destruct (Pos.eq_dec i j) as [->|N].
  - rewrite Ni in Nj. injection Nj as <-. apply (alive_links s); auto.
    + intros k. unfold ring_of, sprev, snext. rewrite !node_at_put. eqbs; reflexivity.
    + intros k Gk. repeat (rewrite ?next_snext, ?next_sprev). destruct (al_next _ P k Gk) as (h & X & Y & Z).
      destruct (Pos.eqb_spec k ip) as [->|Ib].
      * exists j. repeat (rewrite ?prev_snext, ?prev_sprev). rewrite Pos.eqb_refl. auto.
      * exists h. repeat (rewrite ?prev_snext, ?prev_sprev). destruct (Pos.eqb_spec h j) as [->|_]; [congruence|auto].
    + intros k Gk. repeat (rewrite ?prev_snext, ?prev_sprev). destruct (al_prev _ P k Gk) as (h & X & Y & Z).
      destruct (Pos.eqb_spec k j) as [->|Ib].
      * exists ip. repeat (rewrite ?next_snext, ?next_sprev). rewrite Pos.eqb_refl. auto.
      * exists h. repeat (rewrite ?next_snext, ?next_sprev). destruct (Pos.eqb_spec h ip) as [->|_]; [congruence|auto].
    + intros i. unfold sprev, snext. rewrite !node_at_put. eqbs; reflexivity.
    + apply sides_idle; [reflexivity| | |].
      * intros i. unfold ring_of, sprev, snext. rewrite !node_at_put. eqbs; reflexivity.
      * intros i. repeat (rewrite ?next_snext, ?next_sprev). destruct (Pos.eqb_spec i ip) as [->|_]; congruence.
      * intros i. unfold sprev, snext. rewrite !node_at_put. eqbs; reflexivity.
  - assert (ip <> jp) by (intros ->; congruence). apply (alive_relinked s _ jp j ip i); auto. apply relinked_pnpn; congruence.
Qed.
Lemma lk_acc_in {A B} (l : list A) (f : A -> B -> prog B) (q : A -> Prop) b : Forall q l -> (forall a b, q a -> lk (f a b) Any) -> lk (forM_acc l f b) Any.
Proof.
  intros F H. revert b. unfold forM_acc. induction F as [|a l Ha F IH]; intros b; [apply lk_ret; exact I|]. apply lk_bindT; [apply H, Ha|]. intros b'. apply IH.
Qed.
Lemma lk_repeated fuel nodes a b acc : same_spot nodes a b -> lk (correct_repeated_points fuel nodes a b acc) Any.
Proof.
  intros SS. unfold correct_repeated_points. apply lk_acc_in with (q := fun k => (a <= k < b)%nat); [apply Forall_forall; intros k H; apply in_seq in H; lia|].
  intros k c Lk. eapply lk_bind; [apply lk_nth|]. intros i Hi. apply lk_bindT; [lks|]. intros n.
  destruct (is_none (n_ring n)); [lks|]. apply lk_acc_in with (q := fun k => (a <= k < b)%nat); [apply Forall_forall; intros k' H; apply in_seq in H; lia|].
  intros k' c' Lk'. eapply lk_bind; [apply lk_nth|]. intros j Hj. apply lk_bindT; [lks|]. intros m.
  destruct (is_none (n_ring m)); [lks|]. apply lk_bindT; [apply lk_cut; apply (SS k k'); assumption|]. intros o. lks.
Qed.
Lemma lk_find_repeated fuel r : lk (find_and_correct_repeated_points fuel r) Any.
Proof.
  unfold find_and_correct_repeated_points. apply lk_bindT; [lks|]. intros l.
  apply lk_loop with (inv := fun '(count, p, k, _) => running l count p k); [|right; split; [reflexivity|split; [lia|apply spot_single]]].
  intros (((count & p) & k) & acc) Hr. destruct (Nat.ltb_spec k (length l)) as [L|L]; [|lks]. destruct Hr as [Hr|(-> & Lc & SS)]; [lia|].
  eapply lk_bind; [apply lk_nth|]. intros x Hx. eapply lk_bind; [apply lk_nth|]. intros y Hy. eapply lk_bind; [apply lk_node_eq|]. intros e He. cbv zeta.
  assert (SS' : e = true -> same_spot l (p - count) (S (S p))) by (intros T; apply (spot_extend l _ p x y); auto; lia).
  destruct e; cbn [andb].
  - specialize (SS' eq_refl). destruct (Nat.ltb_spec (S (S p)) (length l)) as [L2|L2].
    + apply lk_ret. right. split; [reflexivity|]. split; [lia|]. exact SS'.
    + change (S count =? 0)%nat with false. cbv iota. apply lk_bindT; [apply lk_repeated; replace (S (S p) - S (S count))%nat with (p - count)%nat by lia; exact SS'|]. intros acc'. apply lk_ret. left. lia.
  - destruct (Nat.eqb_spec count 0) as [->|Nc].
    + apply lk_ret. right. split; [reflexivity|]. split; [lia|]. rewrite Nat.sub_0_r. apply spot_single.
    + apply lk_bindT; [apply lk_repeated; replace (S p - S count)%nat with (p - count)%nat by lia; exact SS|]. intros acc'. apply lk_ret. right. split; [reflexivity|]. split; [lia|]. rewrite Nat.sub_0_r. apply spot_single.
Qed.
Lemma lk_self_intersections fuel b : lk (correct_self_intersections fuel b) Any.
Proof.
  unfold correct_self_intersections. apply lk_bindT; [lks|]. intros l. apply lk_acc; [exact I|]. intros r acc _.
  apply lk_bindT; [|intros z; lks]. unfold correct_ring_self_intersections. apply lk_bindT; [lks|]. intros x. destruct (_ || _); [lks|].
  apply lk_bindT; [apply lk_find_repeated|]. intros nr. apply lk_bindT; [destruct b; lks|]. intros _. apply lk_bindT; [apply lk_corrected|]. intros _. lks.
Qed.
(** ** Live vertices lie on circles *)
Lemma chained_snoc s a l j : chained s a l -> linked s (List.last l a) j -> chained s a (l ++ [j]).
Proof.
  revert a. induction l as [|b l IH]; intros a; cbn [app chained]; [cbn; auto|]. intros (L & C) K. split; [exact L|]. apply IH; [exact C|].
  rewrite last_cons_hd in K. exact K.
Qed.
Lemma alive_circle s n : alive s -> G n -> exists l, circle s (n :: l) /\ forall i, In i (n :: l) -> G i.
Proof.
  intros P Gn.
  assert (X : forall k l, NoDup (n :: l) -> chained s n l -> (forall i, In i (n :: l) -> G i) ->
    (Pos.to_nat (s_nnext s) <= k + length l)%nat -> exists l, circle s (n :: l) /\ forall i, In i (n :: l) -> G i).
  { induction k as [|k IH]; intros l ND CH A B.
    - exfalso. assert (L : (length (n :: l) <= pred (Pos.to_nat (s_nnext s)))%nat); [|cbn in L; lia].
      rewrite <- (seq_length (pred (Pos.to_nat (s_nnext s))) 1). rewrite <- (map_length Pos.to_nat). apply NoDup_incl_length.
      + apply FinFun.Injective_map_NoDup; [|exact ND]. intros x y. apply Pos2Nat.inj.
      + intros x I0. apply in_map_iff in I0 as (y & <- & I0). apply in_seq. pose proof (al_known _ P y (A y I0)). lia.
    - assert (Gl : G (List.last l n)) by (apply A; apply CircleP.last_in).
      destruct (al_next _ P _ Gl) as (j & Nj & Gj & Pj). destruct (Pos.eq_dec j n) as [->|Nn].
      + exists l. split; [|exact A]. split; [exact ND|]. apply chained_snoc; [exact CH|split; assumption].
      + apply (IH (l ++ [j])).
        * change (n :: l ++ [j]) with ((n :: l) ++ [j]). apply nodup_app. split; [exact ND|]. split; [repeat constructor; intros []|].
          intros i I1 [<-|[]]. destruct I1 as [E|I1]; [congruence|].
          apply in_split in I1 as (l1 & l2 & ->). apply chained_app in CH as (CH & _). apply chained_last in CH as (_ & CH).
          rewrite last_last_app in Pj. rewrite Pj in CH. injection CH as CH.
          apply (nodup_app (n :: l1) (j :: l2)) in ND as (_ & _ & D). apply (D (List.last l1 n)); [apply CircleP.last_in|].
          rewrite <- CH. apply CircleP.last_in.
        * apply chained_snoc; [exact CH|split; assumption].
        * intros i I1. change (n :: l ++ [j]) with ((n :: l) ++ [j]) in I1. apply in_app_iff in I1 as [I1|[<-|[]]]; auto.
        * rewrite app_length. cbn. lia. }
  apply (X (Pos.to_nat (s_nnext s)) []); [repeat constructor; intros []|exact I| |lia]. intros i [<-|[]]. exact Gn.
Qed.
End Live.

Lemma alive_weak G K P0 E0 s : alive G True P0 E0 s -> alive G K P0 E0 s.
Proof. intros [A1 A2 A3 A4 A5 A6 A7 A8]. split; auto. Qed.
Lemma lk_correct_chained_rings G P0 E0 f : lk G False P0 E0 (correct_chained_rings f) Any.
Proof.
  unfold correct_chained_rings. apply lk_bindT; [apply lk_same; nf_auto|]. intros l. destruct (_ <? _)%nat; [apply lk_ret; exact I|].
  intros s u s' [A1 A2 A3 A4 A5 A6 A7 A8] E. split; [|exact I]. apply alive_weak.
  refine (proj1 (lk_for_repeats G True P0 E0 l _ _ _ _ _ _ E)).
  - intros a b SS. apply lk_correct_chained_repeats; [exact I|exact SS].
  - split; auto. intros _ r. cbn. unfold hget. rewrite PositiveMap.gempty. constructor.
Qed.
Lemma lk_late G P0 E0 fuel : lk G False P0 E0 (loopM fuel (fun _ : unit =>
     (correct_chained_rings fuel ;;
      again <- correct_self_intersections fuel true ;;
      ret (if (again : bool) then inl tt else inr tt))) tt) Any.
Proof.
  apply lk_loopT. intros _. apply lk_bindT; [apply lk_correct_chained_rings|]. intros _. apply lk_bindT; [apply lk_self_intersections|]. intros b.
  apply lk_ret. exact I.
Qed.
Lemma well_alive s : well_ringed s -> alive (fun i => ring_of s i <> None) False (fun i => npos (node_at s i)) (sides s) s.
Proof.
  intros W.
  assert (X : forall i, ring_of s i <> None -> exists l, circle s (i :: l) /\ forall j, In j (i :: l) -> ring_of s j <> None).
  { intros i H. destruct (ring_of s i) as [r|] eqn:R; [|congruence]. destruct (well_at s i r W R) as (l & C & M). exists l. split; [exact C|].
    intros j J. apply M in J. congruence. }
  split.
  - tauto.
  - intros i H. destruct (X i H) as (l & (ND & C) & M). destruct l as [|j l].
    + destruct C as ((C1 & C2) & _). exists i. auto.
    + destruct C as ((C1 & C2) & _). exists j. split; [exact C1|]. split; [apply M; right; left; reflexivity|exact C2].
  - intros i H. destruct (X i H) as (l & (ND & C) & M). apply chained_last in C as (C1 & C2). exists (List.last l i). split; [exact C2|].
    split; [apply M; apply CircleP.last_in|exact C1].
  - intros r n F. rewrite (wr_first s W r n F). discriminate.
  - intros i H. destruct (ring_of s i) as [r|] eqn:R; [|congruence]. apply (wr_known s W i r R).
  - intros [].
  - reflexivity.
  - reflexivity.
Qed.
(** ** [correct_topology] *)
Lemma topology_circles fuel s u s' : well_ringed s -> correct_topology fuel s = Ok (u, s') ->
  (forall r n, first_of s' r = Some n -> exists l, circle s' (n :: l) /\ forall i, In i (n :: l) -> ring_of s' i <> None) /\
  (forall n, ring_of s' n <> None -> exists l, circle s' (n :: l) /\ forall i, In i (n :: l) -> ring_of s' i <> None).
Proof.
  intros W E. unfold correct_topology in E.
  pose proof (kw_sort_all fuel) as H1. pose proof (kw_orientations fuel) as H2. pose proof (kw_collinear_edges fuel) as H3.
  pose proof (kw_self_intersections fuel false) as H4. pose proof (kw_correct_tree fuel) as H5.
  apply kw_tri in H1, H2, H3, H4, H5.
  enough (X : exists G P0 E0, alive G False P0 E0 s').
  { destruct X as (G & P0 & E0 & A).
    assert (Y : forall n, G n -> exists l, circle s' (n :: l) /\ forall i, In i (n :: l) -> ring_of s' i <> None).
    { intros n Gn. destruct (alive_circle G False P0 E0 s' n A Gn) as (l & C & M). exists l. split; [exact C|]. intros i J. apply (al_live _ _ _ _ _ A). apply M. exact J. }
    split; intros; apply Y; [eapply (al_first _ _ _ _ _ A); eassumption|apply (al_live _ _ _ _ _ A); assumption]. }
  assert (T : tri well_ringed (correct_topology fuel) (fun _ s' => exists G P0 E0, alive G False P0 E0 s')); [|exact (T s u s' W E)].
  unfold correct_topology.
  eapply tri_bind; [exact H1|]. intros ?. eapply tri_bind; [exact H2|]. intros ?. eapply tri_bind; [exact H3|]. intros ?.
  eapply tri_bind; [exact H4|]. intros ?. eapply tri_bind; [exact H5|]. intros ?.
  intros t v t' Wt Et. do 3 eexists. exact (proj1 (lk_late _ _ _ fuel _ _ _ (well_alive _ Wt) Et)).
Qed.
