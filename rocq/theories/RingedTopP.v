(** * The heap stays well ringed: the first corrections of the topology *)
From Coq Require Import ZArith List Bool Lia FMapPositive Permutation.
From Coq Require Import Floats.SpecFloat.
From RecordUpdate Require Import RecordSet.
From Verif Require Import Py Monad Utils Geometry LinearRingM BoundM LocalMinimumM
     StateM PointNodeM RingM SweepM TopologyM WagyuM HoareP SpecRing SpecHeap SpecRings SweepFrameP OrderP VatP FuelP PipP
     CircleP HeapOpsP SplitP NodeFrameP RingedP.
Import ListNotations RecordSetNotations.
Open Scope Z_scope.

(** ** Well ringed except for the first vertices of some rings *)
Record well_but (X : rid -> Prop) (s : st) : Prop := {
  wb_circles : forall r, exists l, members s r l /\ (l = [] \/ circle s l);
  wb_first : forall r n, ~ X r -> first_of s r = Some n -> ring_of s n = Some r;
  wb_known : forall i r, ring_of s i = Some r -> (i < s_nnext s)%positive /\ (r < s_rnext s)%positive
}.
Lemma but_none s : well_ringed s <-> well_but (fun _ => False) s.
Proof. split; intros [A B C]; split; auto. Qed.
Lemma but_mono (X Y : rid -> Prop) s : (forall r, X r -> Y r) -> well_but X s -> well_but Y s.
Proof. intros H [A B C]. split; auto. Qed.
Lemma but_well X s : well_but X s -> (forall r n, X r -> first_of s r = Some n -> ring_of s n = Some r) ->
  (forall r, X r \/ ~ X r) -> well_ringed s.
Proof. intros [A B C] H D. split; auto. intros r n E. destruct (D r); auto. Qed.
Lemma but_at X s i r : well_but X s -> ring_of s i = Some r -> exists m, circle s (i :: m) /\ members s r (i :: m).
Proof. intros W H. destruct (wb_circles X s W r) as (l & M & C). eapply members_rotate; eassumption. Qed.
Lemma but_change X s s' (A : rid -> Prop) :
  well_but X s -> (forall r, A r \/ ~ A r) ->
  (forall i r, ~ A r -> ring_of s i = Some r -> node_at s' i = node_at s i) ->
  (forall i r, ~ A r -> ring_of s' i = Some r -> ring_of s i = Some r) ->
  (forall r, A r -> exists l, members s' r l /\ (l = [] \/ circle s' l)) ->
  (forall r n, ~ X r -> first_of s' r = Some n -> ring_of s' n = Some r) ->
  (forall i r, ring_of s' i = Some r -> (i < s_nnext s')%positive /\ (r < s_rnext s')%positive) ->
  well_but X s'.
Proof.
  intros W D U N C F K. split; [|exact F|exact K]. intros r. destruct (D r) as [Hr|Hr]; [apply C; exact Hr|].
  destruct (wb_circles X s W r) as (l & M & Cl). exists l. split.
  - intros i. split.
    + intros H. apply M. eapply N; eassumption.
    + intros H. pose proof (members_of _ _ _ _ M H) as E. unfold ring_of in *. rewrite (U i r Hr E). exact E.
  - destruct Cl as [Cl|Cl]; [left; exact Cl|right]. apply (circle_same s); [|exact Cl].
    intros i H. apply (U i r Hr). eapply members_of; eassumption.
Qed.
Lemma but_drops X Y s s' : drops Y s s' -> well_but X s -> well_but X s'.
Proof.
  intros (A1&A2&A3&A4&A5) W. apply (but_change X s s' (fun _ => False) W); auto.
  - intros i r _. unfold ring_of. rewrite A1. auto.
  - intros r [].
  - intros r n N H. unfold ring_of. rewrite A1. destruct (A5 r) as ([E|(_ & E)] & _); [|congruence]. apply (wb_first X s W); congruence.
  - intros i r H. unfold ring_of in H. rewrite A1 in H. rewrite A2, A3. apply (wb_known X s W i r H).
Qed.
Lemma but_same X s s' : same_ringed s s' -> well_but X s -> well_but X s'.
Proof. intros H. apply (but_drops X (fun _ => False)). apply drops_same. exact H. Qed.
Lemma but_rput (X : rid -> Prop) s r f : well_but X s ->
  (forall n, ~ X r -> r_node (f (ring_at s r)) = Some n -> ring_of s n = Some r) -> well_but X (rput s r f).
Proof.
  intros W H. apply (but_change X s _ (fun _ => False) W); auto.
  - intros q [].
  - intros q n N. rewrite first_rput. destruct (Pos.eqb_spec r q) as [<-|_]; [apply H; exact N|]. apply (wb_first X s W); exact N.
  - apply (wb_known X s W).
Qed.
(** links between neighbours *)
Lemma circle_next s i m j : circle s (i :: m) -> n_next (node_at s i) = Some j -> j = hd i m.
Proof. intros (_ & C) E. destruct m as [|a m]; cbn in C; destruct C as ((L & _) & _); cbn; congruence. Qed.
Lemma circle_prev s i m j : circle s (i :: m) -> n_prev (node_at s i) = Some j -> j = List.last m i.
Proof. intros C E. destruct (circle_last _ _ _ C). congruence. Qed.
Lemma well_next s i j r : well_ringed s -> ring_of s i = Some r -> n_next (node_at s i) = Some j ->
  ring_of s j = Some r /\ n_prev (node_at s j) = Some i.
Proof.
  intros W H E. destruct (well_at s i r W H) as (m & C & M). rewrite (circle_next _ _ _ _ C E). split.
  - apply M. destruct m; cbn; auto.
  - destruct C as (_ & C). destruct m; cbn in *; apply C.
Qed.
Lemma well_prev s i j r : well_ringed s -> ring_of s i = Some r -> n_prev (node_at s i) = Some j ->
  ring_of s j = Some r /\ n_next (node_at s j) = Some i.
Proof.
  intros W H E. destruct (well_at s i r W H) as (m & C & M). rewrite (circle_prev _ _ _ _ C E). split.
  - apply M. apply CircleP.last_in.
  - apply (circle_last _ _ _ C).
Qed.

(** ** Reversing *)
Lemma well_reverse s n r fuel u s' : well_ringed s -> ring_of s n = Some r -> reverse_nodes fuel n s = Ok (u, s') ->
  well_ringed s' /\ ring_of s' n = Some r.
Proof.
  intros W H E. destruct (well_at s n r W H) as (l & C & M).
  destruct (reverse_nodes_circle s n l (Nat.max fuel (length (n :: l))) C (Nat.le_max_r _ _)) as (s1 & E1 & C1 & F & SB).
  pose proof (lem_Ok _ _ _ _ (fuel_reverse_nodes fuel (Nat.max fuel (length (n :: l))) (Nat.le_max_l _ _) n) E) as E2.
  rewrite E1 in E2. injection E2 as <- <-. clear E E1.
  assert (U : forall i, ring_of s1 i = ring_of s i) by (intros i; apply (flipped_same _ _ _ F)).
  destruct (sbn_next _ _ SB) as (Hn & Hr & _). split; [|rewrite U; exact H].
  apply (well_change s s1 (eq r) W).
  - intros q. destruct (Pos.eq_dec r q); auto.
  - intros i q N Q. apply F. intros I. apply M in I. congruence.
  - intros i q _. rewrite U. auto.
  - intros q <-. exists (n :: rev l). split; [|right; exact C1]. intros i. rewrite U, (M i). cbn. rewrite <- in_rev. tauto.
  - intros q m. rewrite (sbn_first _ _ _ SB), U. apply (wr_first s W).
  - intros i q. rewrite U, Hn, Hr. apply (wr_known s W).
Qed.

(** ** Clearing the vertices of a ring *)
Definition wiped (m : list nid) (s s' : st) : Prop :=
  (forall i, In i m -> node_at s' i = bare (node_at s i)) /\ only_vertices m s s'.
Definition clear_body (cursor : option nid) : prog (option nid + unit) :=
  match cursor with
  | None => ret (inr tt)
  | Some i =>
      bind (nd i) (fun x =>
      bind (upd_node i (fun y => y <| n_prev := None |> <| n_next := None |> <| n_ring := None |>)) (fun _ =>
      ret (inl (n_next x))))
  end.
Fixpoint ends (s : st) (c : nid) (rest : list nid) : Prop :=
  match rest with
  | [] => n_next (node_at s c) = None
  | d :: rest' => n_next (node_at s c) = Some d /\ ends s d rest'
  end.
Lemma ends_frame s s' c l : (forall i, In i (c :: l) -> n_next (node_at s' i) = n_next (node_at s i)) -> ends s c l -> ends s' c l.
Proof.
  revert c. induction l as [|d l IH]; intros c H; cbn; [rewrite H by (left; reflexivity); auto|].
  intros (E & P). rewrite H by (left; reflexivity). split; [exact E|]. apply IH; [|exact P]. intros i Hi. apply H. right. exact Hi.
Qed.
Lemma wiped_nil s : wiped [] s s. Proof. split; [intros i []|intros i _; reflexivity]. Qed.
Lemma clear_loop fuel : forall rest c s u s', NoDup (c :: rest) -> ends s c rest ->
  loopM fuel clear_body (Some c) s = Ok (u, s') -> wiped (c :: rest) s s' /\ same_but_nodes s s'.
Proof.
  induction fuel as [|fuel IH]; intros rest c s u s' ND H E; [discriminate|]. rewrite loopM_S in E.
  replace (clear_body (Some c) s) with (Ok (@inl (option nid) unit (n_next (node_at s c)), put s c bare)) in E by reflexivity.
  assert (W1 : wiped [c] s (put s c bare)).
  { split; [intros i [<-|[]]; apply node_at_put_eq|]. intros i Hi. apply node_at_put_neq. intros ->. apply Hi. left. reflexivity. }
  destruct rest as [|d rest]; cbn [ends] in H.
  - rewrite H in E. destruct fuel as [|fuel]; [discriminate|]. rewrite loopM_S in E. cbn in E. injection E as <- <-.
    split; [exact W1|apply same_but_nodes_put].
  - destruct H as (H1 & H2). rewrite H1 in E. inversion ND as [|? ? Hc ND']. subst.
    destruct (IH rest d (put s c bare) u s' ND') as ((F & O) & SB).
    + revert H2. apply ends_frame. intros i Hi. rewrite node_at_put_neq; [reflexivity|]. intros ->. contradiction.
    + exact E.
    + split; [|eapply same_but_nodes_trans; [apply same_but_nodes_put|exact SB]]. split.
      * intros i [<-|Hi]; [rewrite O by exact Hc; apply node_at_put_eq|].
        rewrite F by exact Hi. rewrite node_at_put_neq; [reflexivity|]. intros ->. contradiction.
      * intros i Hi. rewrite O by (intros I; apply Hi; right; exact I). apply node_at_put_neq. intros ->. apply Hi. left. reflexivity.
Qed.
Lemma last_cons_hd (l : list nid) d c : List.last (d :: l) c = List.last l d.
Proof. revert d c. induction l as [|e l IH]; intros d c; [reflexivity|]. change (List.last (e :: l) c = List.last (e :: l) d). rewrite !IH. reflexivity. Qed.
Lemma last_last_app (a j : nid) l1 l2 : List.last (l1 ++ j :: l2) a = List.last l2 j.
Proof. revert a. induction l1 as [|b l1 IH]; intros a; [apply last_cons_hd|]. cbn [app]. rewrite last_cons_hd. apply IH. Qed.
Lemma chained_ends s s' c l a : chained s c (l ++ [a]) -> NoDup (c :: l) ->
  n_next (node_at s' (List.last l c)) = None -> (forall i, i <> List.last l c -> n_next (node_at s' i) = n_next (node_at s i)) ->
  ends s' c l.
Proof.
  revert c. induction l as [|d l IH]; intros c C ND HN HO; [exact HN|].
  cbn [app chained] in C. destruct C as ((L & _) & C). inversion ND as [|? ? Hc ND']. subst.
  assert (EL : List.last (d :: l) c = List.last l d) by apply last_cons_hd.
  rewrite EL in *. split.
  - rewrite HO; [exact L|]. intros ->. apply Hc. apply CircleP.last_in.
  - apply IH; assumption.
Qed.
Lemma clear_run s n l fuel u s' : circle s (n :: l) -> clear_nodes fuel n s = Ok (u, s') ->
  wiped (n :: l) s s' /\ same_but_nodes s s'.
Proof.
  intros C E. pose proof C as (ND & CH). pose proof (circle_last _ _ _ C) as (L1 & L2).
  unfold clear_nodes in E. rewrite (bind_run _ _ _ _ _ (prev_of_run s n _ L2)) in E.
  rewrite (bind_run _ _ _ _ _ (set_next_s s _ _)) in E. set (p := List.last l n) in *.
  destruct (clear_loop fuel l n (snext s p None) u s' ND) as ((F & O) & SB); [|exact E|].
  - apply (chained_ends s _ n l n CH ND).
    + rewrite next_snext. fold p. rewrite Pos.eqb_refl. reflexivity.
    + fold p. intros i Hi. rewrite next_snext. destruct (Pos.eqb_spec i p); [contradiction|reflexivity].
  - split; [|eapply same_but_nodes_trans; [apply sbn_snext|exact SB]]. split.
    + intros i Hi. rewrite F by exact Hi. unfold snext. rewrite node_at_put. destruct (Pos.eqb_spec p i) as [->|_]; reflexivity.
    + intros i Hi. rewrite O by exact Hi. unfold snext. apply node_at_put_neq. intros <-. apply Hi. apply CircleP.last_in.
Qed.
Lemma wiped_ring m s s' i : wiped m s s' -> ring_of s' i = if in_dec Pos.eq_dec i m then None else ring_of s i.
Proof.
  intros (F & O). unfold ring_of. destruct (in_dec Pos.eq_dec i m) as [H|H]; [rewrite F by exact H; reflexivity|rewrite O by exact H; reflexivity].
Qed.
(** rings [X] may keep a stale first vertex; the ring [r] loses its vertices *)
Lemma but_wiped (X : rid -> Prop) s s' r l : well_but X s -> members s r l -> wiped l s s' -> same_but_nodes s s' ->
  well_but (fun q => X q \/ q = r) s' /\ members s' r [].
Proof.
  intros W M WP SB. destruct (sbn_next _ _ SB) as (Hn & Hr & _).
  assert (U := fun i => wiped_ring l s s' i WP).
  assert (N : members s' r []).
  { intros i. rewrite U. destruct (in_dec _ _ _) as [I|I]; [split; [discriminate|intros []]|]. split; [intros H; apply M in H; contradiction|intros []]. }
  split; [|exact N]. apply (but_change _ s s' (eq r)); [apply (but_mono X); [auto|exact W]|..].
  - intros q. destruct (Pos.eq_dec r q); auto.
  - intros i q Q H. apply WP. intros I. apply M in I. congruence.
  - intros i q _. rewrite U. destruct (in_dec _ _ _); [discriminate|auto].
  - intros q <-. exists []. auto.
  - intros q n Q. rewrite (sbn_first _ _ _ SB), U. intros H. pose proof (wb_first X s W q n (fun x => Q (or_introl x)) H) as K.
    destruct (in_dec _ _ _) as [I|I]; [|exact K]. apply M in I. destruct Q. right. congruence.
  - intros i q. rewrite U, Hn, Hr. destruct (in_dec _ _ _); [discriminate|apply (wb_known X s W)].
Qed.
Lemma but_gone (X : rid -> Prop) s r f : well_but (fun q => X q \/ q = r) s -> r_node (f (ring_at s r)) = None -> well_but X (rput s r f).
Proof.
  intros [A B C] H. split; [|intros q n Q|exact C].
  - intros q. destruct (A q) as (l & M & D). exists l. split; [exact M|]. destruct D as [D|D]; [auto|right]. apply (circle_same s); [reflexivity|exact D].
  - rewrite first_rput. destruct (Pos.eqb_spec r q) as [<-|N]; [congruence|]. apply B. intros [K|K]; [auto|congruence].
Qed.
Definition outlive (r : rid) (s s' : st) : Prop :=
  (forall i, ring_of s' i = if opt_is (ring_of s i) (Some r) then None else ring_of s i).
Lemma tri_remove_points (X : rid -> Prop) s0 fuel d r b : ~ X r ->
  tri (fun s => well_but X s /\ (forall i, ring_of s i = ring_of s0 i) /\ forall q, first_of s q = first_of s0 q)
      (remove_ring_and_points fuel d r false b)
      (fun _ s => well_but X s /\ (first_of s0 r = None /\ (forall i, ring_of s i = ring_of s0 i) \/ outlive r s0 s) /\
                  forall q, q <> r -> first_of s q = first_of s0 q).
Proof.
  intros HX. destruct d as [|d]; cbn [remove_ring_and_points]; [apply tri_nofuel|].
  set (J := fun s => well_but X s /\ (forall i, ring_of s i = ring_of s0 i) /\ forall q, first_of s q = first_of s0 q).
  assert (SJ : forall s s', same_ringed s s' -> J s -> J s').
  { intros s s' H (W & U & F). split; [apply (but_same X s); assumption|]. split; intros i; [rewrite (same_ring_of _ _ _ H); apply U|rewrite (same_first _ _ _ H); apply F]. }
  eapply tri_bind; [apply (tri_same _ J); [apply nf_iter_children; [typeclasses eauto|nf_auto]|exact SJ]|]. intros ?.
  eapply tri_bind; [apply (tri_same _ J); [destruct b; nf_auto|exact SJ]|]. intros ?.
  eapply tri_bind; [apply tri_rg|]. intros x. cbv beta.
  set (K := fun s => well_but (fun q => X q \/ q = r) s /\ (first_of s0 r = None /\ (forall i, ring_of s i = ring_of s0 i) \/ outlive r s0 s) /\
                     forall q, first_of s q = first_of s0 q).
  eapply tri_bind with (Q := fun _ => K).
  { destruct (r_node x) as [n|] eqn:En.
    - intros s u s' (-> & W & U & F) E.
      pose proof (wb_first X s W r n HX En) as Rn. destruct (but_at X s n r W Rn) as (l & C & M).
      destruct (clear_run s n l fuel u s' C E) as (WP & SB). destruct (but_wiped X s s' r (n :: l) W M WP SB) as (W' & _).
      split; [exact W'|]. split; [right|intros q; rewrite (sbn_first _ _ _ SB); apply F]. intros i. rewrite (wiped_ring _ _ _ i WP), U.
      destruct (in_dec _ _ _) as [I|I].
      + apply M in I. rewrite U in I. rewrite I. cbn. rewrite Pos.eqb_refl. reflexivity.
      + destruct (opt_is (ring_of s0 i) (Some r)) eqn:O; [|reflexivity]. exfalso. apply I. apply M. rewrite U.
        destruct (ring_of s0 i) as [k|]; [|discriminate]. cbn in O. apply Pos.eqb_eq in O. congruence.
    - apply tri_ret. intros s (-> & W & U & F). split; [apply (but_mono X); auto|]. split; [left|exact F].
      split; [|exact U]. rewrite <- F. exact En. }
  intros ?. eapply tri_bind with (Q := fun _ s => well_but X s /\ (first_of s0 r = None /\ (forall i, ring_of s i = ring_of s0 i) \/ outlive r s0 s) /\
                  forall q, q <> r -> first_of s q = first_of s0 q).
  { intros s u s' (W & U & F) E. rewrite upd_ring_rput in E. injection E as <- <-. split; [apply but_gone; [exact W|reflexivity]|].
    split; [exact U|]. intros q Q. rewrite first_rput. destruct (Pos.eqb_spec r q); [congruence|apply F]. }
  intros ?. apply tri_same; [nf_auto|]. intros s s' H (W & U & F). split; [apply (but_same X s); assumption|]. split.
  - destruct U as [(U1 & U2)|U]; [left|right]; [split; [exact U1|]|]; intros i; rewrite (same_ring_of _ _ _ H); [apply U2|apply U].
  - intros q Q. rewrite (same_first _ _ _ H). apply F. exact Q.
Qed.
Lemma kw_remove_points fuel d r b : kw (remove_ring_and_points fuel d r false b).
Proof.
  intros s u s' E W. apply but_none. apply but_none in W.
  apply (tri_remove_points (fun _ => False) s fuel d r b (fun x => x) s u s'); [|exact E]. auto.
Qed.
#[export] Hint Resolve kw_remove_points : pres.

(** ** Dropping a neighbour *)
Lemma well_dropped s s' i o m r : well_ringed s -> ring_of s i = Some r -> members s r (i :: o :: m) -> circle s' (i :: m) -> ~ In o (i :: m) ->
  node_at s' o = bare (node_at s o) -> (forall j, j <> o -> same_vertex (node_at s j) (node_at s' j)) -> only_vertices (i :: o :: m) s s' ->
  (forall q, first_of s' q = if Pos.eqb q r && opt_is (first_of s r) (Some o) then Some i else first_of s q) ->
  s_nnext s' = s_nnext s -> s_rnext s' = s_rnext s ->
  well_ringed s' /\ ring_of s' i = Some r.
Proof.
  intros W H M C No B SV O F Hn Hr.
  assert (U : forall j, j <> o -> ring_of s' j = ring_of s j) by (intros j Hj; apply (SV j Hj)).
  assert (Uo : ring_of s' o = None) by (unfold ring_of; rewrite B; reflexivity).
  assert (Nio : i <> o) by (intros ->; apply No; left; reflexivity).
  split; [|rewrite U; assumption]. apply (well_change s s' (eq r) W).
  - intros q. destruct (Pos.eq_dec r q); auto.
  - intros j q Q K. apply O. intros I. apply M in I. congruence.
  - intros j q Q K. destruct (Pos.eq_dec j o) as [->|N]; [congruence|]. rewrite <- U; assumption.
  - intros q <-. exists (i :: m). split; [|right; exact C]. intros j. destruct (Pos.eq_dec j o) as [->|N].
    + rewrite Uo. split; [discriminate|contradiction].
    + rewrite U by exact N. rewrite (M j). cbn. intuition congruence.
  - intros q n. rewrite F. destruct (Pos.eqb_spec q r) as [->|Q]; cbn [andb].
    + destruct (opt_is (first_of s r) (Some o)) eqn:T; [intros K; injection K as <-; rewrite U; assumption|].
      intros K. rewrite U; [apply (wr_first s W); exact K|]. intros ->. rewrite K in T. cbn in T. rewrite Pos.eqb_refl in T. discriminate.
    + intros K. pose proof (wr_first s W q n K) as K'. rewrite U; [exact K'|]. intros ->.
      assert (ring_of s o = Some r) by (apply M; right; left; reflexivity). congruence.
  - intros j q K. rewrite Hn, Hr. destruct (Pos.eq_dec j o) as [->|N]; [congruence|]. rewrite U in K by exact N. apply (wr_known s W j q K).
Qed.
Lemma alloc_put s i f : s_nnext (put s i f) = s_nnext s /\ s_rnext (put s i f) = s_rnext s. Proof. split; reflexivity. Qed.
Definition same_alloc (s s' : st) : Prop := s_nnext s' = s_nnext s /\ s_rnext s' = s_rnext s.
#[local] Instance same_alloc_pre : PreOrd same_alloc.
Proof. split; [split; reflexivity|]. intros a b c (H1 & H2) (H3 & H4). split; congruence. Qed.
Lemma sa_drop_next i o : pres same_alloc (drop_next i o).
Proof.
  unfold drop_next, unlink, set_next, set_prev, next_of. repeat first [progress pres_step|apply pres_modify; intros ?; split; reflexivity|apply pres_gets; typeclasses eauto].
Qed.
Lemma sa_drop_prev i o : pres same_alloc (drop_prev i o).
Proof.
  unfold drop_prev, unlink, set_next, set_prev, prev_of. repeat first [progress pres_step|apply pres_modify; intros ?; split; reflexivity|apply pres_gets; typeclasses eauto].
Qed.
Lemma well_drop_next s i o r u s' : well_ringed s -> ring_of s i = Some r -> n_next (node_at s i) = Some o -> o <> i ->
  drop_next i o s = Ok (u, s') -> well_ringed s' /\ ring_of s' i = Some r.
Proof.
  intros W H En No E. destruct (well_at s i r W H) as (m & C & M). pose proof (circle_next _ _ _ _ C En) as ->.
  destruct m as [|o m]; [cbn in No; congruence|]. cbn [hd] in *.
  destruct (sa_drop_next i o s u s' E) as (Hn & Hr).
  destruct (drop_next_circle s i o m r C H) as (s1 & E1 & C1 & B & SV & O & F). rewrite E1 in E. injection E as <- <-.
  pose proof C as (ND & _).
  eapply (well_dropped s s1 i o m r); eauto. intros [K|K]; [congruence|]. inversion ND as [|? ? _ ND']. inversion ND'. contradiction.
Qed.
Lemma well_drop_prev s i o r u s' : well_ringed s -> ring_of s i = Some r -> n_prev (node_at s i) = Some o -> o <> i ->
  drop_prev i o s = Ok (u, s') -> well_ringed s' /\ ring_of s' i = Some r.
Proof.
  intros W H En No E. destruct (well_at s i r W H) as (m & C & M). pose proof (circle_prev _ _ _ _ C En) as ->.
  destruct m as [|o m _] using rev_ind; [cbn in No; congruence|]. rewrite last_last in *.
  destruct (sa_drop_prev i o s u s' E) as (Hn & Hr).
  destruct (drop_prev_circle s i o m r C H) as (s1 & E1 & C1 & B & SV & O & F). rewrite E1 in E. injection E as <- <-.
  pose proof C as (ND & _).
  eapply (well_dropped s s1 i o m r); eauto.
  - intros j. rewrite (M j). change (i :: m ++ [o]) with ((i :: m) ++ [o]). rewrite in_app_iff. cbn. tauto.
  - apply (nodup_app (i :: m) [o]) in ND as (_ & _ & D). intros K. apply (D o K). left. reflexivity.
  - intros j Hj. apply O. change (i :: m ++ [o]) with ((i :: m) ++ [o]). rewrite in_app_iff. cbn in *. tauto.
Qed.
Definition in_ring (r : rid) (i : nid) (s : st) : Prop := well_ringed s /\ ring_of s i = Some r.
Lemma in_ring_same r i s s' : same_ringed s s' -> in_ring r i s -> in_ring r i s'.
Proof. intros H (W & E). split; [apply (well_same s); assumption|]. rewrite (same_ring_of _ _ _ H). exact E. Qed.
Lemma tri_drop_equal fuel i r (dir : node -> option nid) drop :
  (forall s o u s', in_ring r i s -> dir (node_at s i) = Some o -> o <> i -> drop i o s = Ok (u, s') -> in_ring r i s') ->
  tri (in_ring r i) (drop_equal fuel dir drop i) (fun _ => in_ring r i).
Proof.
  intros HD. unfold drop_equal. apply (tri_loop fuel _ (fun _ => in_ring r i)). intros [].
  eapply tri_bind; [apply tri_nd|]. intros n. cbv beta.
  eapply tri_bind with (Q := fun _ s => n = node_at s i /\ in_ring r i s).
  { apply tri_same; [nf_auto|]. intros s s' H (-> & K). rewrite (proj1 H). split; [reflexivity|]. eapply in_ring_same; eassumption. }
  intros e. destruct (e && negb (opt_is (dir n) (Some i))) eqn:T; [|apply tri_ret; tauto].
  apply andb_true_iff in T as (_ & T). eapply tri_bind with (Q := fun o s => dir (node_at s i) = Some o /\ o <> i /\ in_ring r i s).
  { apply tri_deref. intros o s Eo (-> & K). split; [exact Eo|]. split; [|exact K]. intros ->. rewrite Eo in T. cbn in T.
    rewrite Pos.eqb_refl in T. discriminate. }
  intros o. eapply tri_bind with (Q := fun _ => in_ring r i); [|intros ?; apply tri_ret; auto].
  intros s u s' (A & B & C) E. eapply HD; eassumption.
Qed.
Lemma tri_drop_nexts fuel i r : tri (in_ring r i) (drop_equal fuel n_next drop_next i) (fun _ => in_ring r i).
Proof. apply tri_drop_equal. intros s o u s' (W & H) A B E. eapply well_drop_next; eassumption. Qed.
Lemma tri_drop_prevs fuel i r : tri (in_ring r i) (drop_equal fuel n_prev drop_prev i) (fun _ => in_ring r i).
Proof. apply tri_drop_equal. intros s o u s' (W & H) A B E. eapply well_drop_prev; eassumption. Qed.
Lemma opt_is_Some a b : opt_is a (Some b) = true -> a = Some b.
Proof. destruct a; cbn; [|discriminate]. intros H. apply Pos.eqb_eq in H. congruence. Qed.
Lemma is_none_Some {A} (o : option A) : is_none o = false -> exists a, o = Some a.
Proof. destruct o; [eauto|discriminate]. Qed.
Lemma tri_ex {A B} (J : B -> st -> Prop) (m : prog A) (Q : A -> st -> Prop) : (forall r, tri (J r) m Q) -> tri (fun s => exists r, J r s) m Q.
Proof. intros H s a s' (r & K) E. exact (H r s a s' K E). Qed.
(** both vertices are in the heap, on rings *)
Definition both (i j : nid) (s : st) : Prop := well_ringed s /\ (exists r, ring_of s i = Some r) /\ (exists r, ring_of s j = Some r).
Lemma tri_remove_duplicates fuel i j : i <> j ->
  tri (both i j) (remove_duplicate_points fuel i j) (fun b s => well_ringed s /\ (b = false -> both i j s)).
Proof.
  intros Nij. unfold remove_duplicate_points.
  eapply tri_bind; [apply tri_nd|]. intros a. eapply tri_bind; [apply tri_nd|]. intros b. cbv beta zeta.
  destruct (opt_is (n_ring a) (n_ring b) && opt_is (n_next a) (Some j)) eqn:T1.
  { apply andb_true_iff in T1 as (_ & T1). apply opt_is_Some in T1.
    eapply tri_bind with (Q := fun _ => well_ringed); [|intros ?; apply tri_ret; intros s W; split; [exact W|discriminate]].
    intros s u s' (-> & -> & W & (r & H) & _) E. eapply well_drop_next; [exact W|exact H|exact T1|congruence|exact E]. }
  destruct (opt_is (n_ring a) (n_ring b) && opt_is (n_next b) (Some i)) eqn:T2.
  { apply andb_true_iff in T2 as (_ & T2). apply opt_is_Some in T2.
    eapply tri_bind with (Q := fun _ => well_ringed); [|intros ?; apply tri_ret; intros s W; split; [exact W|discriminate]].
    intros s u s' (-> & -> & W & _ & (r & H)) E. destruct (well_next s j i r W H T2) as (H' & P).
    eapply well_drop_prev; [exact W|exact H'|exact P|congruence|exact E]. }
  clear T1 T2. eapply tri_pre with (I' := fun s => exists r, in_ring r i s); [|intros s (_ & _ & W & (r & H) & _); exists r; split; assumption].
  apply tri_ex. intros r. clear a b.
  eapply tri_bind; [apply tri_drop_nexts|]. intros ?. eapply tri_bind; [apply tri_drop_prevs|]. intros ?.
  eapply tri_bind; [apply tri_nd|]. intros a1. cbv beta.
  destruct (opt_is (n_next a1) (Some i)).
  { eapply tri_bind with (Q := fun _ => well_ringed); [apply tri_deref; intros ? s _ (_ & K); apply K|]. intros q.
    eapply tri_bind with (Q := fun _ => well_ringed); [apply kw_tri; nf_auto|]. intros ?. apply tri_ret. intros s W. split; [exact W|discriminate]. }
  eapply tri_bind; [apply tri_nd|]. intros b. cbv beta. destruct (is_none (n_ring b)) eqn:T.
  { apply tri_ret. intros s (_ & _ & W & _). split; [exact W|discriminate]. }
  destruct (is_none_Some _ T) as (q & Tq).
  eapply tri_pre with (I' := in_ring q j); [|intros s (-> & _ & W & _); split; assumption].
  eapply tri_bind; [apply tri_drop_nexts|]. intros ?. eapply tri_bind; [apply tri_drop_prevs|]. intros ?.
  eapply tri_bind; [apply tri_nd|]. intros b'. cbv beta. destruct (opt_is (n_next b') (Some j)).
  { eapply tri_bind with (Q := fun _ => well_ringed); [apply tri_deref; intros ? s _ (_ & K); apply K|]. intros q'.
    eapply tri_bind with (Q := fun _ => well_ringed); [apply kw_tri; nf_auto|]. intros ?. apply tri_ret. intros s W. split; [exact W|discriminate]. }
  eapply tri_bind; [apply tri_nd|]. intros a'. apply tri_ret. intros s (-> & _ & W & K). split; [exact W|]. intros N.
  split; [exact W|]. destruct (is_none_Some _ N) as (r' & Hr'). split; [exists r'; exact Hr'|exists q; exact K].
Qed.
