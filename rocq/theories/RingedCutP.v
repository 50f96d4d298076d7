(** * The heap stays well ringed: cutting a ring at two of its vertices *)
From Coq Require Import ZArith List Bool Lia FMapPositive Permutation.
From Coq Require Import Floats.SpecFloat.
From RecordUpdate Require Import RecordSet.
From Verif Require Import Py Monad Utils Geometry LinearRingM BoundM LocalMinimumM
     StateM PointNodeM RingM SweepM TopologyM WagyuM HoareP SpecRing SpecHeap SpecRings SweepFrameP OrderP VatP FuelP PipP SortP
     CircleP HeapOpsP SplitP NodeFrameP RingedP RingedTopP.
Import ListNotations RecordSetNotations.
Open Scope Z_scope.

(** the vertices that name [r] are on two circles [D] and [H] *)
Record split_in (r : rid) (D H : list nid) (s : st) : Prop := {
  si_members : members s r (D ++ H);
  si_left : circle s D;
  si_right : circle s H;
  si_apart : forall i, In i D -> ~ In i H;
  si_circles : forall q, q <> r -> exists l, members s q l /\ (l = [] \/ circle s l);
  si_first : forall q n, q <> r -> first_of s q = Some n -> ring_of s n = Some q;
  si_known : forall i q, ring_of s i = Some q -> (i < s_nnext s)%positive /\ (q < s_rnext s)%positive
}.
(** the same, with a ring [new] that has no vertices yet *)
Record parted (r new : rid) (D H : list nid) (s : st) : Prop := {
  pa_members : members s r (D ++ H);
  pa_left : circle s D;
  pa_right : circle s H;
  pa_apart : forall i, In i D -> ~ In i H;
  pa_new : forall i, ring_of s i <> Some new;
  pa_lt : (new < s_rnext s)%positive;
  pa_circles : forall q, q <> r -> exists l, members s q l /\ (l = [] \/ circle s l);
  pa_first : forall q n, q <> r -> q <> new -> first_of s q = Some n -> ring_of s n = Some q;
  pa_known : forall i q, ring_of s i = Some q -> (i < s_nnext s)%positive /\ (q < s_rnext s)%positive
}.
Lemma circle_head s D : circle s D -> exists a, In a D.
Proof. destruct D as [|a D]; [intros []|]. intros _. exists a. left. reflexivity. Qed.
Lemma circle_alloc s D : circle s D -> circle (alloc_ring s) D.
Proof. apply circle_same. reflexivity. Qed.
Lemma split_create r D H : tri (split_in r D H) create_ring (fun new => parted r new D H).
Proof.
  intros s new s' [A1 A2 A3 A4 A5 A6 A7] E. rewrite create_ring_run in E. injection E as <- <-. split.
  - exact A1.
  - apply circle_alloc; exact A2.
  - apply circle_alloc; exact A3.
  - exact A4.
  - intros i K. destruct (A7 i _ K). lia.
  - cbn. lia.
  - intros q Q. destruct (A5 q Q) as (l & M & C). exists l. split; [exact M|]. destruct C; [auto|right; apply circle_alloc; assumption].
  - intros q n Q1 Q2. unfold first_of. rewrite ring_at_alloc. destruct (Pos.eqb_spec (s_rnext s) q); [congruence|]. apply A6; exact Q1.
  - intros i q K. destruct (A7 i q K). split; [assumption|cbn; lia].
Qed.
Lemma parted_neq r new D H s : parted r new D H s -> r <> new.
Proof.
  intros P ->. destruct (circle_head _ _ (pa_left _ _ _ _ _ P)) as (a & I). apply (pa_new _ _ _ _ _ P a). apply (pa_members _ _ _ _ _ P).
  apply in_app_iff. auto.
Qed.
Lemma parted_swap r new D H s : parted r new D H s -> parted r new H D s.
Proof.
  intros [A1 A2 A3 A4 A5 A6 A7 A8 A9]. split; auto.
  - intros i. rewrite (A1 i), !in_app_iff. tauto.
  - intros i I J. exact (A4 i J I).
Qed.
Lemma parted_same r new D H s s' : same_ringed s s' -> parted r new D H s -> parted r new D H s'.
Proof.
  intros S [A1 A2 A3 A4 A5 A6 A7 A8 A9]. pose proof S as (_ & Hn & Hr & _). split; auto.
  - apply (same_members s); assumption.
  - apply (same_circle s); assumption.
  - apply (same_circle s); assumption.
  - intros i. rewrite (same_ring_of _ _ _ S). apply A5.
  - rewrite Hr. exact A6.
  - intros q Q. destruct (A7 q Q) as (l & M & C). exists l. split; [apply (same_members s); assumption|].
    destruct C; [auto|right; apply (same_circle s); assumption].
  - intros q n. rewrite (same_first _ _ _ S), (same_ring_of _ _ _ S). apply A8.
  - intros i q. rewrite (same_ring_of _ _ _ S), Hn, Hr. apply A9.
Qed.
Lemma parted_rput r new D H s q f : q = r \/ q = new -> parted r new D H s -> parted r new D H (rput s q f).
Proof.
  intros Q [A1 A2 A3 A4 A5 A6 A7 A8 A9].
  assert (C : forall l, circle s l -> circle (rput s q f) l) by (intros l; apply circle_same; reflexivity). split; auto.
  - intros p P. destruct (A7 p P) as (l & M & K). exists l. split; [exact M|]. destruct K; auto.
  - intros p n P1 P2. rewrite first_rput. destruct (Pos.eqb_spec q p); [destruct Q; congruence|]. apply A8; assumption.
Qed.
Lemma parted_relabel r new n D H s fuel u s' : parted r new (n :: D) H s -> first_of s new = Some n -> update_points fuel new s = Ok (u, s') ->
  well_but (eq r) s' /\ (forall i, In i H -> ring_of s' i = Some r) /\ (forall q, first_of s' q = first_of s q).
Proof.
  intros P F E. pose proof (parted_neq _ _ _ _ _ P) as Nrn. destruct P as [A1 A2 A3 A4 A5 A6 A7 A8 A9].
  destruct (relabel s new n D fuel u s' A2 F E) as (O & SB).
  assert (U := fun i => owned_ring new (n :: D) s s' i O). destruct (sbn_next _ _ SB) as (Hn & Hr & _).
  assert (CC : forall l, circle s l -> circle s' l) by (intros m; apply (owned_circle new (n :: D)); exact O).
  assert (OUT : forall i q, q <> r -> ring_of s i = Some q -> ~ In i (n :: D)).
  { intros i q Q K I. assert (In i ((n :: D) ++ H)) as J by (apply in_app_iff; auto). apply A1 in J. congruence. }
  split; [split|split].
  - intros q. destruct (Pos.eq_dec q new) as [->|Q1]; [|destruct (Pos.eq_dec q r) as [->|Q2]].
    + exists (n :: D). split; [|right; apply CC; exact A2]. intros i. rewrite U. destruct (in_dec _ _ _) as [I|I]; [tauto|].
      split; [|tauto]. intros K. destruct (A5 i K).
    + exists H. split; [|right; apply CC; exact A3]. intros i. rewrite U. destruct (in_dec _ _ _) as [I|I].
      * split; [congruence|]. intros J. destruct (A4 i I J).
      * rewrite (A1 i), in_app_iff. tauto.
    + destruct (A7 q Q2) as (l & M & C). exists l. split; [|destruct C; auto]. intros i. rewrite U, <- (M i).
      destruct (in_dec _ _ _) as [I|I]; [|tauto]. split; [congruence|]. intros K. destruct (OUT i q Q2 K I).
  - intros q m Q. rewrite (sbn_first _ _ _ SB), U. intros K. destruct (Pos.eq_dec q new) as [->|Q1].
    + rewrite F in K. injection K as <-. destruct (in_dec _ _ _) as [I|I]; [reflexivity|]. destruct I. left. reflexivity.
    + pose proof (A8 q m (fun e => Q (eq_sym e)) Q1 K) as K'. destruct (in_dec _ _ _) as [I|I]; [|exact K'].
      destruct (OUT m q (fun e => Q (eq_sym e)) K' I).
  - intros i q. rewrite U, Hn, Hr. destruct (in_dec _ _ _) as [I|I]; [|apply A9]. intros K. injection K as <-. split; [|exact A6].
    assert (J : ring_of s i = Some r) by (apply A1; apply in_app_iff; auto). apply (A9 i r J).
  - intros i I. rewrite U. destruct (in_dec _ _ _) as [J|J]; [destruct (A4 i J I)|]. apply A1. apply in_app_iff. auto.
  - intros q. apply (sbn_first _ _ _ SB).
Qed.
Lemma parted_close r s' (H : list nid) n : well_but (eq r) s' -> (forall i, In i H -> ring_of s' i = Some r) -> first_of s' r = Some n -> In n H -> well_ringed s'.
Proof.
  intros W M F I. apply (but_well (eq r)); [exact W| |intros q; destruct (Pos.eq_dec r q); auto].
  intros q m <- K. rewrite F in K. injection K as <-. apply M. exact I.
Qed.

(** ** [correct_self_intersection] *)
Lemma relinked_split s s' r i l1 j l2 : well_ringed s -> members s r (i :: l1 ++ j :: l2) -> circle s (i :: l1 ++ j :: l2) ->
  relinked s s' (List.last l1 i) i (List.last l2 j) j -> split_in r (i :: l1) (j :: l2) s'.
Proof.
  intros W M C RL. destruct (circle_split s s' i l1 j l2 C RL) as (C1 & C2). destruct RL as (Rn & Rp & SV & SB).
  assert (U : forall k, ring_of s' k = ring_of s k) by (intros k; apply (SV k)). destruct (sbn_next _ _ SB) as (Hn & Hr & _).
  pose proof C as (ND & _). apply (nodup_app (i :: l1) (j :: l2)) in ND as (_ & _ & D). split; auto.
  - intros k. rewrite U. apply (M k).
  - intros q Q. destruct (wr_circles s W q) as (l & Ml & Cl). exists l. split; [intros k; rewrite U; apply Ml|].
    destruct Cl as [Cl|Cl]; [auto|right]. revert Cl. apply circle_frame. intros k K. apply Ml in K.
    assert (X : ~ In k (i :: l1 ++ j :: l2)) by (intros I; apply M in I; congruence).
    assert (Y : forall a, In a (i :: l1) \/ In a (j :: l2) -> Pos.eqb k a = false).
    { intros a A. apply Pos.eqb_neq. intros ->. apply X. change (i :: l1 ++ j :: l2) with ((i :: l1) ++ j :: l2). apply in_app_iff. exact A. }
    rewrite Rn, Rp. rewrite (Y (List.last l1 i)) by (left; apply CircleP.last_in). rewrite (Y (List.last l2 j)) by (right; apply CircleP.last_in).
    rewrite (Y i) by (left; left; reflexivity). rewrite (Y j) by (right; left; reflexivity). auto.
  - intros q n Q. rewrite (sbn_first _ _ _ SB), U. apply (wr_first s W).
  - intros k q. rewrite U, Hn, Hr. apply (wr_known s W).
Qed.
Definition cut_rest (fuel : nat) (r : rid) (i j : nid) : prog (option rid) :=
  (new <- create_ring ;;
   s1 <- node_stats fuel i ;;
   s2 <- node_stats fuel j ;;
   (if num_gtb (NF (f_abs (st_area s1))) (NF (f_abs (st_area s2))) then
      (upd_ring r (fun x => x <| r_node := Some i |>) ;; set_stats r s1 ;;
       upd_ring new (fun x => x <| r_node := Some j |>) ;; set_stats new s2)
    else
      (upd_ring r (fun x => x <| r_node := Some j |>) ;; set_stats r s2 ;;
       upd_ring new (fun x => x <| r_node := Some i |>) ;; set_stats new s1)) ;;
   update_points fuel new ;;
   ret (Some new))%M.
Lemma well_cut fuel i j : i <> j -> tri well_ringed (correct_self_intersection fuel i j) (fun _ => well_ringed).
Proof.
  intros Nij. unfold correct_self_intersection.
  eapply tri_bind; [apply tri_nd|]. intros a. eapply tri_bind; [apply tri_nd|]. intros b. cbv beta.
  destruct (negb (opt_is (n_ring a) (n_ring b))) eqn:T; [apply tri_ret; tauto|]. apply negb_false_iff in T.
  eapply tri_bind with (Q := fun r s => ring_of s i = Some r /\ ring_of s j = Some r /\ well_ringed s).
  { apply tri_deref. intros r s Er (-> & -> & W). rewrite Er in T. split; [exact Er|]. split; [|exact W].
    apply opt_is_Some. destruct (n_ring (node_at s j)) eqn:En; [|discriminate]. unfold ring_of. rewrite En. cbn in *. rewrite Pos.eqb_sym. exact T. }
  intros r.
  eapply tri_bind; [apply tri_prev_of|]. intros third. eapply tri_bind; [apply tri_prev_of|]. intros fourth. cbv beta.
  set (Q := fun s => exists l1 l2, split_in r (i :: l1) (j :: l2) s).
  enough (G : tri Q (cut_rest fuel r i j) (fun _ => well_ringed)).
  { intros s x s' (P4 & P3 & Hi & Hj & W) E. destruct (well_at s i r W Hi) as (m & C & M).
    assert (I : In j m) by (apply M in Hj as [K|K]; [congruence|exact K]). apply in_split in I as (l1 & l2 & ->).
    pose proof (circle_prev _ _ _ _ C P3) as E3.
    assert (E4 : fourth = List.last l1 i).
    { destruct C as (_ & C). rewrite <- app_assoc in C. cbn [app] in C. apply chained_app in C as (C & _). apply chained_last in C. destruct C as (_ & C). congruence. }
    assert (E3' : third = List.last l2 j).
    { rewrite E3. clear. rewrite last_last_app. reflexivity. }
    rewrite (bind_run _ _ _ _ _ (set_prev_s s i (Some fourth))) in E.
    rewrite (bind_run _ _ _ _ _ (set_next_s _ fourth (Some i))) in E.
    rewrite (bind_run _ _ _ _ _ (set_prev_s _ j (Some third))) in E.
    rewrite (bind_run _ _ _ _ _ (set_next_s _ third (Some j))) in E.
    refine (G _ _ _ _ E). exists l1, l2. apply (relinked_split s _ r i l1 j l2 W M C). rewrite <- E4, <- E3'. apply relinked_pnpn; [|exact Nij].
    intros X. rewrite E4, E3' in X. pose proof C as (ND & _). apply (nodup_app (i :: l1) (j :: l2)) in ND as (_ & _ & D).
    apply (D (List.last l1 i)); [apply CircleP.last_in|rewrite X; apply CircleP.last_in]. }
  unfold Q, cut_rest. apply tri_ex. intros l1. apply tri_ex. intros l2.
  eapply tri_bind; [apply split_create|]. intros new. cbv beta.
  eapply tri_bind; [apply tri_same; [nf_auto|apply parted_same]|]. intros s1.
  eapply tri_bind; [apply tri_same; [nf_auto|apply parted_same]|]. intros s2.
  set (P := parted r new (i :: l1) (j :: l2)).
  eapply tri_bind with (Q := fun _ s => P s /\ (first_of s r = Some i /\ first_of s new = Some j \/ first_of s r = Some j /\ first_of s new = Some i)).
  { assert (G : forall x y t1 t2, tri P (bind (upd_ring r (fun z => z <| r_node := Some x |>)) (fun _ => bind (set_stats r t1) (fun _ =>
          bind (upd_ring new (fun z => z <| r_node := Some y |>)) (fun _ => set_stats new t2)))) (fun _ s => P s /\ first_of s r = Some x /\ first_of s new = Some y)).
    { intros x y t1 t2. eapply tri_bind with (Q := fun _ s => P s /\ first_of s r = Some x).
      { intros s u s' K E. rewrite upd_ring_rput in E. injection E as <- <-. split; [apply parted_rput; auto|]. rewrite first_rput, Pos.eqb_refl. reflexivity. }
      intros ?. eapply tri_bind with (Q := fun _ s => P s /\ first_of s r = Some x).
      { apply tri_same; [nf_auto|]. intros s s' S (K & F). split; [eapply parted_same; eassumption|rewrite (same_first _ _ _ S); exact F]. }
      intros ?. eapply tri_bind with (Q := fun _ s => P s /\ first_of s r = Some x /\ first_of s new = Some y).
      { intros s u s' (K & F) E. rewrite upd_ring_rput in E. injection E as <- <-. split; [apply parted_rput; auto|]. rewrite !first_rput, Pos.eqb_refl.
        pose proof (parted_neq _ _ _ _ _ K). destruct (Pos.eqb_spec new r); [congruence|]. split; [exact F|reflexivity]. }
      intros ?. apply tri_same; [nf_auto|]. intros s s' S (K & F1 & F2). split; [eapply parted_same; eassumption|]. rewrite !(same_first _ _ _ S). auto. }
    destruct (num_gtb _ _); (eapply tri_post; [apply G|]); cbv beta; intros; tauto. }
  intros ?. eapply tri_bind with (Q := fun _ => well_ringed); [|intros ?; apply tri_ret; auto].
  intros s u s' (K & F) E. destruct F as [(F1 & F2)|(F1 & F2)].
  - destruct (parted_relabel r new j l2 (i :: l1) s fuel u s' (parted_swap _ _ _ _ _ K) F2 E) as (W & M & F).
    apply (parted_close r s' (i :: l1) i W M); [rewrite F; exact F1|left; reflexivity].
  - destruct (parted_relabel r new i l1 (j :: l2) s fuel u s' K F2 E) as (W & M & F).
    apply (parted_close r s' (j :: l2) j W M); [rewrite F; exact F1|left; reflexivity].
Qed.
