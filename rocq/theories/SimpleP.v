(** * No ring visits a point twice after the correction of self intersections *)
From Coq Require Import ZArith List Bool Lia FMapPositive Permutation Sorting.Sorted.
From Coq Require Import Floats.SpecFloat.
From RecordUpdate Require Import RecordSet.
From Verif Require MiscP IntersectP.
From Verif Require Import Py Monad Utils Geometry LinearRingM BoundM LocalMinimumM
     StateM PointNodeM RingM SweepM TopologyM WagyuM HoareP SpecRing SpecHeap SpecRings SpecTree SweepFrameP CalmP OrderP VatP FuelP PipP SortP ListP PointersP
     CircleP HeapOpsP StatsP SplitP LinearRingP NodeFrameP RingedP RingedTopP RingedCutP RingedPathP RingedFixP RingedArcP RingedSameP RingedOtherP RingedTreeP TreeP
     NestP NestTreeP OrientP RegionP FitP KeepOrderP MarkP SpecNest.
Import ListNotations RecordSetNotations.
Open Scope Z_scope.
#[local] Existing Instance IntersectP.unchanged_pre.

(** ** What a cut does to the labels *)
Lemma cut_labels fuel r i j l1 l2 s o s' : split_in r (i :: l1) (j :: l2) s -> (r < s_rnext s)%positive -> cut_rest fuel r i j s = Ok (o, s') ->
  exists D, (D = i :: l1 \/ D = j :: l2) /\ forall k, ring_of s' k = if in_dec Pos.eq_dec k D then Some (s_rnext s) else ring_of s k.
Proof.
  intros SI L E. unfold cut_rest in E. unfold bind at 1 in E. rewrite create_ring_run in E.
  assert (PA : parted r (s_rnext s) (i :: l1) (j :: l2) (alloc_ring s)).
  { apply (split_create r (i :: l1) (j :: l2) s (s_rnext s) (alloc_ring s) SI). apply create_ring_run. }
  assert (U0 : forall k, ring_of (alloc_ring s) k = ring_of s k) by reflexivity.
  revert E L PA U0. generalize (alloc_ring s) (s_rnext s). intros t N E L PA U0. cbv iota beta in E.
  pose proof (pa_left _ _ _ _ _ PA) as C1. pose proof (pa_right _ _ _ _ _ PA) as C2.
  inv_bind E t1 sa Ea. destruct (node_stats_any t i l1 fuel t1 sa C1 Ea) as (-> & _).
  inv_bind E t2 sb Eb. destruct (node_stats_any t j l2 fuel t2 sb C2 Eb) as (-> & _). clear Ea Eb.
  assert (G : forall x y tx ty u sc, 
     bind (upd_ring r (fun z => z <| r_node := Some x |>)) (fun _ => bind (set_stats r tx) (fun _ =>
          bind (upd_ring N (fun z => z <| r_node := Some y |>)) (fun _ => set_stats N ty))) t = Ok (u, sc) -> first_of sc N = Some y /\ forall k, node_at sc k = node_at t k).
  { intros x y tx ty u sc Ec. unfold set_stats in Ec. rewrite (bind_run _ _ _ _ _ (upd_ring_rput _ _ _)) in Ec.
    rewrite (bind_run _ _ _ _ _ (upd_ring_rput _ _ _)) in Ec. rewrite (bind_run _ _ _ _ _ (upd_ring_rput _ _ _)) in Ec. rewrite upd_ring_rput in Ec. injection Ec as _ <-.
    split; [|reflexivity]. rewrite first_rput, Pos.eqb_refl, ring_at_rput, Pos.eqb_refl. reflexivity. }
  inv_bind E u sc Ec. inv_bind E v sd Ed. injection E as <- <-.
  assert (H : exists y ly, (y :: ly = i :: l1 \/ y :: ly = j :: l2) /\ circle t (y :: ly) /\ first_of sc N = Some y /\ forall k, node_at sc k = node_at t k).
  { revert Ec. destruct (num_gtb _ _); intros Ec; destruct (G _ _ _ _ _ _ Ec) as (F & U); [exists j, l2|exists i, l1]; auto. }
  destruct H as (y & ly & HD & Cy & F & U). exists (y :: ly). split; [exact HD|].
  destruct (relabel sc N y ly fuel v sd) as (O & _); [apply (circle_same t); [intros; apply U|exact Cy]|exact F|exact Ed|].
  intros k. rewrite (owned_ring _ _ _ _ k O). destruct (in_dec _ _ _); [reflexivity|]. unfold ring_of at 1. rewrite U. apply U0.
Qed.
(** the vertices of the ring [r] were distributed over [r] and new rings *)
Record parting (r : rid) (s s' : st) : Prop := {
  pg_next : (s_rnext s <= s_rnext s')%positive;
  pg_label : forall k, ring_of s' k = ring_of s k \/ ring_of s k = Some r /\ exists N, ring_of s' k = Some N /\ (s_rnext s <= N)%positive;
  pg_finer : forall k k', ring_of s' k = ring_of s' k' -> ring_of s k = ring_of s k';
  pg_moved : unmoved s s';
  pg_rings : forall q, q <> r -> (q < s_rnext s)%positive -> first_of s' q = first_of s q;
  pg_marks : fewer s s'
}.

Lemma parting_refl r s : parting r s s.
Proof. split; auto; [lia|apply R_refl|apply R_refl]. Qed.
Lemma unmoved_cut fuel i j : pres unmoved (correct_self_intersection fuel i j).
Proof. apply unmoved_keeps. intros W. apply kp_correct_self_intersection; trivial. Qed.
Lemma parting_cut r fuel i j s0 s o s' : i <> j -> well_ringed s0 -> well_ringed s -> parting r s0 s -> ring_of s0 i = Some r -> ring_of s i <> None ->
  correct_self_intersection fuel i j s = Ok (o, s') -> well_ringed s' /\ parting r s0 s' /\ ring_of s' i <> ring_of s' j /\ (forall k k', ring_of s' k = ring_of s' k' -> ring_of s k = ring_of s k').
Proof.
  intros Nij W0 W [P1 P2 P3 P4 P5 P6] I0 Ni E. pose proof (well_cut fuel i j Nij s o s' W E) as W'. split; [exact W'|].
  assert (P4' : unmoved s0 s') by (eapply R_trans; [exact P4|exact (unmoved_cut fuel i j s o s' E)]).
  assert (P6' : fewer s0 s') by (eapply R_trans; [exact P6|exact (mk_correct_self_intersection fuel i j s o s' E)]).
  destruct (cut_cases fuel i j s o s' Nij W E) as [(-> & _ & T)|(q & l1 & l2 & s1 & Ri & Rj & C & M & SI & RN & RS & (_ & V) & Ec)].
  { split; [split; auto|]. split; [|auto]. intros K. rewrite <- K in T. destruct (ring_of s i); [|congruence]. cbn in T. rewrite Pos.eqb_refl in T. discriminate. }
  destruct (wr_known s W i q Ri) as (_ & L).
  assert (Q : q = r \/ (s_rnext s0 <= q)%positive).
  { destruct (P2 i) as [K|(_ & N & K & LN)]; [left|right]; congruence. }
  assert (RN' : s_rnext s' = Pos.succ (s_rnext s)).
  { destruct (cut_fits fuel q i j (s_rnext s) s1 o s') as (_ & _ & F3); [|exact Ec|exact F3]. split; [exists l1, l2; exact SI|]. split; [exact RN|exact L]. }
  destruct (cut_labels fuel q i j l1 l2 s1 o s' SI ltac:(rewrite RN; exact L) Ec) as (D & HD & U). rewrite RN in U.
  assert (MD : forall k, In k D -> ring_of s k = Some q).
  { intros k K. apply M. change (i :: l1 ++ j :: l2) with ((i :: l1) ++ j :: l2). apply in_app_iff. destruct HD as [-> | ->]; auto. }
  assert (OLD : forall k a, ring_of s k = Some a -> a <> s_rnext s) by (intros k a K; destruct (wr_known s W k a K); lia).
  assert (FN : forall k k', ring_of s' k = ring_of s' k' -> ring_of s k = ring_of s k').
  { intros k k' K. rewrite !U, !V in K. destruct (in_dec Pos.eq_dec k D) as [A|A], (in_dec Pos.eq_dec k' D) as [B|B].
    - rewrite (MD k A), (MD k' B). reflexivity.
    - destruct (OLD k' _ (eq_sym K) eq_refl).
    - destruct (OLD k _ K eq_refl).
    - exact K. }
  split; [split|split; [|exact FN]].
  - lia.
  - intros k. rewrite U. destruct (in_dec Pos.eq_dec k D) as [K|K].
    + right. split; [|exists (s_rnext s); auto]. rewrite <- I0. apply P3. rewrite Ri. apply MD. exact K.
    + rewrite V. apply P2.
  - intros k k' K. apply P3, FN, K.
  - exact P4'.
  - intros a Na La. rewrite <- (P5 a Na La).
    assert (RG : region s (inside s (eq q)) (among s (eq q)) s').
    { refine (proj1 (rt_cut s (inside s (eq q)) (among s (eq q)) fuel i j _ _ s o s' (region_start s _ W) E)); (exists q; split; [left; reflexivity|assumption]). }
    apply (region_bystander s (eq q) s' a RG); [intros ->; destruct Q; [congruence|lia]|lia].
  - exact P6'.
  - rewrite !U, !V. pose proof (si_apart _ _ _ _ SI) as AP. assert (Hi : In i (i :: l1)) by (left; reflexivity). assert (Hj : In j (j :: l2)) by (left; reflexivity).
    destruct HD as [-> | ->].
    + destruct (in_dec Pos.eq_dec i (i :: l1)) as [A|A]; [|contradiction]. destruct (in_dec Pos.eq_dec j (i :: l1)) as [B|B]; [destruct (AP j B Hj)|].
      rewrite Rj. intros K. injection K as K. lia.
    + destruct (in_dec Pos.eq_dec j (j :: l2)) as [A|A]; [|contradiction]. destruct (in_dec Pos.eq_dec i (j :: l2)) as [B|B]; [destruct (AP i Hi B)|].
      rewrite Ri. intros K. injection K as K. lia.
Qed.
(** ** Runs of equal vertices *)
Lemma tri_acc_range {B} (f : nat -> B -> prog B) (Inv : nat -> st -> Prop) a b : (a <= b)%nat ->
  (forall k x, (a <= k < b)%nat -> tri (Inv k) (f k x) (fun _ => Inv (S k))) -> forall x, tri (Inv a) (forM_acc (range a b) f x) (fun _ => Inv b).
Proof.
  intros L H. assert (G : forall n c, (a <= c)%nat -> (c + n <= b)%nat -> forall x, tri (Inv c) (forM_acc (seq c n) f x) (fun _ => Inv (c + n)%nat)).
  { induction n as [|n IH]; intros c L1 L2 x; cbn; [rewrite Nat.add_0_r; apply tri_ret; auto|].
    eapply tri_bind; [apply H; lia|]. intros y. rewrite <- Nat.add_succ_comm. apply IH; lia. }
  intros x. unfold range. specialize (G (b - a)%nat a ltac:(lia) ltac:(lia) x). replace (a + (b - a))%nat with b in G by lia. exact G.
Qed.
Definition apart (nodes : list nid) (P : nat -> nat -> Prop) (s : st) : Prop :=
  forall a b i j, P a b -> nth_error nodes a = Some i -> nth_error nodes b = Some j -> ring_of s i <> ring_of s j.
Lemma apart_finer nodes P s s' : (forall k k', ring_of s' k = ring_of s' k' -> ring_of s k = ring_of s k') -> apart nodes P s -> apart nodes P s'.
Proof. intros H A a b i j K X Y Z. exact (A a b i j K X Y (H _ _ Z)). Qed.
Lemma apart_weak nodes (P Q : nat -> nat -> Prop) s : (forall a b, Q a b -> P a b) -> apart nodes P s -> apart nodes Q s.
Proof. intros H A a b i j K. apply A, H, K. Qed.
Section Ring.
  Context (s0 : st) (r : rid) (nodes : list nid) (W0 : well_ringed s0) (ND : NoDup nodes) (MB : members s0 r nodes).
  Definition going (s : st) : Prop := well_ringed s /\ parting r s0 s.
  Lemma going_label s k i : going s -> nth_error nodes k = Some i -> ring_of s i <> None /\ ring_of s0 i = Some r.
  Proof.
    intros (_ & P) E. assert (H : ring_of s0 i = Some r) by (apply MB, (nth_error_In _ _ E)). split; [|exact H].
    destruct (pg_label _ _ _ P i) as [K|(_ & N & K & _)]; congruence.
  Qed.
  Lemma repeated_apart fuel a b (P : nat -> nat -> Prop) : (a <= b)%nat -> forall acc,
    tri (fun s => going s /\ apart nodes P s) (correct_repeated_points fuel nodes a b acc) (fun _ s => going s /\ apart nodes (fun x y => P x y \/ a <= x < y /\ y < b)%nat s).
  Proof.
    intros L acc. unfold correct_repeated_points.
    eapply tri_pre with (I' := (fun k s => going s /\ apart nodes (fun x y => P x y \/ a <= x < y /\ y < b /\ x < k)%nat s) a).
    2:{ intros s (G & A). split; [exact G|]. revert A. apply apart_weak. intros x y [H|H]; [exact H|lia]. }
    eapply tri_post; [apply (tri_acc_range _ (fun k s => going s /\ apart nodes (fun x y => P x y \/ a <= x < y /\ y < b /\ x < k)%nat s)); [exact L|]|].
    2:{ intros _ s (G & A). split; [exact G|]. revert A. apply apart_weak. intros x y [H|H]; [left; exact H|right; lia]. }
    intros k c Lk. set (I := fun s => going s /\ apart nodes (fun x y => P x y \/ a <= x < y /\ y < b /\ x < k)%nat s).
    eapply tri_bind with (Q := fun i s => nth_res nodes k = Ok i /\ I s); [apply tri_lift; auto|]. intros i. apply tri_fact. intros Hi. apply nth_res_error in Hi.
    eapply tri_bind; [apply tri_nd|]. intros n. cbv beta. destruct (is_none (n_ring n)) eqn:En.
    { apply tri_ret. intros s (-> & G & A). exfalso. destruct (going_label s k i G Hi) as (K & _). unfold ring_of in K. destruct (n_ring (node_at s i)); [discriminate|congruence]. }
    set (Inner := fun k' s => going s /\ apart nodes (fun x y => (P x y \/ a <= x < y /\ y < b /\ x < k) \/ x = k /\ k < y < k')%nat s).
    eapply tri_pre with (I' := Inner (S k)).
    2:{ intros s (_ & G & A). split; [exact G|]. revert A. apply apart_weak. intros x y [H|H]; [exact H|lia]. }
    eapply tri_post; [apply (tri_acc_range _ Inner); [lia|]|].
    2:{ intros _ s (G & A). split; [exact G|]. revert A. apply apart_weak. intros x y [H|H]; [left; left; exact H|].
        destruct (Nat.eq_dec x k) as [->|Nx]; [right; lia|left; right; lia]. }
    intros k' c' Lk'.
    eapply tri_bind with (Q := fun j s => nth_res nodes k' = Ok j /\ Inner k' s); [apply tri_lift; auto|]. intros j. apply tri_fact. intros Hj. apply nth_res_error in Hj.
    eapply tri_bind; [apply tri_nd|]. intros m. cbv beta. destruct (is_none (n_ring m)) eqn:Em.
    { apply tri_ret. intros s (-> & G & A). exfalso. destruct (going_label s k' j G Hj) as (K & _). unfold ring_of in K. destruct (n_ring (node_at s j)); [discriminate|congruence]. }
    eapply tri_bind with (Q := fun _ => Inner (S k')); [|intros o; apply tri_ret; auto]. intros s o s' (_ & G & A) E.
    destruct (going_label s k i G Hi) as (Li & Mi). destruct G as (W & PG).
    assert (Nij : i <> j). { intros ->. pose proof (proj1 (NoDup_nth_error nodes) ND k k') as X. assert (k = k'); [|lia]. apply X; [apply nth_error_Some; congruence|congruence]. }
    destruct (parting_cut r fuel i j s0 s o s' Nij W0 W PG Mi Li E) as (W' & PG' & AP & FN). split; [split; assumption|].
    apply (apart_finer _ _ _ _ FN) in A. intros x y u v [H|H] X Y; [apply (A x y); auto|].
    destruct (Nat.eq_dec y k') as [->|Ny]; [|apply (A x y); auto; right; lia]. destruct H as (-> & _). congruence.
  Qed.
  (** equal vertices are next to each other *)
  Context (CT : forall a c b i k j, (a <= c <= b)%nat -> nth_error nodes a = Some i -> nth_error nodes c = Some k -> nth_error nodes b = Some j ->
    npos (node_at s0 i) = npos (node_at s0 j) -> npos (node_at s0 k) = npos (node_at s0 i)).
  Definition same_place (a b : nat) : Prop := exists i j, nth_error nodes a = Some i /\ nth_error nodes b = Some j /\ npos (node_at s0 i) = npos (node_at s0 j).
  Definition pairs_below (m : nat) (x y : nat) : Prop := (x < y)%nat /\ (x < m)%nat /\ same_place x y.
  Definition runs_inv (x : nat * nat * nat * list rid) (s : st) : Prop :=
    let '(count, prev, index, _) := x in going s /\
    ((length nodes <= index)%nat /\ apart nodes (pairs_below (length nodes)) s \/
     index = S prev /\ (count <= prev)%nat /\ (count = O \/ index < length nodes)%nat /\ one_place s0 nodes (prev - count) (S prev) /\ apart nodes (pairs_below (prev - count)) s).
  Lemma same_between a c b : (a <= c <= b)%nat -> same_place a b -> same_place a c.
  Proof.
    intros L (i & j & A & B & E). destruct (nth_error nodes c) as [k|] eqn:K.
    - exists i, k. split; [exact A|]. split; [exact K|]. symmetry. exact (CT a c b i k j L A K B E).
    - exfalso. apply nth_error_None in K. assert (b < length nodes)%nat by (apply nth_error_Some; congruence). lia.
  Qed.
  Lemma same_place_fun a b c : same_place a b -> same_place a c -> same_place b c.
  Proof. intros (i & j & A & B & E) (i' & k & A' & C & E'). exists j, k. split; [exact B|]. split; [exact C|]. congruence. Qed.
  (** the runs do not reach beyond a vertex that differs from its successor *)
  Lemma beyond c (s : st) : ~ same_place c (S c) -> forall m, (m <= S c)%nat -> 
    apart nodes (fun x y => pairs_below m x y \/ m <= x < y /\ y < S c)%nat s -> apart nodes (pairs_below (S c)) s.
  Proof.
    intros N m L A x y i j (Lxy & Lx & SP) X Y. destruct (Nat.ltb_spec x m) as [H|H].
    - apply (A x y); auto. left. split; [exact Lxy|]. split; [exact H|exact SP].
    - destruct (Nat.ltb_spec y (S c)) as [K|K]; [apply (A x y); auto; right; lia|].
      exfalso. apply N. apply (same_place_fun x); [apply (same_between x c y)|apply (same_between x (S c) y)]; try lia; exact SP.
  Qed.
  Lemma find_apart fuel acc0 :
    tri going (loopM (S (length nodes)) (fun '(count, prev_index, index, acc) =>
     if (index <? length nodes)%nat then
       (a <- lift (nth_res nodes prev_index) ;;
        b <- lift (nth_res nodes index) ;;
        e <- node_eq a b ;;
        let count' := if (e : bool) then S count else count in
        let index' := S index in
        if e && (index' <? length nodes)%nat
        then ret (inl (count', S prev_index, index', acc))
        else
          let prev' := if (e : bool) then S (S prev_index) else S prev_index in
          if (count' =? 0)%nat then ret (inl (count', prev', index', acc))
          else
            (acc' <- correct_repeated_points fuel nodes (prev' - S count')%nat prev' acc ;;
             ret (inl (O, prev', index', acc'))))%M
     else ret (inr acc)) (O, O, 1%nat, acc0)) (fun _ s => going s /\ apart nodes (fun x y => x < y /\ same_place x y)%nat s).
  Proof.
    eapply tri_pre with (I' := runs_inv (O, O, 1%nat, acc0)).
    2:{ intros s G. split; [exact G|]. right. split; [reflexivity|]. split; [lia|]. split; [left; reflexivity|]. split; [apply one_place_single|].
        intros x y i j (_ & L & _). lia. }
    apply (tri_loop _ _ runs_inv). intros (((count & prev) & index) & acc). unfold runs_inv at 1. destruct (Nat.ltb_spec index (length nodes)) as [L|L].
    2:{ apply tri_ret. intros s (G & [(_ & A)|(-> & L1 & L2 & _ & A)]); (split; [exact G|]); revert A; apply apart_weak; intros x y (H1 & H2); split; try assumption; split; try assumption;
        destruct H2 as (i & j & X & Y & _); assert (y < length nodes)%nat by (apply nth_error_Some; congruence); lia. }
    set (F := index = S prev /\ (count <= prev)%nat /\ one_place s0 nodes (prev - count) (S prev)).
    set (J := fun s => going s /\ apart nodes (pairs_below (prev - count)) s).
    eapply tri_pre with (I' := fun s => F /\ J s).
    2:{ intros s (G & [(K & _)|(K1 & K2 & _ & K3 & K4)]); [lia|]. unfold F, J. auto. }
    apply tri_fact. intros (-> & Lc & OP).
    eapply tri_bind with (Q := fun x s => nth_res nodes prev = Ok x /\ J s); [apply tri_lift; auto|]. intros x. apply tri_fact. intros Hx. apply nth_res_error in Hx.
    eapply tri_bind with (Q := fun y s => nth_res nodes (S prev) = Ok y /\ J s); [apply tri_lift; auto|]. intros y. apply tri_fact. intros Hy. apply nth_res_error in Hy.
    eapply tri_bind with (Q := fun e s => (if (e : bool) then npos (node_at s0 x) = npos (node_at s0 y) else ~ same_place prev (S prev)) /\ J s).
    { intros s e s' Js E. rewrite node_eq_run in E. injection E as <- <-. split; [|exact Js]. pose proof (pg_moved _ _ _ (proj2 (proj1 Js))) as UM. rewrite !UM.
      destruct (point_eqb _ _) eqn:T; [apply MiscP.point_eqb_eq in T; exact T|]. intros (i & j & X & Y & E). assert (i = x) by congruence. assert (j = y) by congruence. subst.
      rewrite E in T. pose proof (proj2 (MiscP.point_eqb_eq (npos (node_at s0 y)) (npos (node_at s0 y))) eq_refl). congruence. }
    intros e. apply tri_fact. intros He. cbv zeta. destruct e; cbn [andb].
    - assert (OP' : one_place s0 nodes (prev - count) (S (S prev))) by (apply (one_place_extend s0 nodes _ (S prev) x y); auto; lia).
      destruct (Nat.ltb_spec (S (S prev)) (length nodes)) as [L2|L2].
      + apply tri_ret. intros s (G & A). split; [exact G|]. right. split; [reflexivity|]. split; [lia|]. split; [right; exact L2|]. auto.
      + change (S count =? 0)%nat with false. cbv iota. replace (S (S prev) - S (S count))%nat with (prev - count)%nat by lia.
        eapply tri_bind; [apply (repeated_apart fuel); lia|]. intros acc'. apply tri_ret. intros s (G & A). split; [exact G|]. left. split; [lia|].
        revert A. apply apart_weak. intros u v (H1 & H2 & H3). destruct (Nat.ltb_spec u (prev - count)) as [K|K]; [left; repeat split; assumption|right].
        destruct H3 as (i & j & X & Y & _). assert (v < length nodes)%nat by (apply nth_error_Some; congruence). lia.
    - destruct (Nat.eqb_spec count 0) as [->|Nc].
      + apply tri_ret. intros s (G & A). split; [exact G|]. right. split; [reflexivity|]. split; [lia|]. split; [left; reflexivity|]. rewrite Nat.sub_0_r in *. split; [apply one_place_single|].
        apply (beyond prev s He prev); [lia|]. revert A. apply apart_weak. intros u v [H|H]; [exact H|lia].
      + replace (S prev - S count)%nat with (prev - count)%nat by lia.
        eapply tri_bind; [apply (repeated_apart fuel); lia|]. intros acc'. apply tri_ret. intros s (G & A). split; [exact G|]. right. split; [reflexivity|]. split; [lia|].
        split; [left; reflexivity|]. rewrite Nat.sub_0_r. split; [apply one_place_single|]. apply (beyond prev s He (prev - count)); [lia|]. exact A.
  Qed.
End Ring.
(** ** One ring *)
Lemma key_asym a b : key_lt a b = true -> key_lt b a = false.
Proof.
  unfold key_lt. rewrite !orb_true_iff, !andb_true_iff, !orb_false_iff, !andb_false_iff, !Z.ltb_lt, !Z.eqb_eq, !Z.ltb_ge, !Z.eqb_neq. lia.
Qed.
Lemma key_trans a b c : key_lt b a = false -> key_lt c b = false -> key_lt c a = false.
Proof.
  unfold key_lt. rewrite !orb_false_iff, !andb_false_iff, !Z.ltb_ge, !Z.eqb_neq. lia.
Qed.
Lemma sorted_nth {A} (R : A -> A -> Prop) l : StronglySorted R l -> forall a b x y, (a < b)%nat -> nth_error l a = Some x -> nth_error l b = Some y -> R x y.
Proof.
  induction 1 as [|z l S IH F]; intros a b x y L X Y; [destruct a; discriminate|].
  destruct b as [|b]; [lia|]. cbn in Y. destruct a as [|a]; cbn in X.
  - injection X as <-. rewrite Forall_forall in F. apply F. exact (nth_error_In _ _ Y).
  - apply (IH a b); auto; lia.
Qed.
Lemma sorted_nodes_contiguous fuel r s nodes s' : sorted_nodes fuel r s = Ok (nodes, s') ->
  s' = s /\ forall a c b i k j, (a <= c <= b)%nat -> nth_error nodes a = Some i -> nth_error nodes c = Some k -> nth_error nodes b = Some j ->
    npos (node_at s i) = npos (node_at s j) -> npos (node_at s k) = npos (node_at s i).
Proof.
  intros E. pose proof (un_sorted_nodes fuel r s nodes s' E) as X. unfold IntersectP.unchanged in X. subst s'. split; [reflexivity|].
  unfold sorted_nodes in E. rewrite (bind_run _ _ _ _ _ (rg_run s r)) in E. destruct (r_node (ring_at s r)) as [n|]; [|discriminate].
  inv_bind E l0 t Ea. assert (t = s). { assert (U : pres IntersectP.unchanged (nodes_list fuel n)) by (unfold nodes_list, collect, nd; pres_auto). exact (U _ _ _ Ea). } subst t.
  injection E as <-. set (lp := map (fun i => (i, npos (hget dummy_node (s_nodes s) i))) l0).
  destruct (pure_sort_spec key_lt key_asym key_trans lp) as (P & S). set (L := pure_sort key_lt lp) in *.
  assert (HL : forall x, In x L -> snd x = npos (node_at s (fst x))).
  { intros x Hx. apply (Permutation_in x (Permutation_sym P)) in Hx. unfold lp in Hx. apply in_map_iff in Hx as (i & <- & _). reflexivity. }
  intros a c b i k j Hab A C B EQ.
  assert (G : forall m z, nth_error (map fst L) m = Some z -> exists q, nth_error L m = Some q /\ fst q = z /\ snd q = npos (node_at s z)).
  { intros m z Hm. rewrite nth_error_map in Hm. destruct (nth_error L m) as [q|] eqn:Eq; [|discriminate]. injection Hm as <-. exists q. split; [reflexivity|]. split; [reflexivity|].
    apply HL. exact (nth_error_In _ _ Eq). }
  destruct (Nat.eq_dec a c) as [->|N1]; [congruence|]. destruct (Nat.eq_dec c b) as [->|N2]; [congruence|].
  destruct (G a i A) as (qa & Qa & _ & Pa). destruct (G c k C) as (qc & Qc & _ & Pc). destruct (G b j B) as (qb & Qb & _ & Pb).
  pose proof (sorted_nth _ _ S a c qa qc ltac:(lia) Qa Qc) as L1. pose proof (sorted_nth _ _ S c b qc qb ltac:(lia) Qc Qb) as L2.
  unfold ListP.le, key_lt in L1, L2. rewrite Pa, Pc in L1. rewrite Pb, Pc, <- EQ in L2.
  revert L1 L2. generalize (npos (node_at s i)) (npos (node_at s k)). intros [x1 y1] [x2 y2]. cbn [px py].
  rewrite !orb_false_iff, !andb_false_iff, !Z.ltb_ge, !Z.eqb_neq. intros H1 H2. f_equal; lia.
Qed.
(** no two vertices of [q] are at the same place *)
Definition clean (s : st) (q : rid) : Prop := forall i j, ring_of s i = Some q -> ring_of s j = Some q -> npos (node_at s i) = npos (node_at s j) -> i = j.
Lemma find_cleans fuel r s acc s' : well_ringed s -> find_and_correct_repeated_points fuel r s = Ok (acc, s') ->
  well_ringed s' /\ parting r s s' /\ forall q, q = r \/ (s_rnext s <= q)%positive -> clean s' q.
Proof.
  intros W E. unfold find_and_correct_repeated_points in E. inv_bind E nodes t Ea.
  destruct (tri_sorted_nodes fuel r s nodes t W Ea) as (_ & ND & MB). destruct (sorted_nodes_contiguous fuel r s nodes t Ea) as (-> & CT).
  destruct (find_apart s r nodes W ND MB CT fuel [] s acc s' (conj W (parting_refl r s)) E) as ((W' & P) & A).
  split; [exact W'|]. split; [exact P|]. intros q Q i j Ri Rj EP.
  assert (OLD : forall k, ring_of s' k = Some q -> In k nodes).
  { intros k K. apply MB. destruct (pg_label _ _ _ P k) as [X|(X & _)]; [|exact X]. destruct Q as [-> | Q]; [congruence|].
    rewrite K in X. destruct (wr_known s W k q (eq_sym X)). lia. }
  rewrite !(pg_moved _ _ _ P) in EP.
  destruct (In_nth_error _ _ (OLD i Ri)) as (a & Xa). destruct (In_nth_error _ _ (OLD j Rj)) as (b & Xb).
  destruct (Nat.lt_trichotomy a b) as [L|[L|L]].
  - exfalso. apply (A a b i j); [split; [exact L|exists i, j; auto]|auto|auto|congruence].
  - congruence.
  - exfalso. apply (A b a j i); [split; [exact L|exists j, i; auto]|auto|auto|congruence].
Qed.
(** ** All rings *)
Definition cleaned (todo : list rid) (s : st) : Prop :=
  well_ringed s /\ forall q, clean s q \/ first_of s q = None \/ (In q todo /\ r_corrected (ring_at s q) = false).
Lemma clean_ringed s s' q : same_ringed s s' -> clean s q -> clean s' q.
Proof. intros S C i j. rewrite !(same_ring_of _ _ _ S), !(proj1 S). apply C. Qed.
Lemma cleaned_ringed todo s s' : same_ringed s s' -> cleaned todo s -> cleaned todo s'.
Proof.
  intros S (W & H). split; [exact (well_same s s' S W)|]. intros q. destruct (H q) as [C|[F|(I & M)]].
  - left. exact (clean_ringed s s' q S C).
  - right. left. rewrite (same_first _ _ _ S). exact F.
  - right. right. split; [exact I|]. destruct S as (_ & _ & _ & _ & S). rewrite (proj2 (S q)). exact M.
Qed.
Lemma cleaned_parting r todo s s' : cleaned (r :: todo) s -> well_ringed s' -> parting r s s' -> (forall q, q = r \/ (s_rnext s <= q)%positive -> clean s' q) ->
  cleaned todo s' /\ clean s' r.
Proof.
  intros (W & H) W' P C. split; [|apply C; auto]. split; [exact W'|]. intros q. destruct (Pos.eq_dec q r) as [->|Nq]; [left; apply C; auto|].
  destruct (Pos.leb_spec (s_rnext s) q) as [L|L]; [left; apply C; auto|]. destruct (H q) as [Cq|[F|(I & M)]].
  - left. intros i j Ri Rj EP. rewrite !(pg_moved _ _ _ P) in EP. apply Cq; [| |exact EP].
    + destruct (pg_label _ _ _ P i) as [X|(_ & N & X & LN)]; [congruence|]. rewrite Ri in X. injection X as ->. lia.
    + destruct (pg_label _ _ _ P j) as [X|(_ & N & X & LN)]; [congruence|]. rewrite Rj in X. injection X as ->. lia.
  - right. left. rewrite (pg_rings _ _ _ P q Nq L). exact F.
  - right. right. destruct I as [I|I]; [congruence|]. split; [exact I|]. destruct (r_corrected (ring_at s' q)) eqn:E; [|reflexivity]. rewrite (pg_marks _ _ _ P q E) in M. discriminate.
Qed.
Lemma ring_cleaned fuel r b todo : tri (cleaned (r :: todo)) (correct_ring_self_intersections fuel r b) (fun _ => cleaned todo).
Proof.
  intros s x s' K E. unfold correct_ring_self_intersections in E. rewrite (bind_run _ _ _ _ _ (rg_run s r)) in E.
  destruct (r_corrected (ring_at s r) || is_none (r_node (ring_at s r))) eqn:T.
  - injection E as <- <-. destruct K as (W & H). split; [exact W|]. intros q. destruct (H q) as [C|[F|([<-|I] & M)]]; auto.
    right. left. rewrite M in T. cbn in T. unfold first_of. destruct (r_node (ring_at s r)); [discriminate|reflexivity].
  - inv_bind E new t Ea. destruct (find_cleans fuel r s new t (proj1 K) Ea) as (W' & P & C).
    destruct (cleaned_parting r todo s t K W' P C) as (K' & Cr). inv_bind E u t2 Eb.
    assert (S : same_ringed t t2). { destruct b; [|injection Eb as _ <-; apply R_refl]. assert (U : pres same_ringed (assign_new_ring_parents fuel r new)) by nf_auto. exact (U _ _ _ Eb). }
    apply (cleaned_ringed _ _ _ S) in K'. apply (clean_ringed _ _ _ S) in Cr.
    inv_bind E v t3 Ec. injection E as _ <-. pose proof (kw_corrected r true t2 v t3 Ec (proj1 K')) as W3. rewrite upd_ring_rput in Ec. injection Ec as _ <-.
    destruct K' as (W2 & H). split; [exact W3|]. intros q. destruct (Pos.eq_dec q r) as [->|Nq]; [left; exact Cr|].
    rewrite first_rput, ring_at_rput. destruct (Pos.eqb_spec r q); [congruence|]. exact (H q).
Qed.
Lemma rings_cleaned fuel b l acc : tri (cleaned l) (forM_acc l (fun r acc => (x <- correct_ring_self_intersections fuel r b ;; ret (acc || x))%M) acc) (fun _ => cleaned []).
Proof.
  revert acc. induction l as [|r l IH]; intros acc; cbn; [apply tri_ret; auto|].
  eapply tri_bind with (Q := fun _ => cleaned l); [|intros y; apply IH]. eapply tri_bind; [apply ring_cleaned|]. intros y. apply tri_ret. auto.
Qed.
Lemma clean_outline s r vs : well_ringed s -> clean s r -> outline_of s r vs -> NoDup vs.
Proof.
  intros W C (n & l & F & Cl & ->). destruct (well_at s n r W (wr_first s W r n F)) as (m & Cm & M).
  rewrite (circle_unique s n l m Cl Cm). pose proof (circle_nodup s _ Cm) as ND. unfold vertices.
  assert (IN : forall i, In i (n :: m) -> ring_of s i = Some r) by (intros i; apply M). clear -C ND IN.
  induction (n :: m) as [|a k IH]; cbn; [constructor|]. inversion ND as [|? ? Na ND']; subst. constructor.
  - intros H. apply in_map_iff in H as (i & E & Hi). apply Na. rewrite (C a i); [exact Hi| | |symmetry; exact E]; apply IN; [left; reflexivity|right; exact Hi].
  - apply IH; [exact ND'|]. intros i Hi. apply IN. right. exact Hi.
Qed.
Lemma outline_clean s r n l : well_ringed s -> first_of s r = Some n -> circle s (n :: l) -> NoDup (vertices s (n :: l)) -> clean s r.
Proof.
  intros W F Cl ND i j Ri Rj E. destruct (well_at s n r W (wr_first s W r n F)) as (m & Cm & M). rewrite (circle_unique s n l m Cl Cm) in ND.
  apply M in Ri. apply M in Rj. unfold vertices in ND. clear -ND Ri Rj E.
  induction (n :: m) as [|a k IH]; [destruct Ri|]. inversion ND as [|? ? Na ND']; subst. destruct Ri as [<-|Ri], Rj as [<-|Rj]; auto.
  - exfalso. apply Na. apply in_map_iff. exists j. auto.
  - exfalso. apply Na. apply in_map_iff. exists i. auto.
Qed.
Lemma self_clean fuel b s x s' : well_ringed s ->
  (forall r vs, r_corrected (ring_at s r) = true -> outline_of s r vs -> NoDup vs) ->
  correct_self_intersections fuel b s = Ok (x, s') -> cleaned [] s'.
Proof.
  intros W H E. unfold correct_self_intersections in E. inv_bind E l t Ea. pose proof (calc_sorted fuel s l t Ea) as C.
  assert (P : Permutation (all_rings s) l). { unfold sorted_rings in Ea. inv_bind Ea s2 t2 Eb. injection Eb as <- <-. exact (py_sort_perm _ _ _ _ _ Ea). }
  refine (rings_cleaned fuel b l false t x s' _ E). apply (cleaned_ringed l s t (proj1 C)). split; [exact W|].
  intros q. destruct (first_of s q) as [n|] eqn:F; [|auto]. destruct (r_corrected (ring_at s q)) eqn:M.
  - left. destruct (well_at s n q W (wr_first s W q n F)) as (m & Cm & _). apply (outline_clean s q n m W F Cm). apply (H q); [exact M|]. exists n, m. auto.
  - right. right. split; [|reflexivity]. apply (Permutation_in q P). apply points_in; [exact W|congruence].
Qed.
