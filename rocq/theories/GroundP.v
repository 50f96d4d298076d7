(** * The parents of the rings lead to the outside, and what keeps it so *)
From Coq Require Import ZArith List Bool Lia FMapPositive Permutation.
From Coq Require Import Floats.SpecFloat.
From RecordUpdate Require Import RecordSet.
From Verif Require Import Py Monad Utils Spec Geometry LinearRingM BoundM LocalMinimumM
     StateM PointNodeM RingM SweepM HoareP SweepFrameP SpecTree SpecHeap SpecRings SpecActive FuelP ListP CircleP HeapOpsP CalmP IntersectP VatP MiscP HaltP
     NodeFrameP RingedP TreeP SplitP SweepInvP SweepRunP OriginP ChainP ChainOpsP RingHaltP.
Import ListNotations RecordSetNotations.
Open Scope Z_scope.
Local Open Scope m_scope.

(** ** Chains of parents *)
Section Parents.
Context (p : rid -> option rid).
(** following the parents from [o] ends *)
Inductive gr : option rid -> Prop :=
| gr_none : gr None
| gr_some r : gr (p r) -> gr (Some r).
(** [r] is [o] or a parent of a parent of ... [o] *)
Inductive up : option rid -> rid -> Prop :=
| up_here r : up (Some r) r
| up_more q r : up (p q) r -> up (Some q) r.
Lemma up_trans o r q : up o r -> p r = Some q -> up o q.
Proof. intros H E. induction H as [r|q' r H IH]; [apply up_more; rewrite E; apply up_here|apply up_more; auto]. Qed.
Lemma gr_acyclic o r : gr o -> o = Some r -> ~ up (p r) r.
Proof.
  intros G. revert r. induction G as [|x G IH]; intros r E; [discriminate|]. injection E as ->. intros U.
  inversion U as [y Ey|y z Uy Ey]; subst.
  - symmetry in Ey. refine (IH r Ey _). exact U.
  - symmetry in Ey. refine (IH y Ey _). exact (up_trans _ _ _ Uy Ey).
Qed.
Fixpoint climb (n : nat) (o : option rid) : Prop :=
  match o, n with None, _ => True | Some _, O => False | Some r, S m => climb m (p r) end.
Lemma gr_climb o : gr o -> exists n, climb n o.
Proof. intros G. induction G as [|r G (n & IH)]; [exists O; exact I|]. exists (S n). exact IH. Qed.
End Parents.
Lemma gr_same p p' o : (forall r, p' r = p r) -> gr p o -> gr p' o.
Proof. intros H G. induction G as [|r G IH]; [constructor|]. constructor. rewrite H. exact IH. Qed.
Lemma up_same p p' o r : (forall r, p' r = p r) -> up p o r -> up p' o r.
Proof. intros H U. induction U as [r|q r U IH]; [constructor|]. apply up_more. rewrite H. exact IH. Qed.
Lemma gr_keep p p' rem repl o : (forall r, p' r = p r \/ (p r = Some rem /\ p' r = repl)) -> gr p o -> ~ up p o rem -> gr p' o.
Proof.
  intros H G. induction G as [|r G IH]; intros N; [constructor|]. constructor. destruct (H r) as [E|(E & _)].
  - rewrite E. apply IH. intros U. apply N. apply up_more. exact U.
  - exfalso. apply N. apply up_more. rewrite E. apply up_here.
Qed.
Lemma gr_move p p' rem repl o : (forall r, p' r = p r \/ (p r = Some rem /\ p' r = repl)) -> gr p repl -> ~ up p repl rem -> gr p o -> gr p' o.
Proof.
  intros H R N G. pose proof (gr_keep p p' rem repl repl H R N) as R'. induction G as [|r G IH]; [constructor|]. constructor.
  destruct (H r) as [-> |(_ & ->)]; assumption.
Qed.
Lemma gr_fresh p p' r o : (forall q, q <> r -> p' q = p q) -> (forall q, p q <> Some r) -> gr p o -> o <> Some r -> gr p' o.
Proof. intros H F G. induction G as [|q G IH]; intros N; [constructor|]. constructor. rewrite H by congruence. apply IH. apply F. Qed.

(** ** What the halting of the sweep needs of a state *)
Record sound (s : st) : Prop := {
  so_ringed : well_ringed s;
  so_tree : tree_ok s;
  so_ground : forall r, gr (parent_of s) (Some r);
  so_parent : forall r q, parent_of s r = Some q -> (q < s_rnext s)%positive;
  so_held : forall i r, b_ring (bget (s_bounds s) i) = Some r -> (r < s_rnext s)%positive;
  so_bottom : forall r b, r_bottom (the_ring s r) = Some b -> ring_of s b <> None;
  so_nodup : NoDup (live s)
}.
Definition keeps (s s' : st) : Prop := sound s -> sound s'.
#[export] Instance keeps_pre : PreOrd keeps.
Proof. split; [intros s H; exact H|]. intros a b c H1 H2 H. auto. Qed.
#[export] Hint Resolve keeps_pre : pres.

Lemma sound_frame s s' : well_ringed s' -> tree_ok s' -> s_rnext s' = s_rnext s -> (forall r, parent_of s' r = parent_of s r) ->
  (forall r, r_bottom (the_ring s' r) = r_bottom (the_ring s r) \/ r_bottom (the_ring s' r) = None) -> (forall i, ring_of s i <> None -> ring_of s' i <> None) ->
  (forall i, b_ring (bget (s_bounds s') i) = b_ring (bget (s_bounds s) i) \/ b_ring (bget (s_bounds s') i) = None) -> nd s s' -> sound s -> sound s'.
Proof.
  intros W T N P B L H D [H1 H2 H3 H4 H5 H6 H7]. split; [exact W|exact T| | | | |].
  - intros r. exact (gr_same _ _ _ P (H3 r)).
  - intros r q. rewrite P, N. apply H4.
  - intros i r E. rewrite N. destruct (H i) as [X|X]; [rewrite X in E; exact (H5 i r E)|congruence].
  - intros r b E. destruct (B r) as [X|X]; [rewrite X in E; exact (L b (H6 r b E))|congruence].
  - exact (D H7).
Qed.
Lemma tree_of (s s' : st) : treeX none s s' -> tree_ok s -> tree_ok s'.
Proof. intros H T. destruct (H T) as (T' & _); [intros r []|exact T']. Qed.
Lemma sound_same s s' : same_ringed s s' -> same_tree s s' -> (forall r, r_bottom (the_ring s' r) = r_bottom (the_ring s r)) ->
  (forall i, b_ring (bget (s_bounds s') i) = b_ring (bget (s_bounds s) i) \/ b_ring (bget (s_bounds s') i) = None) -> nd s s' -> keeps s s'.
Proof.
  intros SR ST B H D S0. pose proof S0 as [H1 H2 _ _ _ _ _]. refine (sound_frame s s' _ _ _ _ _ _ H D S0).
  - exact (well_same _ _ SR H1).
  - exact (tree_of _ _ (tr_sub _ _ ST) H2).
  - apply ST.
  - intros r. apply ST.
  - intros r. left. apply B.
  - intros i. rewrite (same_ring_of _ _ _ SR). auto.
Qed.
Lemma jr_upd_bound i f : (forall b, b_ring (f b) = b_ring b \/ b_ring (f b) = None) -> pres keeps (upd_bound i f).
Proof.
  intros H s u s' E. apply upd_bound_Ok in E. subst s'. apply sound_same; [repeat split|repeat split|reflexivity| |intros N; exact N].
  intros j. cbn. rewrite bget_hset. destruct (Pos.eqb_spec i j) as [<-|_]; auto.
Qed.
Lemma jr_modify (f : st -> st) : (forall s, same_ringed s (f s) /\ same_tree s (f s) /\ (forall r, r_bottom (the_ring (f s) r) = r_bottom (the_ring s r)) /\
  s_bounds (f s) = s_bounds s /\ s_abl (f s) = s_abl s) -> pres keeps (modify f).
Proof.
  intros H. apply pres_modify. intros s. destruct (H s) as (H1 & H2 & H3 & H4 & H5). apply sound_same; auto.
  - rewrite H4. auto.
  - intros N. unfold live. rewrite H5. exact N.
Qed.
Lemma jr_abl (f : st -> list (option bid)) : (forall s, NoDup (live s) -> NoDup (somes_of (f s))) -> pres keeps (modify (fun s => s <| s_abl := f s |>)).
Proof. intros H. apply pres_modify. intros s. apply sound_same; [repeat split|repeat split|reflexivity|auto|]. intros N. exact (H s N). Qed.
Lemma sound_abl s s' : s' = s <| s_abl := s_abl s' |> -> NoDup (live s') -> sound s -> sound s'.
Proof. intros E N. rewrite E. apply sound_same; [repeat split|repeat split|reflexivity|auto|]. intros _. unfold live. exact N. Qed.
Lemma jr_swap a b : pres keeps (abl_swap a b).
Proof.
  intros s u s' E S0. pose proof (nd_swap _ _ _ _ _ E (so_nodup _ S0)) as N. refine (sound_abl s s' _ N S0). unfold abl_swap in E.
  apply bind_ok in E as (x & t & Ea & E). apply get_run in Ea as (_ & ->). apply bind_ok in E as (y & t & Ea & E). apply get_run in Ea as (_ & ->).
  apply bind_ok in E as (v & t & Ea & E). unfold abl_set in *. apply bind_ok in Ea as (v1 & t1 & Eb & Ea). apply gets_Ok in Eb as (-> & ->).
  destruct (_ <? _)%nat; [|discriminate]. apply modify_Ok in Ea. subst t.
  apply bind_ok in E as (v2 & t1 & Eb & E). apply gets_Ok in Eb as (-> & ->). destruct (_ <? _)%nat; [|discriminate]. apply modify_Ok in E. subst s'. reflexivity.
Qed.
Lemma jr_none k : pres keeps (abl_set k None).
Proof.
  intros s u s' E S0. pose proof (nd_set_none _ _ _ _ E (so_nodup _ S0)) as N. refine (sound_abl s s' _ N S0). unfold abl_set in E.
  apply bind_ok in E as (v1 & t1 & Eb & E). apply gets_Ok in Eb as (-> & ->). destruct (_ <? _)%nat; [|discriminate]. apply modify_Ok in E. subst s'. reflexivity.
Qed.
Lemma jr_compact : pres keeps abl_compact.
Proof.
  intros s u s' E S0. pose proof (live_compact _ _ _ E) as L. assert (N : NoDup (live s')) by (rewrite L; apply S0). refine (sound_abl s s' _ N S0).
  unfold abl_compact in E. apply modify_Ok in E. subst s'. reflexivity.
Qed.

(** ** Adding points *)
(** the lowest points stay recorded and the vertices stay in rings *)
Definition lab (s s' : st) : Prop :=
  (forall r, r_bottom (the_ring s' r) = r_bottom (the_ring s r)) /\ (forall i, ring_of s i <> None -> ring_of s' i <> None).
#[export] Instance lab_pre : PreOrd lab.
Proof. split; [split; auto|]. intros a b c (A1 & A2) (B1 & B2). split; [intros r; rewrite B1; apply A1|auto]. Qed.
#[export] Hint Resolve lab_pre : pres.
Lemma lab_upd_node i f : (forall n, n_ring (f n) = n_ring n) -> pres lab (upd_node i f).
Proof.
  intros H s u s' E. injection E as <- <-. split; [reflexivity|]. intros j. unfold ring_of, node_at. cbn. rewrite hget_hset.
  destruct (Pos.eqb_spec i j) as [<-|_]; [rewrite H|]; auto.
Qed.
Lemma lab_upd_ring r f : (forall x, r_bottom (f x) = r_bottom x) -> pres lab (upd_ring r f).
Proof.
  intros H s u s' E. injection E as <- <-. split; [|auto]. intros q. unfold the_ring. cbn. rewrite hget_hset. destruct (Pos.eqb_spec r q) as [<-|_]; [apply H|reflexivity].
Qed.
Lemma lab_new i n : n_ring n <> None -> pres lab (modify (fun s => s <| s_nodes := hset (s_nodes s) i n |> <| s_nnext := Pos.succ i |>)).
Proof.
  intros H. apply pres_modify. intros s. split; [reflexivity|]. intros j. unfold ring_of, node_at. cbn. rewrite hget_hset. destruct (Pos.eqb_spec i j) as [<-|_]; auto.
Qed.
Lemma lab_modify f : (forall s, s_rings (f s) = s_rings s /\ s_nodes (f s) = s_nodes s) -> pres lab (modify f).
Proof. intros H. apply pres_modify. intros s. destruct (H s) as (A & B). unfold lab, the_ring, ring_of, node_at. rewrite A, B. auto. Qed.
Ltac lab_prim := first [apply lab_upd_node; intros; reflexivity|apply lab_upd_ring; intros; reflexivity|apply lab_new; discriminate|apply lab_modify; intros; split; reflexivity].
Ltac lab_auto := repeat first [progress pres_step | lab_prim].
Lemma lab_nd i : pres lab (StateM.nd i). Proof. apply pres_gets. exact _. Qed.
Lemma lab_rg i : pres lab (rg i). Proof. apply pres_gets. exact _. Qed.
Lemma lab_bd i : pres lab (bd i). Proof. apply pres_gets. exact _. Qed.
#[export] Hint Resolve lab_nd lab_rg lab_bd : pres.
Lemma lab_prev_of i : pres lab (prev_of i). Proof. unfold prev_of. lab_auto. Qed.
Lemma lab_next_of i : pres lab (next_of i). Proof. unfold next_of. lab_auto. Qed.
Lemma lab_point i : pres lab (node_point i). Proof. unfold node_point. lab_auto. Qed.
#[export] Hint Resolve lab_prev_of lab_next_of lab_point : pres.
Lemma lab_place i j : pres lab (place_before i j). Proof. unfold place_before, set_next, set_prev. lab_auto. Qed.
#[export] Hint Resolve lab_place : pres.
Lemma lab_create_node r p b : pres lab (create_point_node (Some r) p b). Proof. unfold create_point_node. lab_auto. Qed.
#[export] Hint Resolve lab_create_node : pres.
Lemma lab_put i p : pres lab (put_point i p). Proof. unfold put_point. lab_auto. Qed.

Lemma jr_three {A} (m : prog A) : pres keepw m -> pres (treeX none) m -> pres same_tree m -> pres lab m -> pres same_sweep m -> pres keeps m.
Proof.
  intros H1 H2 H3 H4 H5 s a s' E S0. pose proof (H1 _ _ _ E) as K. pose proof (H2 _ _ _ E) as K2. pose proof (H3 _ _ _ E) as (_ & N & P). destruct (H4 _ _ _ E) as (B & L).
  destruct (H5 _ _ _ E) as (X1 & X2 & _). refine (sound_frame s s' (K (so_ringed _ S0)) (tree_of _ _ K2 (so_tree _ S0)) N _ _ L _ _ S0).
  - intros r. apply P.
  - intros r. left. apply B.
  - rewrite X1. auto.
  - intros Z. unfold live. rewrite X2. exact Z.
Qed.
Lemma jr_put i p : pres keeps (put_point i p).
Proof.
  apply jr_three; [apply kw_put_point|apply (us_put_point (treeX none))|apply (us_put_point same_tree)|apply lab_put|apply ss_put_point].
Qed.
Lemma hole_scan_in h : forall l tmp t, hole_scan h l tmp = Some t -> tmp = Some t \/ In (Some t) l.
Proof.
  induction l as [|o l IH]; intros tmp t E; cbn [hole_scan] in E; [auto|]. apply IH in E as [E|E]; [|right; right; exact E].
  destruct o as [j|]; [|auto]. destruct (b_ring (bget h j)); [|auto]. destruct tmp as [t'|].
  - destruct (opt_is _ _); [discriminate|auto].
  - injection E as <-. right. left. reflexivity.
Qed.
Lemma last_index_at i : forall l k acc n, last_index i l k acc = Some n -> acc = Some n \/ ((k <= n)%nat /\ nth_error l (n - k) = Some (Some i)).
Proof.
  induction l as [|o l IH]; intros k acc n E; cbn [last_index] in E; [auto|]. apply IH in E as [E|(L & E)].
  - destruct (opt_is o (Some i)) eqn:Eo; [|auto]. injection E as <-. right. split; [lia|]. rewrite Nat.sub_diag. destruct o as [z|]; cbn in Eo; [|discriminate].
    apply Pos.eqb_eq in Eo. subst. reflexivity.
  - right. split; [lia|]. replace (n - k)%nat with (S (n - S k)) by lia. exact E.
Qed.
(** the parent a new ring gets is held by another bound *)
Lemma hole_state_run i r s u s' : b_ring (bget (s_bounds s) i) = Some r -> set_hole_state i s = Ok (u, s') ->
  s_rnext s' = s_rnext s /\ (forall q, q <> r -> parent_of s' q = parent_of s q) /\
  (parent_of s' r = None \/ exists t k n, nth_error (s_abl s) k = Some (Some t) /\ nth_error (s_abl s) n = Some (Some i) /\ (k < n)%nat /\ parent_of s' r = b_ring (bget (s_bounds s) t)).
Proof.
  intros Hb E. unfold set_hole_state in E. inv_bind E s0 s1 E1. apply get_Ok in E1. destruct E1 as (-> & ->).
  destruct (last_index i (s_abl s) 0 None) as [k|] eqn:Lk; [|discriminate]. cbv zeta in E.
  inv_bind E b s1 E1. apply bd_Ok in E1. destruct E1 as (-> & ->). rewrite Hb in E.
  inv_bind E r0 s1 E1. apply deref_Ok in E1. destruct E1 as (E1 & ->). injection E1 as <-.
  destruct (hole_scan _ _ None) as [t|] eqn:Eh.
  - inv_bind E v s1 E1. inv_bind E l s2 E2. apply children_of_Ok in E2. destruct E2 as (-> & ->).
    apply set_parent_Ok in E1. destruct E1 as (K1 & P1 & P1' & N1). apply set_children_Ok in E. destruct E as (K2 & K2' & P2 & N2).
    split; [congruence|]. split; [intros q Nq; rewrite P2; auto|]. right.
    apply hole_scan_in in Eh as [Eh|Eh]; [discriminate|]. apply in_rev, In_nth_error in Eh as (q & Hq).
    apply last_index_at in Lk as [Lk|(_ & Lk)]; [discriminate|]. rewrite Nat.sub_0_r in Lk.
    assert (q < k)%nat. { assert (q < length (firstn k (s_abl s)))%nat by (apply nth_error_Some; congruence). rewrite firstn_length in H. lia. }
    exists t, q, k. rewrite nth_error_firstn in Hq. rewrite (proj2 (Nat.ltb_lt q k)) in Hq by assumption. split; [exact Hq|]. split; [exact Lk|]. split; [assumption|]. rewrite P2. exact P1.
  - inv_bind E v s1 E1. inv_bind E l s2 E2. apply children_of_Ok in E2. destruct E2 as (-> & ->).
    apply set_parent_Ok in E1. destruct E1 as (K1 & P1 & P1' & N1). apply set_children_Ok in E. destruct E as (K2 & K2' & P2 & N2).
    split; [congruence|]. split; [intros q Nq; rewrite P2; auto|]. left. rewrite P2. exact P1.
Qed.

Lemma create_ring_run s r s' : create_ring s = Ok (r, s') -> r = s_rnext s /\ s' = s <| s_rings := hset (s_rings s) r new_ring |> <| s_rnext := Pos.succ r |>.
Proof. intros E. unfold create_ring, bind, get, modify, ret in E. cbn in E. injection E as <- <-. split; reflexivity. Qed.
Definition first_rest (i : bid) (p : point) (r : rid) : prog unit :=
  (upd_bound i (fun b => b <| b_ring := Some r |>) ;;
   n <- create_point_node (Some r) p None ;;
   upd_ring r (fun x => x <| r_node := Some n |>) ;;
   set_hole_state i ;;
   upd_bound i (fun b => b <| b_last := p |>)).
Lemma first_run i p r s u s' : first_rest i p r s = Ok (u, s') -> exists u2 s2 n s3 u4 s4 u5 s5,
  upd_bound i (fun b => b <| b_ring := Some r |>) s = Ok (u2, s2) /\ create_point_node (Some r) p None s2 = Ok (n, s3) /\ upd_ring r (fun x => x <| r_node := Some n |>) s3 = Ok (u4, s4) /\ set_hole_state i s4 = Ok (u5, s5) /\ upd_bound i (fun b => b <| b_last := p |>) s5 = Ok (u, s').
Proof.
  unfold first_rest. generalize (set_hole_state i). intros sh E. apply bind_ok in E as (u2 & s2 & E2 & E). apply bind_ok in E as (n & s3 & E3 & E).
  apply bind_ok in E as (u4 & s4 & E4 & E). apply bind_ok in E as (u5 & s5 & E5 & E). exists u2, s2, n, s3, u4, s4, u5, s5. auto.
Qed.
Lemma first_eq i p : add_first_point i p = bind create_ring (first_rest i p).
Proof. reflexivity. Qed.
Lemma jr_add_first i p : pres keeps (add_first_point i p).
Proof.
  intros s u s' E S0. pose proof (kw_add_first_point i p s u s' E (so_ringed _ S0)) as W.
  pose proof (tree_of _ _ (tx_add_first_point none i p s u s' E) (so_tree _ S0)) as T.
  rewrite first_eq in E. destruct (bind_ok create_ring (first_rest i p) s u s' E) as (r & s1 & E1 & E'). clear E. destruct (first_run _ _ _ _ _ _ E') as (u2 & s2 & n & s3 & u4 & s4 & u5 & s5 & E2 & E3 & E4 & E5 & E). clear E'.
  apply create_ring_run in E1 as (Er & E1).
  assert (N1 : s_rnext s1 = Pos.succ r) by (rewrite E1; reflexivity).
  assert (P1 : forall q, parent_of s1 q = if Pos.eqb r q then None else parent_of s q).
  { intros q. rewrite E1. unfold parent_of, the_ring. cbn. rewrite hget_hset. destruct (Pos.eqb r q); reflexivity. }
  assert (B1 : forall q, r_bottom (the_ring s1 q) = if Pos.eqb r q then None else r_bottom (the_ring s q)).
  { intros q. rewrite E1. unfold the_ring. cbn. rewrite hget_hset. destruct (Pos.eqb r q); reflexivity. }
  assert (L1 : forall j, ring_of s1 j = ring_of s j) by (rewrite E1; reflexivity).
  assert (D1 : s_bounds s1 = s_bounds s) by (rewrite E1; reflexivity). assert (A1 : s_abl s1 = s_abl s) by (rewrite E1; reflexivity).
  assert (T4 : same_tree s1 s4).
  { pose proof (ut_upd_bound same_tree _ _ _ _ _ E2) as Z2. pose proof (ut_create_point_node same_tree _ _ _ _ _ _ E3) as Z3.
    assert (Z4 : same_tree s3 s4) by (eapply (ut_upd_ring same_tree); [| |exact E4]; intros; reflexivity). exact (R_trans _ _ _ Z2 (R_trans _ _ _ Z3 Z4)). }
  assert (LB4 : lab s1 s4).
  { assert (Z2 : lab s1 s2) by (apply upd_bound_Ok in E2; subst s2; split; auto). pose proof (lab_create_node _ _ _ _ _ _ E3) as Z3.
    assert (Z4 : lab s3 s4) by (eapply (lab_upd_ring r); [|exact E4]; intros; reflexivity). exact (R_trans _ _ _ Z2 (R_trans _ _ _ Z3 Z4)). }
  destruct (upd_onlyb _ _ _ _ _ E2) as (O2 & _).
  pose proof (pr_create_point_node same_sweep _ _ _ _ _ _ E3) as (W3 & V3 & _). pose proof (pr_upd_ring same_sweep _ _ _ _ _ E4) as (W4 & V4 & _).
  assert (Bd4 : s_bounds s4 = s_bounds s2) by congruence. assert (A4 : s_abl s4 = s_abl s) by (destruct O2 as (Z & _); congruence).
  assert (Bi : b_ring (bget (s_bounds s4) i) = Some r) by (rewrite Bd4, (onlyb_self _ _ _ _ O2); reflexivity).
  assert (Bo : forall j, j <> i -> bget (s_bounds s4) j = bget (s_bounds s) j) by (intros j Nj; rewrite Bd4, (onlyb_other _ _ _ _ _ O2 Nj), D1; reflexivity).
  clear E2 E3 E4 W3 V3 W4 V4 Bd4 O2 D1 A1 E1.
  destruct (hole_state_run i r s4 u5 s5 Bi E5) as (N5 & P5 & P5').
  assert (LB5 : lab s4 s5).
  { revert E5. apply (fun H : pres lab (set_hole_state i) => H s4 u5 s5). unfold set_hole_state, children_of, set_children. lab_auto. }
  assert (SS5 : same_sweep s4 s5).
  { revert E5. apply (fun H : pres same_sweep (set_hole_state i) => H s4 u5 s5). unfold set_hole_state. pres_auto. }
  destruct SS5 as (D5 & A5 & _). clear E5.
  pose proof (ut_upd_bound same_tree _ _ _ _ _ E) as (_ & N6 & P6). apply upd_bound_Ok in E.
  destruct T4 as (_ & N4 & P4). destruct LB4 as (B4 & L4). destruct LB5 as (B5 & L5).
  assert (PP : forall q, q <> r -> parent_of s' q = parent_of s q).
  { intros q Nq. destruct (P6 q) as (-> & _). rewrite (P5 q Nq). destruct (P4 q) as (-> & _). rewrite P1. rewrite (proj2 (Pos.eqb_neq r q)) by congruence. reflexivity. }
  assert (NN : s_rnext s' = Pos.succ r) by congruence.
  assert (PR : parent_of s' r = None \/ exists q, parent_of s' r = Some q /\ (q < r)%positive).
  { destruct (P6 r) as (-> & _). destruct P5' as [Z|(t & k & m & Hk & Hm & Lt & Z)]; [auto|]. rewrite Z. destruct (b_ring (bget (s_bounds s4) t)) as [q|] eqn:Eq; [|auto].
    right. exists q. split; [reflexivity|]. assert (Nt : t <> i).
    { intros ->. rewrite A4 in Hk, Hm. pose proof (nodup_pos _ _ _ _ (so_nodup _ S0) Hk Hm). lia. }
    rewrite (Bo t Nt) in Eq. rewrite Er. exact (so_held _ S0 t q Eq). }
  assert (NF : forall q, parent_of s q <> Some r).
  { intros q Eq. apply (so_parent _ S0) in Eq. rewrite Er in Eq. exact (Pos.lt_irrefl _ Eq). }
  assert (G : forall o, o <> Some r -> gr (parent_of s) o -> gr (parent_of s') o).
  { intros o No Go. exact (gr_fresh _ _ r o PP NF Go No). }
  split.
  - exact W.
  - exact T.
  - intros q. destruct (Pos.eq_dec q r) as [->|Nq]; [|apply G; [congruence|apply S0]]. constructor.
    destruct PR as [-> |(x & -> & Lx)]; [constructor|]. apply G; [intros [= ->]; exact (Pos.lt_irrefl _ Lx)|apply S0].
  - intros q x Eq. rewrite NN. destruct (Pos.eq_dec q r) as [->|Nq].
    + destruct PR as [Z|(y & Z & Ly)]; [congruence|]. rewrite Z in Eq. injection Eq as <-. lia.
    + rewrite (PP q Nq) in Eq. apply (so_parent _ S0) in Eq. lia.
  - intros j x Ej. rewrite NN. subst s'. cbn in Ej. rewrite bget_hset, D5 in Ej. destruct (Pos.eqb_spec i j) as [<-|Nj].
    + cbn in Ej. rewrite Bi in Ej. injection Ej as <-. lia.
    + rewrite (Bo j) in Ej by congruence. apply (so_held _ S0) in Ej. lia.
  - intros q b Eb. assert (B' : r_bottom (the_ring s' q) = r_bottom (the_ring s5 q)) by (subst s'; reflexivity). rewrite B', B5, B4, B1 in Eb.
    destruct (Pos.eqb r q); [discriminate|]. apply (so_bottom _ S0) in Eb. rewrite <- L1 in Eb. apply L4, L5 in Eb. subst s'. exact Eb.
  - subst s'. unfold live. cbn. rewrite A5, A4. apply S0.
Qed.
Lemma jr_get_ring i j (k : prog unit) : pres keeps k -> pres keeps (b <- bd i ;; upd_bound j (fun x => x <| b_ring := b_ring b |>) ;; k).
Proof.
  intros K s u s' E. apply bind_ok in E as (b & t & Eb & E). apply bd_Ok in Eb as (-> & ->). apply bind_ok in E as (v & t & Eb & E).
  eapply R_trans; [|exact (K _ _ _ E)]. apply upd_bound_Ok in Eb. subst t. intros S0. pose proof S0 as [H1 H2 H3 H4 H5 H6 H7].
  split; [apply (well_same s); [repeat split|exact H1]|exact H2|exact H3|exact H4| |exact H6|exact H7].
  intros x r. cbn. rewrite bget_hset. destruct (Pos.eqb_spec j x) as [<-|_]; [cbn; apply H5|apply H5].
Qed.
Lemma jr_swap_rings i j : pres keeps (swap_rings i j).
Proof.
  intros s u s' E S0. unfold swap_rings in E.
  apply bind_ok in E as (a & t & Ea & E). apply bd_Ok in Ea as (-> & ->). apply bind_ok in E as (b & t & Ea & E). apply bd_Ok in Ea as (-> & ->).
  apply bind_ok in E as (v & t & Ea & E). apply upd_bound_Ok in Ea, E. subst t s'. pose proof S0 as [H1 H2 H3 H4 H5 H6 H7].
  split; [apply (well_same s); [repeat split|exact H1]|exact H2|exact H3|exact H4| |exact H6|exact H7].
  intros x r. cbn. rewrite bget_hset. destruct (Pos.eqb_spec j x) as [<-|_]; [cbn; apply H5|]. rewrite bget_hset. destruct (Pos.eqb_spec i x) as [<-|_]; [cbn; apply H5|apply H5].
Qed.
