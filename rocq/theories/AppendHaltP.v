(** * Joining two rings ends *)
From Coq Require Import ZArith List Bool Lia FMapPositive Permutation.
From Coq Require Import Floats.SpecFloat.
From RecordUpdate Require Import RecordSet.
From Verif Require Import Py Monad Utils Spec Geometry LinearRingM BoundM LocalMinimumM
     StateM PointNodeM RingM SweepM HoareP SweepFrameP SpecTree SpecHeap SpecRings SpecActive FuelP ListP CircleP HeapOpsP CalmP IntersectP VatP MiscP HaltP
     NodeFrameP RingedP TreeP SplitP SweepInvP SweepRunP OriginP ChainP ChainOpsP RingHaltP GroundP.
Import ListNotations RecordSetNotations.
Open Scope Z_scope.
Local Open Scope m_scope.

Lemma tot_halt {A} (P : st -> Prop) (m : nat -> prog A) Q : (forall s, P s -> halt m s) -> (forall f, tri P (m f) Q) -> tot P m Q.
Proof. intros H T s Ps. split; [auto|]. intros f a s' E. exact (T f s a s' Ps E). Qed.

(** everything but the circles of vertices *)
Record core (k r : rid) (s : st) : Prop := {
  co_tree : tree_ok s;
  co_ground : forall q, gr (parent_of s) (Some q);
  co_parent : forall q x, parent_of s q = Some x -> (x < s_rnext s)%positive;
  co_held : forall i q, b_ring (bget (s_bounds s) i) = Some q -> (q < s_rnext s)%positive;
  co_bottom : forall q b, r_bottom (the_ring s q) = Some b -> ring_of s b <> None;
  co_nodup : NoDup (live s);
  co_below : ~ up (parent_of s) (Some k) r
}.
Definition calmR (s s' : st) : Prop :=
  same_tree s s' /\ (forall q, r_bottom (the_ring s' q) = r_bottom (the_ring s q) \/ r_bottom (the_ring s' q) = None) /\
  (forall i, ring_of s i <> None -> ring_of s' i <> None) /\ s_bounds s' = s_bounds s /\ s_abl s' = s_abl s.
Lemma calm_core k r s s' : calmR s s' -> core k r s -> core k r s'.
Proof.
  intros (T & B & L & D & A) [H1 H2 H3 H4 H5 H6 H7]. pose proof T as (_ & N & P). assert (P' : forall q, parent_of s' q = parent_of s q) by (intros q; apply P).
  split.
  - exact (tree_of _ _ (tr_sub _ _ T) H1).
  - intros q. exact (gr_same _ _ _ P' (H2 q)).
  - intros q x. rewrite P', N. apply H3.
  - intros i q. rewrite D, N. apply H4.
  - intros q b E. destruct (B q) as [X|X]; [rewrite X in E; exact (L b (H5 q b E))|congruence].
  - unfold live. rewrite A. exact H6.
  - intros U. apply H7. revert U. apply up_same. intros q. symmetry. apply P'.
Qed.
Lemma calm_of s s' : same_tree s s' -> lab s s' -> same_sweep s s' -> calmR s s'.
Proof. intros T (B & L) (D & A & _). repeat split; try assumption; try apply T. intros q. left. apply B. Qed.
Lemma tri_calm {A} (m : prog A) k r (Q : A -> st -> Prop) : pres same_tree m -> pres lab m -> pres same_sweep m -> tri (core k r) m (fun _ => core k r).
Proof. intros H1 H2 H3 s a s' C E. exact (calm_core _ _ _ _ (calm_of _ _ (H1 _ _ _ E) (H2 _ _ _ E) (H3 _ _ _ E)) C). Qed.

Lemma lab_collect f d i : pres lab (collect f d i). Proof. unfold collect. lab_auto. Qed.
#[export] Hint Resolve lab_collect : pres.
Lemma lab_reverse f i : pres lab (reverse_nodes f i).
Proof. unfold reverse_nodes, iter_nodes. lab_auto. Qed.
#[export] Hint Resolve lab_reverse : pres.
Lemma lab_join f a b i j : pres lab (join_chains f a b i j). Proof. unfold join_chains, set_next, set_prev. lab_auto. Qed.
Lemma lab_depth f r : pres lab (ring_depth f r). Proof. unfold ring_depth. lab_auto. Qed.
Lemma lab_desc f r o : pres lab (is_descendant_of f r o). Proof. unfold is_descendant_of. lab_auto. Qed.
#[export] Hint Resolve lab_join lab_depth lab_desc : pres.
Lemma lab_kids o : pres lab (children_of o). Proof. unfold children_of. lab_auto. Qed.
Lemma lab_set_kids o l : pres lab (set_children o l). Proof. unfold set_children. lab_auto. Qed.
#[export] Hint Resolve lab_kids lab_set_kids : pres.
Lemma lab_iter f o body : (forall k c, pres lab (body k c)) -> pres lab (iter_children f o body). Proof. intros H. unfold iter_children. lab_auto. Qed.
Lemma lab_replace f r o : pres lab (replace_ring f r o).
Proof.
  unfold replace_ring. destruct (opt_is _ _); [apply pres_raise|]. apply pres_bind; [exact _|apply lab_iter; intros; unfold set_to_children, clear_child_at; lab_auto|].
  intros _. unfold remove_from_children, reset_stats. lab_auto.
Qed.
Lemma lab_update f r : pres lab (update_points f r).
Proof.
  unfold update_points, iter_nodes, set_nring. lab_auto. intros s u s' E. injection E as <- <-. split; [reflexivity|]. intros j. unfold ring_of, node_at. cbn. rewrite hget_hset.
  match goal with |- context [Pos.eqb ?x j] => destruct (Pos.eqb_spec x j) as [<-|_]; [discriminate|auto] end.
Qed.

(** ** Climbing the parents *)
Lemma rg_run q s x s' : rg q s = Ok (x, s') -> x = the_ring s q /\ s' = s.
Proof. intros E. injection E as <- <-. auto. Qed.
Lemma halt_depth s r : (forall q, gr (parent_of s) (Some q)) -> halt (fun f => ring_depth f r) s.
Proof.
  intros G. assert (C : exists n, climb (parent_of s) n (parent_of s r)) by (apply gr_climb; specialize (G r); inversion G; assumption).
  destruct C as (n & C). exists (S n). unfold ring_depth. unfold bind at 1, rg, gets. fold (the_ring s r). fold (parent_of s r).
  generalize (parent_of s r) O C. clear. induction n as [|n IH]; intros o k C; destruct o as [q|]; try contradiction.
  - discriminate.
  - cbn [climb] in C. cbn [loopM]. apply (IH (parent_of s q) (S k)) in C. exact C.
  - discriminate.
Qed.
Lemma desc_run s r o : (forall q, gr (parent_of s) (Some q)) ->
  halt (fun f => is_descendant_of f r o) s /\ forall f b s', is_descendant_of f r o s = Ok (b, s') -> s' = s /\ (b = true -> up (parent_of s) (parent_of s r) o) /\ (b = false -> ~ up (parent_of s) (parent_of s r) o).
Proof.
  intros G. split.
  - assert (C : exists n, climb (parent_of s) n (parent_of s r)) by (apply gr_climb; specialize (G r); inversion G; assumption).
    destruct C as (n & C). exists (S n). unfold is_descendant_of. unfold bind at 1, rg, gets. fold (the_ring s r). fold (parent_of s r).
    generalize (parent_of s r) C. clear. induction n as [|n IH]; intros x C; destruct x as [q|]; try contradiction.
    + discriminate.
    + cbn [climb] in C. cbn [loopM]. unfold bind at 1. destruct (Pos.eqb q o); [discriminate|]. apply (IH (parent_of s q)) in C. exact C.
    + discriminate.
  - intros f b s' E. unfold is_descendant_of in E. inv_bind E x s1 E1. apply rg_run in E1. destruct E1 as (-> & ->). fold (parent_of s r) in E.
    revert E. generalize (parent_of s r). clear G. induction f as [|f IH]; intros x E; [discriminate|]. cbn [loopM] in E. apply bind_ok in E. destruct E as (y & s1 & E1 & E).
    destruct x as [q|].
    + destruct (Pos.eqb_spec q o) as [->|N].
      * apply ret_Ok in E1. destruct E1 as (-> & ->). apply ret_Ok in E. destruct E as (-> & ->). split; [reflexivity|]. split; [constructor|discriminate].
      * inv_bind E1 x s2 E2. apply rg_run in E2. destruct E2 as (-> & ->). apply ret_Ok in E1. destruct E1 as (-> & ->). cbn in E. fold (parent_of s q) in E.
        apply IH in E. destruct E as (-> & T & F). split; [reflexivity|]. split; [intros H; apply up_more; auto|]. intros H U. apply (F H). inversion U; subst; [congruence|assumption].
    + apply ret_Ok in E1. destruct E1 as (-> & ->). apply ret_Ok in E. destruct E as (-> & ->). split; [reflexivity|]. split; [discriminate|]. intros _ U. inversion U.
Qed.

(** ** Handing the children over *)
Definition handed (rem : rid) (repl : option rid) (s s' : st) : Prop :=
  forall q, parent_of s' q = parent_of s q \/ (parent_of s q = Some rem /\ parent_of s' q = repl).
Lemma tot_hand rem repl s0 : repl <> Some rem ->
  tot (fun s => tree_ok s /\ s = s0) (fun f => iter_children f (Some rem) (fun k child =>
       (upd_ring child (fun x => x <| r_parent := repl |>) ;; set_to_children child repl ;; clear_child_at (Some rem) k))) (fun _ s => handed rem repl s0 s).
Proof.
  intros D. unfold iter_children.
  eapply tot_weak with (P := fun s => tree_ok s /\ handed rem repl s0 s /\ length (kids s (Some rem)) = length (kids s0 (Some rem)) /\ (0 + length (kids s0 (Some rem)) = length (kids s0 (Some rem)))%nat); [| |
    apply (tot_loop _ (fun n k s => tree_ok s /\ handed rem repl s0 s /\ length (kids s (Some rem)) = length (kids s0 (Some rem)) /\ (k + n = length (kids s0 (Some rem)))%nat)
      (fun _ s => handed rem repl s0 s))].
  - intros s (T & ->). split; [exact T|]. split; [intros q; auto|]. auto.
  - auto.
  - intros; mo.
  - clear - D. intros n k. apply tot_fin.
    + unfold set_to_children, clear_child_at. fi.
    + intros s a s' (T & H & L & M) E. inv_bind E l s1 E1. apply children_of_Ok in E1. destruct E1 as (-> & ->).
      destruct (nth_error (kids s (Some rem)) k) as [[c|]|] eqn:N.
      * inv_bind E u s1 E1. apply ret_Ok in E. destruct E as (-> & ->).
        destruct (replace_body rem repl k c s u s1 D N E1 T) as (T1 & _ & _ & _).
        assert (Pc : parent_of s c = Some rem) by (apply (T (Some rem) c); eapply nth_error_In; exact N).
        inv_bind E1 u1 t1 F1. inv_bind E1 u2 t2 F2. apply set_parent_Ok in F1. destruct F1 as (K1 & P1 & P1' & _). apply set_to_Ok in F2. destruct F2 as (K2 & K2' & P2 & _).
        apply clear_Ok in E1. destruct E1 as (K3 & K3' & P3 & _).
        assert (k < length (kids s (Some rem)))%nat by (apply nth_error_Some; congruence).
        exists (n - 1)%nat. split; [lia|]. split; [exact T1|]. split; [|split; [|lia]].
        -- intros q. rewrite P3, P2. destruct (Pos.eq_dec q c) as [->|Nq].
           ++ rewrite P1. destruct (H c) as [X|(X & _)]; [right; split; [congruence|reflexivity]|right; auto].
           ++ rewrite P1' by exact Nq. apply H.
        -- rewrite K3, K2', K1 by congruence. rewrite upd_length. exact L.
      * apply ret_Ok in E. destruct E as (-> & ->). assert (k < length (kids s (Some rem)))%nat by (apply nth_error_Some; congruence).
        exists (n - 1)%nat. split; [lia|]. split; [exact T|]. split; [exact H|]. split; [exact L|lia].
      * apply ret_Ok in E. destruct E as (-> & ->). exact H.
Qed.
Lemma mo_iter o body : mono (fun f => iter_children f o body).
Proof. unfold iter_children. mo. Qed.
#[export] Hint Resolve mo_iter : mono.
(** what is left once the joined ring took everything *)
Lemma tot_replace rem repl k s0 : k <> rem ->
  tot (fun s => s = s0 /\ core k rem s /\ (repl = Some k /\ (k < s_rnext s)%positive \/ repl = parent_of s k)) (fun f => replace_ring f rem repl)
    (fun _ s => (forall q, gr (parent_of s) (Some q)) /\ (forall q x, parent_of s q = Some x -> (x < s_rnext s)%positive)).
Proof.
  intros Nk. unfold replace_ring. destruct (opt_is (Some rem) repl) eqn:O; [apply tot_fin; [apply fin_raise|apply tri_raise]|].
  assert (D : repl <> Some rem) by (intros ->; cbn in O; rewrite Pos.eqb_refl in O; discriminate).
  intros s (-> & C & R). cut (tot (fun s => s = s0) (fun f => iter_children f (Some rem) (fun k child =>
       (upd_ring child (fun x => x <| r_parent := repl |>) ;; set_to_children child repl ;; clear_child_at (Some rem) k)) ;; (x <- rg rem ;;
     remove_from_children rem (r_parent x) ;; upd_ring rem (fun x => x <| r_node := None |>) ;; reset_stats rem)) (fun _ s => handed rem repl s0 s /\ s_rnext s = s_rnext s0)).
  { intros K. destruct (K s0 eq_refl) as (K1 & K2). split; [exact K1|]. intros f a s' E. destruct (K2 f a s' E) as (H & N).
    assert (G : gr (parent_of s0) repl /\ ~ up (parent_of s0) repl rem).
    { destruct R as [(-> & _)| ->]; [split; [apply C|apply C]|]. split; [pose proof (co_ground _ _ _ C k) as G; inversion G; assumption|].
      intros U. apply (co_below _ _ _ C). apply up_more. exact U. }
    split.
    - intros q. exact (gr_move _ _ rem repl _ H (proj1 G) (proj2 G) (co_ground _ _ _ C q)).
    - intros q x. rewrite N. destruct (H q) as [-> |(_ & ->)]; [apply C|]. intros E'. destruct R as [(E2 & L)|E2]; [congruence|]. rewrite E2 in E'. exact (co_parent _ _ _ C k x E'). }
  clear R. eapply tot_bind with (Q := fun _ s => handed rem repl s0 s /\ s_rnext s = s_rnext s0).
  - mo.
  - intros; mo.
  - intros s ->. pose proof (tot_hand rem repl s0 D s0 (conj (co_tree _ _ _ C) eq_refl)) as (H1 & H2). split; [exact H1|]. intros f a s' E. split; [exact (H2 f a s' E)|].
    revert E. apply (fun H : pres (fun s s' => s_rnext s' = s_rnext s) _ => H s0 a s'). assert (PO : PreOrd (fun s s' : st => s_rnext s' = s_rnext s)) by (split; [auto|congruence]).
    unfold iter_children. apply pres_loopM; [exact PO|]. intros j t v t' E. inv_bind E l s1 E1. apply children_of_Ok in E1. destruct E1 as (-> & ->).
    destruct (nth_error _ j) as [[c|]|].
    + inv_bind E u s1 E1. apply ret_Ok in E. destruct E as (-> & ->). inv_bind E1 u1 t1 F1. inv_bind E1 u2 t2 F2. apply set_parent_Ok in F1. apply set_to_Ok in F2. apply clear_Ok in E1.
      destruct F1 as (_ & _ & _ & N1), F2 as (_ & _ & _ & N2), E1 as (_ & _ & _ & N3 & _). congruence.
    + apply ret_Ok in E. destruct E as (-> & ->). reflexivity.
    + apply ret_Ok in E. destruct E as (-> & ->). reflexivity.
  - intros []. apply tot_fin; [unfold remove_from_children, reset_stats; fi|]. intros s u s' (H & N) E. inv_bind E x s1 E1. apply rg_run in E1. destruct E1 as (-> & ->).
    inv_bind E v s1 E1. apply remove_Ok in E1. destruct E1 as (_ & _ & P1 & N1 & _).
    assert (ST : same_tree s1 s').
    { revert E. apply (fun H : pres same_tree _ => H s1 u s'). unfold reset_stats. apply pres_bind; [exact _|apply (ut_upd_ring same_tree); intros; reflexivity|]. intros _. apply (ut_upd_ring same_tree); intros; reflexivity. }
    destruct ST as (_ & N2 & P2). split; [|congruence]. intros q. destruct (P2 q) as (-> & _). rewrite P1. apply H.
Qed.

(** ** The joined ring *)
Lemma mo_join a b i j : mono (fun f => join_chains f a b i j). Proof. mof fuel_join_chains. Qed.
Lemma mo_depth r : mono (fun f => ring_depth f r). Proof. mof fuel_ring_depth. Qed.
Lemma mo_desc r o : mono (fun f => is_descendant_of f r o). Proof. mof fuel_is_descendant_of. Qed.
Lemma mo_replace r o : mono (fun f => replace_ring f r o). Proof. mof fuel_replace_ring. Qed.
Lemma mo_update r : mono (fun f => update_points f r). Proof. mof fuel_update_points. Qed.
Lemma mo_ensure r : mono (fun f => ensure_bottom f r). Proof. mof fuel_ensure_bottom. Qed.
Lemma mo_lowermost r o : mono (fun f => lowermost_ring f r o). Proof. mof fuel_lowermost_ring. Qed.
Lemma mo_append i j : mono (fun f => append_ring f i j). Proof. mof fuel_append_ring. Qed.
#[export] Hint Resolve mo_join mo_depth mo_desc mo_replace mo_update mo_ensure mo_lowermost mo_append : mono.
Lemma tot_and {A} (P : st -> Prop) (m : nat -> prog A) Q1 Q2 : tot P m Q1 -> (forall f, tri P (m f) Q2) -> tot P m (fun a s => Q1 a s /\ Q2 a s).
Proof. intros H T s Ps. destruct (H s Ps) as (H1 & H2). split; [exact H1|]. intros f a s' E. split; [exact (H2 f a s' E)|exact (T f s a s' Ps E)]. Qed.
Lemma tot_gets {A} (P : st -> Prop) (g : st -> A) : tot P (fun _ => gets g) (fun a s => a = g s /\ P s).
Proof. apply tot_fin; [apply fin_gets|]. intros s a s' Ps E. apply gets_Ok in E. destruct E as (-> & ->). auto. Qed.
Lemma tot_rg (P : st -> Prop) r : tot P (fun _ => rg r) (fun x s => x = the_ring s r /\ P s). Proof. apply tot_gets. Qed.
Lemma tot_bd (P : st -> Prop) i : tot P (fun _ => bd i) (fun x s => x = bget (s_bounds s) i /\ P s). Proof. apply tot_gets. Qed.
Lemma tot_deref {A} (P : st -> Prop) (o : option A) : tot P (fun _ => deref o) (fun a s => o = Some a /\ P s).
Proof. apply tot_fin; [apply fin_deref|]. intros s a s' Ps E. apply deref_Ok in E. destruct E as (-> & ->). auto. Qed.
Lemma tot_ret {A} (a : A) (P : st -> Prop) (Q : A -> st -> Prop) : (forall s, P s -> Q a s) -> tot P (fun _ => ret a) Q.
Proof. intros H. apply tot_fin; [apply fin_ret|apply tri_ret; exact H]. Qed.
Lemma tot_pre {A} (P P' : st -> Prop) (m : nat -> prog A) Q : tot P m Q -> (forall s, P' s -> P s) -> tot P' m Q.
Proof. intros H K. eapply tot_weak; [exact K| |exact H]. auto. Qed.
Lemma tot_fact {A} (m : nat -> prog A) (F : Prop) (P : st -> Prop) Q : (F -> tot P m Q) -> tot (fun s => F /\ P s) m Q.
Proof. intros H s (X & Y). exact (H X s Y). Qed.
Ltac tb := eapply tot_bind; [mo|intros; mo| |].

Record half (s : st) : Prop := {
  ha_tree : tree_ok s;
  ha_ground : forall q, gr (parent_of s) (Some q);
  ha_parent : forall q x, parent_of s q = Some x -> (x < s_rnext s)%positive;
  ha_held : forall i q, b_ring (bget (s_bounds s) i) = Some q -> (q < s_rnext s)%positive;
  ha_bottom : forall q b, r_bottom (the_ring s q) = Some b -> ring_of s b <> None;
  ha_nodup : NoDup (live s)
}.
Lemma calm_half s s' : calmR s s' -> half s -> half s'.
Proof.
  intros (T & B & L & D & A) [H1 H2 H3 H4 H5 H6]. pose proof T as (_ & N & P). assert (P' : forall q, parent_of s' q = parent_of s q) by (intros q; apply P).
  split.
  - exact (tree_of _ _ (tr_sub _ _ T) H1).
  - intros q. exact (gr_same _ _ _ P' (H2 q)).
  - intros q x. rewrite P', N. apply H3.
  - intros i q. rewrite D, N. apply H4.
  - intros q b E. destruct (B q) as [X|X]; [rewrite X in E; exact (L b (H5 q b E))|congruence].
  - unfold live. rewrite A. exact H6.
Qed.
Lemma sound_core k r s : sound s -> ~ up (parent_of s) (Some k) r -> core k r s.
Proof. intros [] H. split; assumption. Qed.
Lemma bottom_none r f : (forall x, r_bottom (f x) = None) -> (forall x, r_parent (f x) = r_parent x) -> (forall x, r_children (f x) = r_children x) -> pres calmR (upd_ring r f).
Proof.
  intros H Hp Hc s u s' E. pose proof (ut_upd_ring same_tree r f Hp Hc s u s' E) as T. injection E as <- <-. split; [exact T|]. split; [|auto].
  intros q. unfold the_ring. cbn. rewrite hget_hset. destruct (Pos.eqb r q); [right; apply H|left; reflexivity].
Qed.
Definition joining (k r : rid) (s : st) : Prop := merged k r s /\ core k r s.

Section Join.
Context (k r : rid) (Nkr : k <> r).
Lemma tot_chains kl rl p1 p2 :
  tot (fun s => first_of s k = Some p1 /\ first_of s r = Some p2 /\ sound s /\ ~ up (parent_of s) (Some k) r) (fun f => join_chains f kl rl p1 p2)
    (fun h s => joining k r s /\ match h with Some n => ring_of s n = Some r | None => True end).
Proof.
  apply tot_halt.
  - intros s (F1 & F2 & S0 & _). pose proof (so_ringed _ S0) as W. destruct (well_at s p1 k W (wr_first s W _ _ F1)) as (l1 & C1 & M1).
    destruct (well_at s p2 r W (wr_first s W _ _ F2)) as (l2 & C2 & M2).
    assert (D : forall i, In i (p1 :: l1) -> ~ In i (p2 :: l2)) by (intros i I1 I2; apply M1 in I1; apply M2 in I2; congruence).
    destruct (join_circle s p1 l1 p2 l2 (length (p2 :: l2)) kl rl C1 C2 D (le_n _)) as (s2 & E2 & _). exists (length (p2 :: l2)). rewrite E2. discriminate.
  - intros f s h s' (F1 & F2 & S0 & U) E. destruct (join_merged f kl rl k r p1 p2 s h s' (so_ringed _ S0) Nkr F1 F2 E) as (M & H). split; [|exact H]. split; [exact M|].
    refine (calm_core _ _ s s' _ (sound_core _ _ _ S0 U)). apply calm_of; [exact (us_join same_tree _ _ _ _ _ _ _ _ E)|exact (lab_join _ _ _ _ _ _ _ _ E)|].
    revert E. apply (fun H : pres same_sweep _ => H s h s'). unfold join_chains. pres_auto.
Qed.
Lemma joining_same s s' : same_ringed s s' -> calmR s s' -> joining k r s -> joining k r s'.
Proof. intros H1 H2 (M & C). split; [exact (merged_drops k r s s' (drops_same _ _ _ H1) M)|exact (calm_core _ _ _ _ H2 C)]. Qed.
Lemma tot_depth q : tot (joining k r) (fun f => ring_depth f q) (fun _ => joining k r).
Proof.
  apply tot_halt; [intros s (_ & C); apply halt_depth, C|]. intros f s n s' J E. refine (joining_same s s' (nf_ring_depth same_ringed f q s n s' E) _ J).
  apply calm_of; [exact (ut_ring_depth same_tree _ _ _ _ _ E)|exact (lab_depth _ _ _ _ _ E)|exact (pr_ring_depth same_sweep _ _ _ _ _ E)].
Qed.
Lemma tot_hand_over repl : tot (fun s => (joining k r s /\ first_of s r = None) /\ (repl = Some k \/ repl = parent_of s k)) (fun f => replace_ring f r repl)
  (fun _ s => merged k r s /\ first_of s r = None /\ half s).
Proof.
  intros s (((M & C) & F) & R). destruct (tot_replace r repl k s Nkr s) as (H1 & H2).
  { split; [reflexivity|]. split; [exact C|]. destruct R as [-> |R]; [left; split; [reflexivity|exact (mg_keep _ _ _ M)]|right; exact R]. }
  split; [exact H1|]. intros f u s' E. destruct (H2 f u s' E) as (G & P). pose proof (dr_replace_ring (eq r) f r repl eq_refl s u s' E) as D.
  split; [exact (merged_drops k r s s' D M)|]. split; [exact (first_drops r s s' D F)|].
  pose proof (tree_of _ _ (tx_replace_ring none f r repl s u s' E) (co_tree _ _ _ C)) as T. destruct (lab_replace f r repl s u s' E) as (B & L).
  destruct (pr_replace_ring same_sweep f r repl s u s' E) as (X1 & X2 & _).
  assert (N : s_rnext s' = s_rnext s) by (destruct D as (_ & _ & N & _); exact N).
  split; [exact T|exact G|exact P| | |].
  - intros i q. rewrite X1, N. apply C.
  - intros q b E'. rewrite B in E'. apply L, (co_bottom _ _ _ C q b E').
  - unfold live. rewrite X2. apply C.
Qed.
Lemma tot_owns : tot (fun s => merged k r s /\ first_of s r = None /\ half s) (fun f => update_points f k) (fun _ s => sound s /\ (k < s_rnext s)%positive).
Proof.
  apply tot_halt.
  - intros s (M & _). destruct (mg_circle _ _ _ M) as (n & l & F & C & _). destruct (update_points_circle s k n l (length (n :: l)) C F (le_n _)) as (s' & E & _).
    exists (length (n :: l)). rewrite E. discriminate.
  - intros f s u s' (M & F & H) E. pose proof (merged_relabel k r s u s' f M F E) as W.
    pose proof (ut_update_points same_tree f k s u s' E) as T. pose proof (lab_update f k s u s' E) as L. pose proof (pr_update_points same_sweep f k s u s' E) as SS.
    destruct (calm_half s s' (calm_of _ _ T L SS) H) as [H1 H2 H3 H4 H5 H6]. split; [split; assumption|]. destruct T as (_ & -> & _). exact (mg_keep _ _ _ M).
Qed.
Lemma tot_append_rest kb rb : tot (fun s => sound s /\ ~ up (parent_of s) (Some k) r) (fun f => append_rest f k r kb rb) (fun _ => sound).
Proof.
  unfold append_rest. tb; [apply tot_rg|]. intros kr. tb; [apply tot_rg|]. intros rr. cbv beta.
  eapply tot_bind with (Q := fun p1 s => first_of s k = Some p1 /\ rr = the_ring s r /\ sound s /\ ~ up (parent_of s) (Some k) r); [mo|intros; mo| |].
  { eapply tot_weak; [| |apply tot_deref]; [intros s H; exact H|]. intros p1 s (E & -> & -> & H). auto. }
  intros p1. eapply tot_bind with (Q := fun p2 s => first_of s k = Some p1 /\ first_of s r = Some p2 /\ sound s /\ ~ up (parent_of s) (Some k) r); [mo|intros; mo| |].
  { eapply tot_weak; [| |apply tot_deref]; [intros s H; exact H|]. intros p2 s (E & E1 & -> & H). auto. }
  intros p2. tb; [apply tot_bd|]. intros kbd. tb; [apply tot_bd|]. intros rbd.
  tb; [eapply tot_pre; [apply tot_chains|]; tauto|]. intros h.
  eapply tot_bind with (Q := fun _ => joining k r); [destruct h; mo|intros; mo| |].
  { apply tot_fin; [destruct h; fi|]. destruct h as [n|]; [|apply tri_ret; tauto]. intros s u s' ((M & C) & H) E. split.
    - rewrite upd_ring_rput in E. injection E as <- <-. apply (merged_first k r s n); auto.
    - refine (calm_core _ _ s s' _ C). apply calm_of; [|refine (lab_upd_ring k _ _ s u s' E); reflexivity|exact (pr_upd_ring same_sweep _ _ _ _ _ E)].
      refine (ut_upd_ring same_tree k _ _ _ s u s' E); reflexivity. }
  intros u1. eapply tot_bind with (Q := fun _ => joining k r); [mo|intros; mo| |].
  { apply tot_fin; [fi|]. intros s u s' J E. refine (joining_same s s' _ _ J); [|refine (bottom_none k _ _ _ _ s u s' E); reflexivity].
    revert E. apply (fun H : pres same_ringed _ => H s u s'). nf_auto. }
  intros u2. tb; [apply tot_depth|]. intros kd. tb; [apply tot_depth|]. intros rd.
  eapply tot_bind with (Q := fun _ s => joining k r s /\ first_of s r = None); [mo|intros; mo| |].
  { apply tot_fin; [fi|]. intros s u s' (M & C) E. split; [split|].
    - refine (merged_drops k r s s' _ M). refine (dr_none (eq r) r _ _ _ _ s u s' E); reflexivity.
    - refine (calm_core _ _ s s' _ C). refine (bottom_none r _ _ _ _ s u s' E); reflexivity.
    - rewrite upd_ring_rput in E. injection E as <- <-. rewrite first_rput, Pos.eqb_refl. reflexivity. }
  intros u3. eapply tot_bind with (Q := fun _ s => merged k r s /\ first_of s r = None /\ half s); [destruct (negb _); mo|intros; mo| |].
  { destruct (negb _).
    - tb; [apply tot_rg|]. intros x. eapply tot_pre; [apply tot_hand_over|]. intros s (-> & H). split; [exact H|right; reflexivity].
    - eapply tot_pre; [apply tot_hand_over|]. intros s H. split; [exact H|left; reflexivity]. }
  intros u4. tb; [apply tot_owns|]. intros u5.
  assert (K : forall i f, (forall b, b_ring (f b) = None) -> tri (fun s => sound s /\ (k < s_rnext s)%positive) (upd_bound i f) (fun _ s => sound s /\ (k < s_rnext s)%positive)).
  { intros i f Hf s u s' (S0 & L) E. split; [exact (jr_upd_bound i f (fun b => or_intror (Hf b)) s u s' E S0)|]. apply upd_bound_Ok in E. subst s'. exact L. }
  tb; [apply tot_fin; [fi|apply K; reflexivity]|]. intros u6. tb; [apply tot_fin; [fi|apply K; reflexivity]|]. intros u7.
  apply tot_fin; [fi|]. intros s u s' (S0 & L) E. inv_bind E s1 s2 E1. apply get_Ok in E1. destruct E1 as (-> & ->).
  destruct (find_ring_bound _ _ _) as [t|]; [|apply ret_Ok in E; destruct E as (_ & ->); exact S0].
  inv_bind E kb' s1 E1. apply bd_Ok in E1. destruct E1 as (-> & ->). apply upd_bound_Ok in E. subst s'. pose proof S0 as [H1 H2 H3 H4 H5 H6 H7].
  split; [apply (well_same s); [repeat split|exact H1]|exact H2|exact H3|exact H4| |exact H6|exact H7].
  intros x q. cbn. rewrite bget_hset. destruct (Pos.eqb_spec t x) as [<-|_]; [|apply H5]. cbn. intros [= <-]. exact L.
Qed.
End Join.
