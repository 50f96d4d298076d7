(** * The pieces of the sweep keep the rings in order and end *)
From Coq Require Import ZArith List Bool Lia FMapPositive Permutation.
From Coq Require Import Floats.SpecFloat.
From RecordUpdate Require Import RecordSet.
From Verif Require Import Py Monad Utils Spec Geometry LinearRingM BoundM LocalMinimumM
     StateM PointNodeM RingM SweepM HoareP SweepFrameP SpecTree SpecHeap SpecRings SpecActive FuelP ListP CircleP HeapOpsP CalmP IntersectP VatP MiscP HaltP
     NodeFrameP RingedP TreeP SplitP SweepInvP SweepRunP OriginP ChainP ChainOpsP RingHaltP GroundP AppendHaltP.
Import ListNotations RecordSetNotations.
Open Scope Z_scope.
Local Open Scope m_scope.

(** ** The lower of two rings *)
Section Lowest.
Context (J : st -> Prop) (HJ : forall s s', same_tree s s' -> (forall i, ring_of s' i = ring_of s i) -> J s -> J s').
Lemma tot_ensure r : tot (fun s => sound s /\ J s) (fun f => ensure_bottom f r) (fun b s => ring_of s b <> None /\ sound s /\ J s).
Proof.
  unfold ensure_bottom. eapply tot_bind; [mo|intros; mo|apply tot_rg|]. intros x. destruct (r_bottom x) as [b|] eqn:Eb.
  { apply tot_ret. intros s (-> & S0 & Js). split; [exact (so_bottom _ S0 r b Eb)|auto]. }
  eapply tot_bind; [mo|intros; mo|apply tot_deref|]. intros n. cbv beta.
  eapply tot_bind with (Q := fun b s => ring_of s b = Some r /\ sound s /\ J s); [mo|intros; mo| |].
  { intros s (En & -> & S0 & Js). pose proof (so_ringed _ S0) as W. destruct (well_at s n r W (wr_first s W r n En)) as (l & C & M).
    destruct (ro_bottom s (n :: l) n C (or_introl eq_refl) s eq_refl) as (H1 & H2). split; [exact H1|]. intros f b s' E. destruct (H2 f b s' E) as (-> & I).
    split; [apply M; exact I|auto]. }
  intros b. apply tot_fin; [fi|]. intros s a s' (Rb & S0 & Js) E. inv_bind E u s1 E1. apply ret_Ok in E. destruct E as (-> & ->).
  assert (T : same_tree s s1) by (refine (ut_upd_ring same_tree r _ _ _ s u s1 E1); reflexivity).
  assert (SR : same_ringed s s1) by (revert E1; apply (fun H : pres same_ringed _ => H s u s1); nf_auto).
  assert (L : forall i, ring_of s1 i = ring_of s i) by (intros i; exact (same_ring_of _ _ _ SR)).
  split; [rewrite L; congruence|]. split; [|exact (HJ s s1 T L Js)].
  pose proof (pr_upd_ring same_sweep _ _ _ _ _ E1) as (X1 & X2 & _). pose proof S0 as [H1 H2 H3 H4 H5 H6 H7]. destruct T as (T1 & N & P).
  split.
  - exact (well_same _ _ SR H1).
  - exact (tree_of _ _ (tr_sub _ _ (conj T1 (conj N P))) H2).
  - intros q. refine (gr_same _ _ _ _ (H3 q)). intros z. apply P.
  - intros q z. rewrite N. destruct (P q) as (-> & _). apply H4.
  - intros i q. rewrite X1, N. apply H5.
  - intros q z E'. rewrite L. injection E1 as _ <-. unfold the_ring in E'. cbn in E'. rewrite hget_hset in E'. destruct (Pos.eqb_spec r q) as [<-|_]; [|exact (H6 q z E')].
    cbn in E'. injection E' as <-. congruence.
  - unfold live. rewrite X2. exact H7.
Qed.
End Lowest.
Lemma tot_lowermost (J : st -> Prop) r o : (forall s s', same_tree s s' -> J s -> J s') ->
  tot (fun s => sound s /\ J s) (fun f => lowermost_ring f r o) (fun _ s => sound s /\ J s).
Proof.
  intros HJ. unfold lowermost_ring. eapply tot_bind; [mo|intros; mo|apply tot_ensure; intros s s' T _; apply HJ; exact T|]. intros b.
  eapply tot_bind with (Q := fun c s => ring_of s c <> None /\ sound s /\ (ring_of s b <> None /\ J s)); [mo|intros; mo| |].
  { eapply tot_pre; [apply (tot_ensure (fun s => ring_of s b <> None /\ J s))|].
    - intros s s' T L (A & B). split; [rewrite L; exact A|exact (HJ s s' T B)].
    - intros s (A & B & C). auto. }
  intros c. eapply tot_bind; [mo|intros; mo|apply tot_gets|]. intros bn. eapply tot_bind; [mo|intros; mo|apply tot_gets|]. intros cn.
  assert (K : forall z : rid, tot (fun s => cn = hget dummy_node (s_nodes s) c /\ bn = hget dummy_node (s_nodes s) b /\ ring_of s c <> None /\ sound s /\ ring_of s b <> None /\ J s) (fun _ => ret z) (fun _ s => sound s /\ J s))
    by (intros z; apply tot_ret; tauto).
  destruct (n_y bn >? n_y cn); [apply K|]. destruct (n_y bn <? n_y cn); [apply K|]. destruct (n_x bn <? n_x cn); [apply K|]. destruct (n_x bn >? n_x cn); [apply K|].
  destruct (opt_is (n_next bn) (Some b)); [apply K|]. destruct (opt_is (n_next cn) (Some c)); [apply K|].
  intros s (_ & _ & Rc & S0 & Rb & Js). cut (tot (fun t => t = s) (fun f => z <- is_bottom_to f b c ;; ret (if (z : bool) then r else o)) (fun _ t => t = s /\ True)).
  { intros H. destruct (H s eq_refl) as (H1 & H2). split; [exact H1|]. intros f a s' E. destruct (H2 f a s' E) as (-> & _). auto. }
  pose proof (so_ringed _ S0) as W.
  assert (OC : forall i, ring_of s i <> None -> on_circle s i).
  { intros i Hi. destruct (ring_of s i) as [q|] eqn:Ei; [|congruence]. destruct (well_at s i q W Ei) as (l & C & _). exists (i :: l). split; [exact C|left; reflexivity]. }
  eapply (ro_bind s); [mo|intros; mo|apply (ro_bottom_to s b c (OC b Rb) (OC c Rc))|]. intros z _. apply ro_ret. exact I.
Qed.

(** ** Joining the rings of two bounds *)
Lemma append_eq f i j : append_ring f i j =
  (bi <- bd i ;; bj <- bd j ;; r1 <- deref (b_ring bi) ;; r2 <- deref (b_ring bj) ;; d12 <- is_descendant_of f r1 r2 ;;
   kf <- (if (d12 : bool) then ret false else (d21 <- is_descendant_of f r2 r1 ;; if (d21 : bool) then ret true else (l <- lowermost_ring f r1 r2 ;; ret (Pos.eqb r1 l)))) ;;
   let '(keep, remove, kb, rb) := if (kf : bool) then (r1, r2, i, j) else (r2, r1, j, i) in append_rest f keep remove kb rb).
Proof. reflexivity. Qed.
Definition append_pick (f : nat) (i j : bid) (r1 r2 : rid) : prog unit :=
  (d12 <- is_descendant_of f r1 r2 ;;
   kf <- (if (d12 : bool) then ret false else (d21 <- is_descendant_of f r2 r1 ;; if (d21 : bool) then ret true else (l <- lowermost_ring f r1 r2 ;; ret (Pos.eqb r1 l)))) ;;
   let '(keep, remove, kb, rb) := if (kf : bool) then (r1, r2, i, j) else (r2, r1, j, i) in append_rest f keep remove kb rb).
Lemma mo_rest k r a b : mono (fun f => append_rest f k r a b).
Proof. unfold append_rest. mo. Qed.
#[export] Hint Resolve mo_rest : mono.
Definition apart (r1 r2 : rid) (s : st) (kf : bool) : Prop := if kf then ~ up (parent_of s) (Some r1) r2 else ~ up (parent_of s) (Some r2) r1.
Lemma up_self p r o : r <> o -> up p (Some r) o -> up p (p r) o.
Proof. intros N U. inversion U; subst; [congruence|assumption]. Qed.
Lemma mo_pick i j r1 r2 : mono (fun f => append_pick f i j r1 r2).
Proof.
  unfold append_pick. apply mono_bind; [mo|]. intros d. apply mono_bind; [destruct d; mo|]. intros kf. destruct kf; mo.
Qed.
Lemma tot_pick i j r1 r2 : r1 <> r2 -> tot sound (fun f => append_pick f i j r1 r2) (fun _ => sound).
Proof.
  intros N. unfold append_pick.
  eapply tot_bind with (Q := fun (d : bool) s => sound s /\ (if d then up (parent_of s) (parent_of s r1) r2 else ~ up (parent_of s) (parent_of s r1) r2)).
  { mo. } { intros d. apply mono_bind; [destruct d; mo|]. intros kf. destruct kf; mo. }
  { intros s S0. destruct (desc_run s r1 r2 (so_ground _ S0)) as (H1 & H2). split; [exact H1|]. intros f b s' E. destruct (H2 f b s' E) as (-> & A & B). destruct b; auto. }
  intros d. eapply tot_bind with (Q := fun kf s => sound s /\ apart r1 r2 s kf).
  { destruct d; mo. } { intros kf. destruct kf; mo. }
  - destruct d.
    + apply tot_ret. intros s (S0 & U). split; [exact S0|]. intros V.
      apply (gr_acyclic (parent_of s) (Some r1) r1 (so_ground _ S0 r1) eq_refl). apply (up_self _ _ _ (not_eq_sym N)) in V.
      clear - U V. revert V. generalize (parent_of s r1) U. intros o W V. induction W as [q|q q' W IH]; [apply up_more; exact V|apply up_more; auto].
    + eapply tot_bind with (Q := fun (d : bool) s => sound s /\ ~ up (parent_of s) (parent_of s r1) r2 /\ (if d then up (parent_of s) (parent_of s r2) r1 else ~ up (parent_of s) (parent_of s r2) r1)).
      { mo. } { intros d. destruct d; mo. }
      { intros s (S0 & U). destruct (desc_run s r2 r1 (so_ground _ S0)) as (H1 & H2). split; [exact H1|]. intros f b s' E. destruct (H2 f b s' E) as (-> & A & B). destruct b; auto. }
      intros d. destruct d.
      * apply tot_ret. intros s (S0 & U & _). split; [exact S0|]. intros V. apply U. exact (up_self _ _ _ N V).
      * set (J := fun s => ~ up (parent_of s) (Some r1) r2 /\ ~ up (parent_of s) (Some r2) r1).
        eapply tot_bind with (Q := fun _ s => sound s /\ J s); [mo|intros; mo| |].
        -- eapply tot_pre; [apply tot_lowermost|].
           ++ intros s s' (_ & _ & T) (A & B). assert (Q : forall q, parent_of s q = parent_of s' q) by (intros q; symmetry; apply T).
              split; intros U; [apply A|apply B]; exact (up_same _ _ _ _ Q U).
           ++ intros s (S0 & A & B). split; [exact S0|]. split; intros U; [exact (A (up_self _ _ _ N U))|exact (B (up_self _ _ _ (not_eq_sym N) U))].
        -- intros l. apply tot_ret. intros s (S0 & A & B). split; [exact S0|]. unfold apart. destruct (Pos.eqb r1 l); assumption.
  - intros kf. destruct kf; cbv iota.
    + exact (tot_append_rest r1 r2 N i j).
    + exact (tot_append_rest r2 r1 (not_eq_sym N) j i).
Qed.
Lemma tot_append i j : tot (fun s => sound s /\ opt_is (b_ring (bget (s_bounds s) i)) (b_ring (bget (s_bounds s) j)) = false) (fun f => append_ring f i j) (fun _ => sound).
Proof.
  eapply tot_bind; [mo| |apply tot_bd|].
  { intros bi. apply mono_bind; [mo|]. intros bj. apply mono_bind; [mo|]. intros r1. apply mono_bind; [mo|]. intros r2. apply mo_pick. }
  intros bi. eapply tot_bind; [mo| |apply tot_bd|].
  { intros bj. apply mono_bind; [mo|]. intros r1. apply mono_bind; [mo|]. intros r2. apply mo_pick. }
  intros bj. eapply tot_bind; [mo| |apply tot_deref|].
  { intros r1. apply mono_bind; [mo|]. intros r2. apply mo_pick. }
  intros r1. eapply tot_bind; [mo| |apply tot_deref|].
  { intros r2. apply mo_pick. }
  intros r2 s (E2 & E1 & -> & -> & S0 & D). rewrite E1, E2 in D. cbn in D. apply Pos.eqb_neq in D. exact (tot_pick i j r1 r2 D s S0).
Qed.

(** ** The pieces without a budget *)
Lemma jr_read {A} (m : prog A) : pres unchanged m -> pres keeps m.
Proof. intros H s a s' E. apply H in E. unfold unchanged in E. subst. intros S0. exact S0. Qed.
Ltac jr_prim := first [apply jr_upd_bound; intros; solve [left; reflexivity|right; reflexivity]
  |apply jr_modify; intros; repeat split].
Ltac jr_auto := repeat first [progress pres_step | jr_prim].
Ltac jr f := intros; unfold f; jr_auto.
Lemma jr_nd i : pres keeps (StateM.nd i). Proof. apply pres_gets. exact _. Qed.
Lemma jr_rg i : pres keeps (rg i). Proof. apply pres_gets. exact _. Qed.
Lemma jr_bd i : pres keeps (bd i). Proof. apply pres_gets. exact _. Qed.
#[export] Hint Resolve jr_nd jr_rg jr_bd jr_put jr_add_first jr_swap jr_none jr_compact jr_swap_rings : pres.
Lemma jr_abl_get k : pres keeps (abl_get k). Proof. jr abl_get. Qed.
#[export] Hint Resolve jr_abl_get : pres.
Lemma jr_abl_bound k : pres keeps (abl_bound k). Proof. jr abl_bound. Qed.
Lemma jr_current_edge i : pres keeps (current_edge i). Proof. jr current_edge. Qed.
Lemma jr_next_edge i : pres keeps (next_edge i). Proof. jr next_edge. Qed.
Lemma jr_push_hp p : pres keeps (push_hp p). Proof. jr push_hp. Qed.
Lemma jr_insort_scan p : pres keeps (insort_scan p). Proof. jr insort_scan. Qed.
#[export] Hint Resolve jr_abl_bound jr_current_edge jr_next_edge jr_push_hp jr_insort_scan : pres.
Lemma jr_winding a b k : pres keeps (set_winding_count a b k). Proof. jr set_winding_count. Qed.
Lemma jr_intermediate i y : pres keeps (is_intermediate i y). Proof. jr is_intermediate. Qed.
Lemma jr_maxima i y : pres keeps (is_maxima i y). Proof. jr is_maxima. Qed.
Lemma jr_to_next i : pres keeps (to_next_edge i). Proof. jr to_next_edge. Qed.
Lemma jr_compare i j : pres keeps (intersection_compare i j). Proof. jr intersection_compare. Qed.
#[export] Hint Resolve jr_winding jr_intermediate jr_maxima jr_to_next jr_compare : pres.
Lemma jr_update_x y : pres keeps (update_current_x y). Proof. jr update_current_x. Qed.
Lemma jr_init_bound i s : pres keeps (init_bound i s). Proof. jr init_bound. Qed.
#[export] Hint Resolve jr_update_x jr_init_bound : pres.
Lemma jr_initialize m : pres keeps (initialize m). Proof. jr initialize. Qed.
Lemma jr_ids : pres keeps abl_ids. Proof. jr abl_ids. Qed.
Lemma jr_pop y : pres keeps (pop_scanbeam y). Proof. jr pop_scanbeam. Qed.
Lemma jr_pending ms k : pres keeps (sweep_pending ms k). Proof. jr sweep_pending. Qed.
#[export] Hint Resolve jr_initialize jr_ids jr_pop jr_pending : pres.
Lemma jr_walk i x a sk sp l : pres keeps (hot_pixel_walk i x a sk sp l).
Proof. induction l as [|h l IH]; cbn [hot_pixel_walk]; jr_auto. Qed.
#[export] Hint Resolve jr_walk : pres.
Lemma jr_hp_ltr y a b i g e : pres keeps (hot_pixel_set_left_to_right y a b i g e). Proof. jr hot_pixel_set_left_to_right. Qed.
Lemma jr_hp_rtl y a b i g e : pres keeps (hot_pixel_set_right_to_left y a b i g e). Proof. jr hot_pixel_set_right_to_left. Qed.
#[export] Hint Resolve jr_hp_ltr jr_hp_rtl : pres.
Lemma jr_insert_path i p e : pres keeps (insert_hot_pixels_in_path i p e). Proof. jr insert_hot_pixels_in_path. Qed.
#[export] Hint Resolve jr_insert_path : pres.
Lemma jr_to_ring i p : pres keeps (add_point_to_ring i p). Proof. jr add_point_to_ring. Qed.
#[export] Hint Resolve jr_to_ring : pres.
Lemma jr_add_point i p : pres keeps (add_point i p). Proof. jr add_point. Qed.
#[export] Hint Resolve jr_add_point : pres.
Lemma jr_local_minimum p i j : pres keeps (add_local_minimum_point p i j).
Proof.
  unfold add_local_minimum_point. apply pres_bind; [exact _|auto with pres|]. intros ej. apply pres_bind; [exact _|jr_auto|]. intros c.
  destruct c; (apply pres_bind; [exact _|auto with pres|]; intros u; apply pres_bind; [exact _|jr_prim|]; intros v; apply jr_get_ring; jr_auto).
Qed.
Lemma jr_swap_sides i j : pres keeps (swap_sides i j). Proof. jr swap_sides. Qed.
#[export] Hint Resolve jr_local_minimum jr_swap_sides : pres.
Lemma jr_pixels_ltr i stop n : forall k, pres keeps (add_hot_pixels_ltr n stop i k).
Proof. induction n as [|n IH]; intros k; cbn [add_hot_pixels_ltr]; jr_auto. Qed.
Lemma jr_pixels_rtl i stop k : pres keeps (add_hot_pixels_rtl stop i k).
Proof. induction k as [|n IH]; cbn [add_hot_pixels_rtl]; jr_auto. Qed.
Lemma jr_finish i k : pres keeps (finish_horizontal i k). Proof. jr finish_horizontal. Qed.
#[export] Hint Resolve jr_pixels_ltr jr_pixels_rtl jr_finish : pres.
Lemma jr_in_lt a b : pres keeps (in_lt a b). Proof. jr in_lt. Qed.
#[export] Hint Resolve jr_in_lt : pres.

(** ** Programs that end and keep the rings in order *)
Definition good {A} (m : nat -> prog A) : Prop := mono m /\ tot sound m (fun _ => sound).
Lemma good_fin {A} (m : prog A) : fin m -> pres keeps m -> good (fun _ => m).
Proof. intros F P. split; [apply mono_const|]. apply tot_fin; [exact F|]. intros s a s' S0 E. exact (P s a s' E S0). Qed.
Lemma good_bind {A B} (m : nat -> prog A) (k : nat -> A -> prog B) : good m -> (forall a, good (fun f => k f a)) -> good (fun f => bind (m f) (k f)).
Proof.
  intros (M1 & T1) H. split; [apply mono_bind; [exact M1|intros a; apply H]|]. eapply tot_bind; [exact M1|intros a; apply H|exact T1|]. intros a. apply H.
Qed.
Lemma good_pres {A} (m : nat -> prog A) : good m -> forall f, pres keeps (m f).
Proof. intros (_ & T) f s a s' E S0. exact (proj2 (T s S0) f a s' E). Qed.
Lemma good_append_max p i j : good (fun f => add_local_maximum_point f p i j).
Proof.
  split; [mof fuel_add_local_maximum_point|]. unfold add_local_maximum_point.
  assert (G : forall A (m : prog A), fin m -> pres keeps m -> tot sound (fun _ => m) (fun _ => sound)) by (intros A m F P; apply good_fin; assumption).
  eapply tot_bind; [mo|intros; mo|apply G; [fi|auto with pres]|]. intros u. eapply tot_bind; [mo|intros; mo|apply G; [fi|auto with pres]|]. intros v.
  eapply tot_bind; [mo|intros; mo|apply tot_bd|]. intros bi. eapply tot_bind; [mo|intros; mo|apply tot_bd|]. intros bj. cbv beta.
  destruct (opt_is (b_ring bi) (b_ring bj)) eqn:O.
  - eapply tot_pre; [apply G; [fi|jr_auto]|]. tauto.
  - eapply tot_bind; [mo|intros; mo|apply tot_deref|]. intros ri. eapply tot_bind; [mo|intros; mo|apply tot_deref|]. intros rj. destruct (Pos.ltb ri rj).
    + eapply tot_pre; [apply tot_append|]. intros s (E1 & E2 & -> & -> & S0). split; [exact S0|exact O].
    + eapply tot_pre; [apply tot_append|]. intros s (E1 & E2 & -> & -> & S0). split; [exact S0|]. rewrite E1, E2 in *. cbn in *. rewrite Pos.eqb_sym. exact O.
Qed.
Create HintDb good.
#[export] Hint Resolve good_append_max : good.
Ltac gd_step :=
  match goal with
  | |- good (fun _ => add_hot_pixels_ltr _ _ _ _) => apply good_fin; [apply fin_ltr_pixels; intros; fi|solve [auto with pres]]
  | |- good (fun _ => add_hot_pixels_rtl _ _ _) => apply good_fin; [apply fin_rtl_pixels; intros; fi|solve [auto with pres]]
  | |- good (fun _ => ?m) => apply good_fin; [solve [fi]|solve [jr_auto]]
  | |- good (fun f => bind _ _) => apply good_bind; [|intros ?]
  | |- _ => solve [auto 2 with good nocore]
  | |- good (fun f => match ?x with _ => _ end) => destruct x
  end.
Ltac gd := cbv beta zeta; repeat (gd_step; cbv beta zeta).
Section Sweep.
Context (op : operation_kind) (a b : fill_kind).
Lemma good_intersect p i j : good (fun f => intersect_bounds f op a b p i j).
Proof. unfold intersect_bounds. gd. Qed.
Hint Resolve good_intersect : good.
Lemma good_list c : forall l, good (fun f => process_intersect_list f op a b l c).
Proof. induction c as [|c IH]; intros [|n l]; cbn [process_intersect_list]; gd. Qed.
Lemma good_ltr_step i y mx mi j x : good (fun f => ltr_step f op a b i y mx mi j x).
Proof. unfold ltr_step. gd. Qed.
Lemma good_rtl_step i y mx mi j x : good (fun f => rtl_step f op a b i y mx mi j x).
Proof. unfold rtl_step. gd. Qed.
Hint Resolve good_ltr_step good_rtl_step : good.
Lemma good_ltr_loop i y mx mi js : forall x, good (fun f => ltr_loop f op a b i y mx mi js x).
Proof. induction js as [|j js IH]; intros x; cbn [ltr_loop]; gd. Qed.
Lemma good_rtl_loop i y mx mi js : forall x, good (fun f => rtl_loop f op a b i y mx mi js x).
Proof. induction js as [|j js IH]; intros x; cbn [rtl_loop]; gd. Qed.
Hint Resolve good_ltr_loop good_rtl_loop : good.
Lemma good_ph_ltr y k : good (fun f => process_horizontal_left_to_right f op a b y k).
Proof. unfold process_horizontal_left_to_right. gd. Qed.
Lemma good_ph_rtl y k : good (fun f => process_horizontal_right_to_left f op a b y k).
Proof. unfold process_horizontal_right_to_left. gd. Qed.
Hint Resolve good_ph_ltr good_ph_rtl : good.
Lemma good_horizontal y k : good (fun f => process_horizontal f op a b y k).
Proof. unfold process_horizontal. gd. Qed.
Lemma good_walk k m : good (fun f => maxima_walk f op a b k m).
Proof.
  unfold maxima_walk. apply good_bind; [gd|]. intros n. generalize (range (S k) n) as js. generalize false. intros b0 js. revert k b0.
  induction js as [|j js IH]; intros k' sk; gd.
Qed.
Hint Resolve good_walk : good.
Lemma good_maxima k m : good (fun f => do_maxima f op a b k m). Proof. unfold do_maxima. gd. Qed.
Hint Resolve good_maxima : good.
Lemma good_top_step y k i : good (fun f => top_step f op a b y k i). Proof. unfold top_step. gd. Qed.
End Sweep.
