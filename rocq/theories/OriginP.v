(** * Where the output vertices come from: invariants of both sweeps *)
From Coq Require Import ZArith List Bool Lia FMapPositive Permutation Sorting.Sorted.
From Coq Require Import Floats.SpecFloat.
From RecordUpdate Require Import RecordSet.
From Verif Require Import Py Monad Utils Geometry LinearRingM BoundM LocalMinimumM
     StateM PointNodeM RingM SweepM HoareP SweepFrameP SpecSweep SpecActive SpecOrigin ListP QuickP FuelP HotPixelP
     WindingP CalmP WindingInvP PointersP VatP IntersectP MaximaP.
Import ListNotations RecordSetNotations.
Open Scope Z_scope.
Local Open Scope m_scope.

Section Origin.
Context (eds : bid -> list edge) (Rec : bid -> Prop).
Definition isrec (e : edge) : Prop := exists i, Rec i /\ In e (eds i).
Notation P := (vertex_origin isrec).
Hypothesis chain : forall i k e f, Rec i -> nth_error (eds i) k = Some e -> nth_error (eds i) (S k) = Some f ->
  ebot f = etop e /\ (is_horizontal e = true -> is_horizontal f = false).
Hypothesis hor_iff : forall i e, Rec i -> In e (eds i) -> (is_horizontal e = true <-> py (etop e) = py (ebot e)).

(** ** Positions of bounds *)
Definition x_at (y : Z) (x : num) : Prop := exists e, isrec e /\
  ((exists f, x = NF f /\ position_at e y f) \/ (x = NI (px (ebot e)) /\ py (ebot e) = y) \/
   (x = NI (px (etop e)) /\ py (etop e) = y)).
Lemma level_point y x r h : isrec h -> is_horizontal h = true -> py (etop h) = y -> x_at y x ->
  round_half_up x = Ok r -> P (Pt r y).
Proof.
  intros Rh Hh Yh (e & Re & H) Er. destruct Rh as (i & Ri & Ih). pose proof (hor_iff i h Ri Ih) as Hi.
  apply Hi in Hh. clear Hi.
  assert (NIc : forall z, round_half_up (NI z) = Ok r -> z = r).
  { intros z. cbn. unfold check_digits. destruct (_ <? _); [congruence|discriminate]. }
  destruct H as [(f & -> & H)|[(-> & H)|(-> & H)]].
  - eapply (vo_level _ _ h e f); cbn [px py]; [exists i; auto|exact Hh|congruence|exact Re|exact H|exact Er].
  - apply NIc in Er. eapply (vo_end _ _ e); [exact Re|]. left. destruct (ebot e); cbn in *; congruence.
  - apply NIc in Er. eapply (vo_end _ _ e); [exact Re|]. right. destruct (etop e); cbn in *; congruence.
Qed.

(** ** State predicates *)
Definition stat (s : st) : Prop := forall i, b_edges (bget (s_bounds s) i) = eds i.
Definition All (Q : bid -> bound -> Prop) (s : st) : Prop :=
  forall i, In (Some i) (s_abl s) -> Q i (bget (s_bounds s) i).
Definition Pre (k : nat) (Q : bid -> bound -> Prop) (s : st) : Prop :=
  forall p i, (p < k)%nat -> nth_error (s_abl s) p = Some (Some i) -> Q i (bget (s_bounds s) i).
Definition inv (J : st -> Prop) (s : st) : Prop := vat P s /\ stat s /\ J s.
(** predicates that see only what the output code never changes *)
Definition qst (Q : bid -> bound -> Prop) : Prop := forall i b b', qcore b' = qcore b -> Q i b -> Q i b'.
Definition jst (J : st -> Prop) : Prop := forall s s', quiet s s' -> J s -> J s'.
Lemma quiet_inv s s' : quiet s s' -> (forall i, qcore (bget (s_bounds s') i) = qcore (bget (s_bounds s) i)) /\ s_abl s' = s_abl s.
Proof. unfold quiet. tauto. Qed.
Lemma stat_quiet : jst stat.
Proof. intros s s' H S i. apply quiet_inv in H. destruct H as (H & _). specialize (H i). unfold qcore in H. rewrite <- S. congruence. Qed.
Lemma All_quiet (Q : bid -> bound -> Prop) : qst Q -> jst (All Q).
Proof. intros HQ s s' H A i I. apply quiet_inv in H. destruct H as (H & Ea). rewrite Ea in I. eapply HQ; [apply H|]. auto. Qed.
Lemma Pre_quiet k (Q : bid -> bound -> Prop) : qst Q -> jst (Pre k Q).
Proof. intros HQ s s' H A p i L I. apply quiet_inv in H. destruct H as (H & Ea). rewrite Ea in I. eapply HQ; [apply H|]. eauto. Qed.
Lemma and_quiet (J J' : st -> Prop) : jst J -> jst J' -> jst (fun s => J s /\ J' s).
Proof. intros H1 H2 s s' R (A & B). eauto. Qed.
Lemma tri_output {A} (m : prog A) (J : st -> Prop) : vk P m -> pres quiet m -> jst J -> tri (inv J) m (fun _ => inv J).
Proof.
  intros V Q S s a s' (H1 & H2 & H3) E. split; [eapply V; eauto|]. pose proof (Q _ _ _ E) as R.
  split; [exact (stat_quiet _ _ R H2)|]. exact (S _ _ R H3).
Qed.
(** steps that change no node, ring or hot pixel *)
Definition frame (s s' : st) : Prop := s_nodes s' = s_nodes s /\ s_rings s' = s_rings s /\ s_all s' = s_all s /\
  s_conn s' = s_conn s /\ s_hp s' = s_hp s.
Lemma vat_frame s s' : frame s s' -> vat P s -> vat P s'.
Proof.
  intros (E1 & E2 & E3 & E4 & E5) ([P1 P2 P3 P4 P5] & H). assert (W : forall i, place s' i = place s i) by (intros; unfold place; rewrite E1; reflexivity).
  assert (G : forall i, good P s i -> good P s' i) by (intros i; unfold good; rewrite W; auto).
  split; [|rewrite E5; exact H]. constructor; rewrite ?E1, ?E2, ?E3, ?E4; try reflexivity.
  - intros i. destruct (P1 i) as (A & B). split; intros j Hj; apply G; auto.
  - intros r j Hj. apply G. eapply P2, Hj.
  - eapply Forall_impl; [|exact P3]. exact G.
  - intros r. eapply Forall_impl; [|apply P4]. intros q (A & B). split; apply G; assumption.
Qed.
Lemma frame_refl s : frame s s. Proof. repeat split. Qed.
Lemma frame_trans a b c : frame a b -> frame b c -> frame a c.
Proof. unfold frame. intuition congruence. Qed.

(** [moved i b s s']: only the bound [i] changes, to [b] *)
Definition moved (i : bid) (b : bound) (s s' : st) : Prop :=
  frame s s' /\ s_abl s' = s_abl s /\ forall j, bget (s_bounds s') j = if Pos.eqb i j then b else bget (s_bounds s) j.
Lemma moved_upd i f s u s' : upd_bound i f s = Ok (u, s') -> moved i (f (bget (s_bounds s) i)) s s'.
Proof. intros E. apply upd_bound_Ok in E. subst s'. split; [repeat split|]. split; [reflexivity|]. intros j. cbn. apply bget_hset. Qed.
Lemma moved_self i b s s' : moved i b s s' -> bget (s_bounds s') i = b.
Proof. intros (_ & _ & H). rewrite H, Pos.eqb_refl. reflexivity. Qed.
Lemma moved_trans i b1 b2 s s1 s2 : moved i b1 s s1 -> moved i b2 s1 s2 -> moved i b2 s s2.
Proof.
  intros (F & A & H) (F' & A' & H'). split; [eapply frame_trans; eassumption|]. split; [congruence|].
  intros j. rewrite H'. destruct (Pos.eqb i j) eqn:E; [reflexivity|]. rewrite H, E. reflexivity.
Qed.
Lemma moved_frame i b s s1 s2 : moved i b s s1 -> frame s1 s2 -> s_abl s2 = s_abl s1 -> s_bounds s2 = s_bounds s1 -> moved i b s s2.
Proof. intros (F & A & H) F' A' B'. split; [eapply frame_trans; eassumption|]. split; [congruence|]. intros j. rewrite B'. apply H. Qed.
Lemma moved_stat i b s s' : moved i b s s' -> b_edges b = eds i -> stat s -> stat s'.
Proof. intros (_ & _ & H) E S j. rewrite H. destruct (Pos.eqb_spec i j) as [->|_]; auto. Qed.
Lemma moved_All i b s s' (Q : bid -> bound -> Prop) : moved i b s s' -> Q i b -> All Q s -> All Q s'.
Proof. intros (_ & A & H) HQ S j I. rewrite A in I. rewrite H. destruct (Pos.eqb_spec i j) as [->|_]; auto. Qed.
Lemma moved_Pre i b s s' k (Q : bid -> bound -> Prop) : moved i b s s' -> Q i b -> Pre k Q s -> Pre k Q s'.
Proof. intros (_ & A & H) HQ S p j L I. rewrite A in I. rewrite H. destruct (Pos.eqb_spec i j) as [->|_]; eauto. Qed.

(** ** The list of active bounds *)
Lemma nth_upd {A} (l : list A) k x p y : nth_error (upd l k x) p = Some y -> (p = k /\ y = x) \/ (p <> k /\ nth_error l p = Some y).
Proof.
  intros H. destruct (Nat.eq_dec p k) as [->|N].
  - left. split; [reflexivity|]. assert (L : (k < length l)%nat).
    { rewrite <- (QuickP.upd_length l k x). apply nth_error_Some. rewrite H. discriminate. }
    rewrite nth_error_upd_eq in H by exact L. congruence.
  - right. split; [exact N|]. rewrite nth_error_upd_ne in H by congruence. exact H.
Qed.
Lemma In_upd {A} (l : list A) k x y : In y (upd l k x) -> y = x \/ In y l.
Proof. intros H. apply In_nth_error in H. destruct H as (p & H). apply nth_upd in H. destruct H as [(_ & ->)|(_ & H)]; [auto|]. right. eapply nth_error_In, H. Qed.
(** the list of active bounds is replaced *)
Definition relist (l : list (option bid)) (s s' : st) : Prop := frame s s' /\ s_bounds s' = s_bounds s /\ s_abl s' = l.
Lemma set_run k o s u s' : abl_set k o s = Ok (u, s') -> relist (upd (s_abl s) k o) s s' /\ (k < length (s_abl s))%nat.
Proof.
  unfold abl_set. intros E. inv_bind E l s1 E1. apply gets_Ok in E1. destruct E1 as (-> & ->).
  destruct (Nat.ltb_spec k (length (s_abl s))) as [L|L]; [|discriminate]. apply modify_Ok in E. subst s'. split; [|exact L].
  split; [repeat split|]. split; reflexivity.
Qed.
Lemma get_run k s o s' : abl_get k s = Ok (o, s') -> nth_error (s_abl s) k = Some o /\ s' = s.
Proof.
  unfold abl_get. intros E. inv_bind E l s1 E1. apply gets_Ok in E1. destruct E1 as (-> & ->). apply lift_Ok in E.
  destruct E as (E & ->). unfold nth_res in E. destruct (nth_error _ k); [|discriminate]. injection E as ->. auto.
Qed.
Lemma bound_run k s i s' : abl_bound k s = Ok (i, s') -> nth_error (s_abl s) k = Some (Some i) /\ s' = s.
Proof.
  unfold abl_bound. intros E. inv_bind E o s1 E1. apply get_run in E1. destruct E1 as (E1 & ->). apply deref_Ok in E.
  destruct E as (-> & ->). auto.
Qed.
Lemma swap_run a b s u s' : abl_swap a b s = Ok (u, s') -> exists x y, nth_error (s_abl s) a = Some x /\ nth_error (s_abl s) b = Some y /\
  relist (upd (upd (s_abl s) a y) b x) s s'.
Proof.
  unfold abl_swap. intros E. inv_bind E x s1 E1. apply get_run in E1. destruct E1 as (E1 & ->).
  inv_bind E y s1 E2. apply get_run in E2. destruct E2 as (E2 & ->). inv_bind E v s1 E3. apply set_run in E3.
  destruct E3 as ((F & B & A) & _). apply set_run in E. destruct E as ((F' & B' & A') & _).
  exists x, y. split; [exact E1|]. split; [exact E2|]. split; [eapply frame_trans; eassumption|]. split; congruence.
Qed.
Lemma relist_All l s s' (Q : bid -> bound -> Prop) : relist l s s' -> (forall i, In (Some i) l -> Q i (bget (s_bounds s) i)) -> All Q s'.
Proof. intros (_ & B & A) H i I. rewrite A in I. rewrite B. auto. Qed.
Lemma relist_Pre l s s' k (Q : bid -> bound -> Prop) : relist l s s' -> (forall p i, (p < k)%nat -> nth_error l p = Some (Some i) -> Q i (bget (s_bounds s) i)) -> Pre k Q s'.
Proof. intros (_ & B & A) H p i L I. rewrite A in I. rewrite B. eauto. Qed.
Lemma relist_stat l s s' : relist l s s' -> stat s -> stat s'.
Proof. intros (_ & B & _) S i. rewrite B. apply S. Qed.
Lemma swap_All a b s u s' (Q : bid -> bound -> Prop) : abl_swap a b s = Ok (u, s') -> All Q s -> All Q s'.
Proof.
  intros E A. apply swap_run in E. destruct E as (x & y & Ex & Ey & R). eapply relist_All; [exact R|].
  intros i I. apply In_upd in I. destruct I as [<-|I]; [apply A; eapply nth_error_In; exact Ex|].
  apply In_upd in I. destruct I as [<-|I]; [apply A; eapply nth_error_In; exact Ey|]. apply A, I.
Qed.
Lemma swap_Pre a b s u s' k (Q : bid -> bound -> Prop) : abl_swap a b s = Ok (u, s') -> (k <= a)%nat -> (k <= b)%nat -> Pre k Q s -> Pre k Q s'.
Proof.
  intros E La Lb A. apply swap_run in E. destruct E as (x & y & Ex & Ey & R). eapply relist_Pre; [exact R|].
  intros p i L I. apply nth_upd in I. destruct I as [(-> & _)|(_ & I)]; [lia|].
  apply nth_upd in I. destruct I as [(-> & _)|(_ & I)]; [lia|]. eapply A; eauto.
Qed.
Lemma set_All k o s u s' (Q : bid -> bound -> Prop) : abl_set k o s = Ok (u, s') -> (forall i, o = Some i -> Q i (bget (s_bounds s) i)) -> All Q s -> All Q s'.
Proof.
  intros E H A. apply set_run in E. destruct E as (R & _). eapply relist_All; [exact R|]. intros i I.
  apply In_upd in I. destruct I as [I|I]; auto.
Qed.
Lemma set_None_Pre j s u s' k (Q : bid -> bound -> Prop) : abl_set j None s = Ok (u, s') -> Pre k Q s -> Pre k Q s'.
Proof.
  intros E A. apply set_run in E. destruct E as (R & _). eapply relist_Pre; [exact R|]. intros p i L I.
  apply nth_upd in I. destruct I as [(_ & I)|(_ & I)]; [discriminate|eauto].
Qed.
Lemma set_None_here k s u s' (Q : bid -> bound -> Prop) : abl_set k None s = Ok (u, s') -> Pre k Q s -> Pre (S k) Q s'.
Proof.
  intros E A. apply set_run in E. destruct E as (R & _). eapply relist_Pre; [exact R|]. intros p i L I.
  apply nth_upd in I. destruct I as [(_ & I)|(N & I)]; [discriminate|]. eapply A; [|exact I]. lia.
Qed.
Lemma tri_set_None k (J J' : st -> Prop) : (forall s s', stat s -> J s -> (exists u, abl_set k None s = Ok (u, s')) -> J' s') ->
  tri (inv J) (abl_set k None) (fun _ => inv J').
Proof.
  intros H s a s' (V & S & HJ) E. pose proof (set_run _ _ _ _ _ E) as (R & _). split; [eapply vat_frame; [apply R|exact V]|].
  split; [eapply relist_stat; eassumption|]. eapply H; eauto.
Qed.
Lemma tri_swap a b (J J' : st -> Prop) : (forall s s', stat s -> J s -> (exists u, abl_swap a b s = Ok (u, s')) -> J' s') ->
  tri (inv J) (abl_swap a b) (fun _ => inv J').
Proof.
  intros H s x s' (V & S & HJ) E. pose proof (swap_run _ _ _ _ _ E) as (? & ? & _ & _ & R). split; [eapply vat_frame; [apply R|exact V]|].
  split; [eapply relist_stat; eassumption|]. eapply H; eauto.
Qed.
Lemma tri_compact (Q : bid -> bound -> Prop) : tri (inv (All Q)) abl_compact (fun _ => inv (All Q)).
Proof.
  intros s x s' (V & S & HJ) E. apply modify_Ok in E. subst s'. split; [eapply vat_frame; [|exact V]; repeat split|].
  split; [exact S|]. intros i I. cbn in *. apply filter_In in I. apply HJ, I.
Qed.
Lemma tri_frame {A} (m : prog A) (J : st -> Prop) : (forall s a s', m s = Ok (a, s') -> frame s s' /\ s_abl s' = s_abl s /\ s_bounds s' = s_bounds s) ->
  (forall s s', s_abl s' = s_abl s -> s_bounds s' = s_bounds s -> J s -> J s') -> tri (inv J) m (fun _ => inv J).
Proof.
  intros H HJ s a s' (V & S & J1) E. destruct (H _ _ _ E) as (F & A1 & B1). split; [eapply vat_frame; eassumption|].
  split; [intros i; rewrite B1; apply S|]. eapply HJ; eassumption.
Qed.

(** ** Small programs *)
Definition jab (J : st -> Prop) : Prop := forall s s', s_abl s' = s_abl s -> s_bounds s' = s_bounds s -> J s -> J s'.
Lemma All_jab (Q : bid -> bound -> Prop) : jab (All Q).
Proof. intros s s' A B H i I. rewrite A in I. rewrite B. auto. Qed.
Lemma Pre_jab k (Q : bid -> bound -> Prop) : jab (Pre k Q).
Proof. intros s s' A B H p i L I. rewrite A in I. rewrite B. eauto. Qed.
Lemma and_jab (J J' : st -> Prop) : jab J -> jab J' -> jab (fun s => J s /\ J' s).
Proof. intros H1 H2 s s' A B (C & D). eauto. Qed.
Lemma inv_weak (J J' : st -> Prop) s : (J s -> J' s) -> inv J s -> inv J' s.
Proof. unfold inv. tauto. Qed.
Lemma tri_insort y (J : st -> Prop) : jab J -> tri (inv J) (insort_scan y) (fun _ => inv J).
Proof. intros H. apply tri_frame; [|exact H]. intros s a s' E. apply modify_Ok in E. subst s'. repeat split. Qed.
Lemma tri_push q (J : st -> Prop) : jab J -> P q -> tri (inv J) (push_hp q) (fun _ => inv J).
Proof.
  intros H Hq s a s' (V & S & J1) E. apply modify_Ok in E. subst s'. split; [|split; [exact S|eapply H; [..|exact J1]; reflexivity]].
  destruct V as (V1 & V2). split.
  - destruct V1 as [P1 P2 P3 P4 P5]. constructor; auto.
  - cbn. apply Forall_app. split; [exact V2|]. constructor; [exact Hq|constructor].
Qed.
Lemma edge_run i s e s' : stat s -> current_edge i s = Ok (e, s') ->
  nth_error (eds i) (b_cur (bget (s_bounds s) i)) = Some e /\ s' = s.
Proof.
  intros S E. unfold current_edge in E. inv_bind E b s1 E1. apply bd_Ok in E1. destruct E1 as (-> & ->).
  apply lift_Ok in E. destruct E as (E & ->). unfold cur_edge_of, nth_res in E. rewrite S in E.
  destruct (nth_error _ _); [|discriminate]. injection E as ->. auto.
Qed.
Lemma tri_edge i (J : st -> Prop) : tri (inv J) (current_edge i) (fun e s => inv J s /\ nth_error (eds i) (b_cur (bget (s_bounds s) i)) = Some e).
Proof. intros s e s' H E. apply edge_run in E; [|apply H]. destruct E as (E & ->). auto. Qed.
Lemma tri_bd i (J : st -> Prop) : tri (inv J) (bd i) (fun b s => inv J s /\ b = bget (s_bounds s) i).
Proof. intros s e s' H E. apply bd_Ok in E. destruct E as (-> & ->). auto. Qed.
Lemma tri_bound k (J : st -> Prop) : tri (inv J) (abl_bound k) (fun i s => inv J s /\ nth_error (s_abl s) k = Some (Some i)).
Proof. intros s e s' H E. apply bound_run in E. destruct E as (E & ->). auto. Qed.
Lemma in_eds i k e : Rec i -> nth_error (eds i) k = Some e -> isrec e.
Proof. intros R E. exists i. split; [exact R|]. eapply nth_error_In, E. Qed.
Lemma P_top e : isrec e -> P (etop e). Proof. intros R. eapply vo_end; [exact R|auto]. Qed.
Lemma P_bot e : isrec e -> P (ebot e). Proof. intros R. eapply vo_end; [exact R|auto]. Qed.
Lemma ids_run s ids s' : abl_ids s = Ok (ids, s') -> s_abl s = map Some ids /\ s' = s.
Proof.
  unfold abl_ids. intros E. inv_bind E l s1 E1. apply gets_Ok in E1. destruct E1 as (-> & ->). apply lift_Ok in E.
  destruct E as (E & ->). split; [|reflexivity]. revert ids E. induction (s_abl s) as [|[i|] l IH]; intros ids E; try discriminate.
  - injection E as <-. reflexivity.
  - match type of E with context [rbind ?x _] => destruct x as [r| |] eqn:Er; try discriminate end. cbn in E. injection E as <-.
    cbn. f_equal. apply IH. reflexivity.
Qed.

(** bubble sort in any state monad *)
Section Bubble.
Context {St A : Type} (cmp : A -> A -> M St bool) (sw : A -> A -> M St unit) (I : St -> Prop) (p : A -> Prop).
Hypothesis Hc : forall a b s r s', p a -> p b -> I s -> cmp a b s = Ok (r, s') -> I s'.
Hypothesis Hs : forall a b s r s', p a -> p b -> I s -> sw a b s = Ok (r, s') -> I s'.
Lemma bubble_pass_keeps : forall l x s r s', p x -> Forall p l -> I s -> bubble_pass cmp sw x l s = Ok (r, s') -> I s' /\ Forall p (fst r).
Proof.
  induction l as [|y l IH]; intros x s r s' Hx Hl HI E; cbn [bubble_pass] in E.
  - injection E as <- <-. split; [exact HI|]. constructor; [exact Hx|constructor].
  - inversion Hl as [|? ? Hy Hl']; subst. unfold bind in E at 1. destruct (cmp x y s) as [[b s1]| |] eqn:E1; try discriminate.
    pose proof (Hc _ _ _ _ _ Hx Hy HI E1) as I1. destruct b.
    + unfold bind in E. destruct (bubble_pass cmp sw y l s1) as [[[l1 w1] s2]| |] eqn:E2; try discriminate.
      apply IH in E2; auto. cbn in E. injection E as <- <-. destruct E2. split; [assumption|]. constructor; assumption.
    + unfold bind in E. destruct (sw x y s1) as [[u s2]| |] eqn:E2; try discriminate.
      pose proof (Hs _ _ _ _ _ Hx Hy I1 E2) as I2.
      destruct (bubble_pass cmp sw x l s2) as [[[l1 w1] s3]| |] eqn:E3; try discriminate.
      apply IH in E3; auto. cbn in E. injection E as <- <-. destruct E3. split; [assumption|]. constructor; assumption.
Qed.
Lemma bubble_keeps f : forall l s r s', Forall p l -> I s -> bubble_sort cmp sw f l s = Ok (r, s') -> I s' /\ Forall p r.
Proof.
  unfold bubble_sort. induction f as [|f IH]; intros l s r s' Hl HI E; [discriminate|]. cbn [loopM] in E.
  unfold bind in E at 1. destruct (bubble_body cmp sw l s) as [[x s1]| |] eqn:E1; try discriminate.
  unfold bubble_body in E1. destruct l as [|a l].
  - injection E1 as <- <-. injection E as <- <-. auto.
  - inversion Hl; subst. unfold bind in E1. destruct (bubble_pass cmp sw a l s) as [[[l1 w1] s2]| |] eqn:E2; try discriminate.
    apply bubble_pass_keeps in E2; auto. destruct E2 as (I2 & F2). cbn [fst] in F2.
    destruct w1; cbn in E1; injection E1 as <- <-; [exact (IH _ _ _ _ F2 I2 E)|injection E as <- <-; auto].
Qed.
End Bubble.

Lemma snd_combine {A B} (a : list A) : forall b : list B, length a = length b -> map snd (combine a b) = b.
Proof. induction a as [|x a IH]; intros [|y b] L; try discriminate; [reflexivity|]. cbn in *. f_equal. apply IH. lia. Qed.
(** ** Positions at a level *)
Definition qand (Q Q' : bid -> bound -> Prop) (i : bid) (b : bound) : Prop := Q i b /\ Q' i b.
Definition pos (y : Z) (_ : bid) (b : bound) : Prop := x_at y (b_cx b).
Definition rec (i : bid) (_ : bound) : Prop := Rec i.
Definition cxfree (Q : bid -> bound -> Prop) : Prop := forall i b k x, Q i b -> Q i (b <| b_pos := k |> <| b_cx := x |>).
Lemma x_at_current y e x : isrec e -> get_current_x e y = Ok x -> x_at y (NF x).
Proof. intros R E. exists e. split; [exact R|]. left. exists x. split; [reflexivity|]. left. exact E. Qed.
Lemma tri_update_x y (Q : bid -> bound -> Prop) : cxfree Q -> (forall i b, Q i b -> Rec i) ->
  tri (inv (All Q)) (update_current_x y) (fun _ => inv (All (qand Q (pos y)))).
Proof.
  intros F HR s a s' Hs E. unfold update_current_x in E. inv_bind E abl s1 E1. apply gets_Ok in E1. destruct E1 as (-> & ->).
  set (abl := s_abl s) in *.
  assert (K : forall l s s', inv (All Q) s -> s_abl s = abl -> (forall i, In (Some i) abl -> In (Some i) (map snd l) \/ pos y i (bget (s_bounds s) i)) ->
    (forall o, In o (map snd l) -> In o abl) -> forM l (fun '(k, o) =>
     (i <- deref o ;;
      upd_bound i (fun b => b <| b_pos := k |>) ;;
      e <- current_edge i ;;
      x <- lift (get_current_x e y) ;;
      upd_bound i (fun b => b <| b_cx := NF x |>))) s = Ok (a, s') -> inv (All (qand Q (pos y))) s').
  { clear - F HR hor_iff chain. clearbody abl. intros l. induction l as [|[k o] l IH]; intros s0 s' (V & S & A) Ea D Sub E; cbn [forM] in E.
    - apply ret_Ok in E. destruct E as (_ & ->). split; [exact V|]. split; [exact S|]. intros i I. split; [apply A, I|].
      rewrite Ea in I. destruct (D i I) as [[]|D']. exact D'.
    - inv_bind E u s1 E1. inv_bind E1 i s2 E2. apply deref_Ok in E2. destruct E2 as (-> & ->).
      inv_bind E1 u1 s2 E2. apply moved_upd in E2. inv_bind E1 e s3 E3.
      assert (S2 : stat s2) by (eapply moved_stat; [exact E2|apply S|exact S]).
      apply edge_run in E3; [|exact S2]. destruct E3 as (E3 & ->). rewrite (moved_self _ _ _ _ E2) in E3.
      inv_bind E1 x s3 E4. apply lift_Ok in E4. destruct E4 as (E4 & ->). apply moved_upd in E1.
      rewrite (moved_self _ _ _ _ E2) in E1. pose proof (moved_trans _ _ _ _ _ _ E2 E1) as M. cbn in E3.
      assert (Ii : In (Some i) (s_abl s0)) by (rewrite Ea; apply Sub; left; reflexivity).
      pose proof (A i Ii) as Qi.
      eapply (IH s1 s'); [| | | |exact E].
      + split; [eapply vat_frame; [apply M|exact V]|]. split; [eapply moved_stat; [exact M|apply S|exact S]|].
        eapply moved_All; [exact M| |exact A]. apply F, Qi.
      + destruct M as (_ & M & _). congruence.
      + intros j Ij. destruct M as (_ & _ & M). rewrite M. destruct (Pos.eqb_spec i j) as [<-|N].
        * right. cbn. eapply x_at_current; [|exact E4]. eapply in_eds; [eapply HR, Qi|exact E3].
        * destruct (D j Ij) as [D'|D']; [|auto]. cbn in D'. destruct D' as [D'|D']; [congruence|auto].
      + intros o I. apply Sub. right. exact I. }
  eapply K; [exact Hs|reflexivity| | |exact E].
  - intros i I. left. rewrite snd_combine; [exact I|apply seq_length].
  - intros o I. rewrite snd_combine in I; [exact I|apply seq_length].
Qed.

(** ** Moving to the next edge *)
Lemma clip_lt b v : (v < length (b_edges b))%nat -> clip_index b v = v.
Proof. intros L. unfold clip_index. apply Nat.ltb_lt in L. rewrite L. reflexivity. Qed.
Lemma clip_ge b v : (length (b_edges b) <= v)%nat -> clip_index b v = length (b_edges b).
Proof. intros L. unfold clip_index. apply Nat.ltb_ge in L. rewrite L. reflexivity. Qed.
Lemma next_run i s u s' : stat s -> to_next_edge i s = Ok (u, s') ->
  let b := bget (s_bounds s) i in
  exists b', moved i b' s s' /\ b_edges b' = eds i /\
    ((exists f, nth_error (eds i) (S (b_cur b)) = Some f /\ b_cur b' = S (b_cur b) /\
       b_next b' = clip_index b (S (b_next b)) /\ b_cx b' = NI (px (ebot f))) \/
     ((length (eds i) <= S (b_cur b))%nat /\ b_cx b' = b_cx b)).
Proof.
  intros S E. cbv zeta. unfold to_next_edge in E. inv_bind E u1 s1 E1. apply moved_upd in E1. inv_bind E b s2 E2.
  apply bd_Ok in E2. destruct E2 as (-> & ->). rewrite (moved_self _ _ _ _ E1) in E. cbn [b_cur b_edges] in E.
  set (b := bget (s_bounds s) i) in *.
  change (b_cur (b <| b_cur := clip_index b (Datatypes.S (b_cur b)) |>)) with (clip_index b (Datatypes.S (b_cur b))) in E.
  change (b_edges (b <| b_cur := clip_index b (Datatypes.S (b_cur b)) |>)) with (b_edges b) in E.
  assert (Eb : b_edges b = eds i) by apply S.
  destruct (Nat.ltb_spec (clip_index b (Datatypes.S (b_cur b))) (length (b_edges b))) as [L|L].
  - assert (Lc : (Datatypes.S (b_cur b) < length (b_edges b))%nat).
    { unfold clip_index in L. destruct (Nat.ltb_spec (Datatypes.S (b_cur b)) (length (b_edges b))); lia. }
    rewrite clip_lt in E1 by exact Lc.
    inv_bind E u2 s2 E2. apply moved_upd in E2. rewrite (moved_self _ _ _ _ E1) in E2.
    pose proof (moved_trans _ _ _ _ _ _ E1 E2) as M2. cbv beta in M2.
    assert (S2 : stat s2) by (eapply moved_stat; [exact M2|exact Eb|exact S]).
    inv_bind E f s3 E3. apply edge_run in E3; [|exact S2]. destruct E3 as (E3 & ->). rewrite (moved_self _ _ _ _ M2) in E3.
    inv_bind E u3 s3 E4. apply moved_upd in E4. rewrite (moved_self _ _ _ _ M2) in E4.
    pose proof (moved_trans _ _ _ _ _ _ M2 E4) as M3. cbv beta in M3.
    assert (M : moved i (b <| b_cur := Datatypes.S (b_cur b) |> <| b_next := clip_index b (Datatypes.S (b_next b)) |> <| b_cx := NI (px (ebot f)) |>) s s').
    { destruct (is_horizontal f); [apply ret_Ok in E; destruct E as (_ & ->); exact M3|].
      apply modify_Ok in E. subst s'. eapply moved_frame; [exact M3|repeat split|reflexivity|reflexivity]. }
    eexists. split; [exact M|]. split; [exact Eb|]. left. exists f. repeat split. exact E3.
  - apply ret_Ok in E. destruct E as (_ & ->). eexists. split; [exact E1|]. split; [exact Eb|]. right. split; [|reflexivity].
    unfold clip_index in L. destruct (Nat.ltb_spec (Datatypes.S (b_cur b)) (length (b_edges b))); rewrite <- Eb; lia.
Qed.

(** ** Collecting the hot pixels *)
Definition hq (y : Z) : bid -> bound -> Prop := qand rec (pos y).
Lemma swap_hot (J : st -> Prop) i j : jab J -> Rec i -> Rec j -> tri (inv J) (hot_pixels_on_swap i j) (fun _ => inv J).
Proof.
  intros HJ Ri Rj s a s' H E. unfold hot_pixels_on_swap in E. inv_bind E e s1 E1. apply edge_run in E1; [|apply H].
  destruct E1 as (E1 & ->). inv_bind E f s1 E2. apply edge_run in E2; [|apply H]. destruct E2 as (E2 & ->).
  inv_bind E z s1 E3. apply lift_Ok in E3. destruct E3 as (E3 & ->). destruct z as [z|]; [|discriminate].
  inv_bind E q s1 E4. apply lift_Ok in E4. destruct E4 as (E4 & ->). eapply tri_push; [exact HJ| |exact H|exact E].
  eapply vo_cross; [eapply in_eds; [exact Ri|exact E1]|eapply in_eds; [exact Rj|exact E2]|exact E3|exact E4].
Qed.
Lemma compare_run i j s r s' : intersection_compare i j s = Ok (r, s') -> s' = s.
Proof.
  unfold intersection_compare. intros E. inv_bind E a s1 E1. apply bd_Ok in E1. destruct E1 as (-> & ->).
  inv_bind E b s1 E1. apply bd_Ok in E1. destruct E1 as (-> & ->). destruct (num_leb _ _); [apply ret_Ok in E; tauto|].
  inv_bind E e s1 E1. apply lift_Ok in E1. destruct E1 as (_ & ->). inv_bind E f s1 E1. apply lift_Ok in E1. destruct E1 as (_ & ->).
  apply ret_Ok in E. tauto.
Qed.
Lemma tri_hot_intersections fuel y : tri (inv (All rec)) (process_hot_pixel_intersections fuel y) (fun _ => inv (All (hq y))).
Proof.
  intros s a s' H E. unfold process_hot_pixel_intersections in E. inv_bind E u s1 E1.
  apply (tri_update_x y rec) in E1; [|intros i b k x Hi; exact Hi|intros i b Hi; exact Hi|exact H].
  inv_bind E ids s2 E2. apply ids_run in E2. destruct E2 as (E2 & ->). inv_bind E sorted s2 E3.
  set (J := fun s => All (hq y) s /\ s_abl s = map Some ids).
  assert (JJ : jab J) by (intros t t' A B (H1 & H2); split; [eapply All_jab; eassumption|congruence]).
  assert (R : forall i, In i ids -> Rec i).
  { intros i I. destruct E1 as (_ & _ & A). apply (A i). rewrite E2. apply in_map. exact I. }
  assert (K : inv J s2 /\ Forall (fun i => In i ids) sorted).
  { eapply (bubble_keeps intersection_compare hot_pixels_on_swap (inv J) (fun i => In i ids)); [| | | |exact E3].
    - intros i j t r t' _ _ Ht Et. apply compare_run in Et. subst t'. exact Ht.
    - intros i j t r t' Hi Hj Ht Et. eapply swap_hot; [exact JJ|apply R, Hi|apply R, Hj|exact Ht|exact Et].
    - apply Forall_forall. auto.
    - destruct E1 as (V & S & A). split; [exact V|]. split; [exact S|]. split; [exact A|exact E2]. }
  destruct K as ((V & S & A & E4) & F). apply modify_Ok in E. subst s'. split; [eapply vat_frame; [|exact V]; repeat split|].
  split; [exact S|]. intros i I. cbn in I. apply A. rewrite E4. apply in_map_iff in I. destruct I as (j & [= <-] & I).
  apply in_map. rewrite Forall_forall in F. auto.
Qed.
Definition min_ok (m : local_minimum) : Prop := Rec (lm_left m) /\ Rec (lm_right m) /\
  (forall e, nth_error (eds (lm_left m)) 0 = Some e -> py (ebot e) = lm_y m /\ is_horizontal e = false) /\
  (forall e, nth_error (eds (lm_right m)) 0 = Some e -> py (ebot e) = lm_y m /\ (is_horizontal e = true -> lm_hor m = true)) /\
  eds (lm_left m) <> [] /\ eds (lm_right m) <> [].
Lemma start_run i s u s' : stat s -> start_bound i s = Ok (u, s') ->
  exists b' e, moved i b' s s' /\ b_edges b' = eds i /\ nth_error (eds i) 0 = Some e /\ b_cx b' = NI (px (ebot e)).
Proof.
  intros S E. unfold start_bound in E. inv_bind E u1 s1 E1. apply moved_upd in E1. inv_bind E e s2 E2.
  assert (S1 : stat s1) by (eapply moved_stat; [exact E1|apply S|exact S]).
  apply edge_run in E2; [|exact S1]. destruct E2 as (E2 & ->). apply moved_upd in E. rewrite (moved_self _ _ _ _ E1) in E, E2.
  pose proof (moved_trans _ _ _ _ _ _ E1 E) as M. eexists _, e. split; [exact M|]. split; [apply S|]. split; [|reflexivity].
  cbn in E2. unfold clip_index in E2. rewrite S in E2. destruct (eds i); [discriminate|]. exact E2.
Qed.
Lemma insert_run l r s k s' : insert_bound_into_abl l r s = Ok (k, s') ->
  exists L, relist L s s' /\ (forall x, In x L -> x = Some l \/ x = Some r \/ In x (s_abl s)).
Proof.
  unfold insert_bound_into_abl. intros E. inv_bind E s0 s1 E1. apply get_Ok in E1. destruct E1 as (-> & ->).
  inv_bind E k0 s1 E1. apply lift_Ok in E1. destruct E1 as (_ & ->). inv_bind E u s1 E1. apply modify_Ok in E1.
  apply ret_Ok in E. destruct E as (_ & ->). subst s1. eexists. split; [split; [repeat split|split; reflexivity]|].
  intros x I. unfold list_insert at 1 in I. apply in_app_or in I.
  assert (W : forall x, In x (list_insert (s_abl s) k0 (Some r)) -> x = Some r \/ In x (s_abl s)).
  { intros z Iz. unfold list_insert in Iz. apply in_app_or in Iz. destruct Iz as [Iz|[<-|Iz]]; auto; right.
    - rewrite <- (firstn_skipn k0 (s_abl s)). apply in_or_app. auto.
    - rewrite <- (firstn_skipn k0 (s_abl s)). apply in_or_app. auto. }
  destruct I as [I|[<-|I]]; auto; right; apply W.
  - rewrite <- (firstn_skipn k0 (list_insert (s_abl s) k0 (Some r))). apply in_or_app. left. exact I.
  - rewrite <- (firstn_skipn k0 (list_insert (s_abl s) k0 (Some r))). apply in_or_app. right. exact I.
Qed.
Lemma insert_inv (Q : bid -> bound -> Prop) l r s k s' : inv (All Q) s -> Q l (bget (s_bounds s) l) -> Q r (bget (s_bounds s) r) ->
  insert_bound_into_abl l r s = Ok (k, s') -> inv (All Q) s'.
Proof.
  intros (V & S & A) Hl Hr E. apply insert_run in E. destruct E as (L & R & W). split; [eapply vat_frame; [apply R|exact V]|].
  split; [eapply relist_stat; eassumption|]. eapply relist_All; [exact R|]. intros i I. destruct (W _ I) as [[= ->]|[[= ->]|I']]; auto.
Qed.
Lemma tri_hot_minima fuel y ms k : Forall min_ok ms ->
  tri (inv (All (hq y))) (insert_minima_hot_pixel fuel y ms k) (fun _ => inv (All (hq y))).
Proof.
  intros F. unfold insert_minima_hot_pixel. apply tri_loop with (Inv := fun _ => inv (All (hq y))). clear k. intros k.
  destruct (nth_error ms k) as [m|] eqn:Em; [|apply tri_ret; auto].
  assert (Hm : min_ok m) by (rewrite Forall_forall in F; apply F; eapply nth_error_In, Em). destruct Hm as (Rl & Rr & Hl & Hr & _).
  destruct (Z.eqb_spec (lm_y m) y) as [Y|Y]; [|apply tri_ret; auto].
  intros s a s' H E. inv_bind E lb s1 E1. apply bd_Ok in E1. destruct E1 as (-> & ->). inv_bind E e0 s1 E1. apply lift_Ok in E1.
  destruct E1 as (E1 & ->). unfold nth_res in E1. destruct H as (V & S & A). rewrite S in E1.
  destruct (nth_error (eds (lm_left m)) 0) as [e1|] eqn:En; [|discriminate]. injection E1 as ->.
  inv_bind E u s1 E1. eapply (tri_push _ (All (hq y))) in E1; [|apply All_jab|apply P_bot; eapply in_eds; [exact Rl|exact En]|split; auto].
  destruct E1 as (V1 & S1 & A1). inv_bind E u2 s2 E2. apply start_run in E2; [|exact S1].
  destruct E2 as (bl & el & M2 & Bl & El & Xl). assert (S2 : stat s2) by (eapply moved_stat; eassumption).
  assert (Ql : hq y (lm_left m) bl).
  { split; [exact Rl|]. red. rewrite Xl. assert (Yl : py (ebot el) = lm_y m) by (apply Hl; congruence). exists el. split; [eapply in_eds; [exact Rl|exact El]|]. right. left. split; [reflexivity|congruence]. }
  assert (A2 : All (hq y) s2) by (eapply moved_All; eassumption).
  inv_bind E u3 s3 E3. apply start_run in E3; [|exact S2].
  destruct E3 as (br & er & M3 & Br & Er & Xr). assert (S3 : stat s3) by (eapply moved_stat; eassumption).
  assert (Qr : hq y (lm_right m) br).
  { split; [exact Rr|]. red. rewrite Xr. destruct (Hr er Er) as (Yr & _). exists er. split; [eapply in_eds; [exact Rr|exact Er]|]. right. left. split; [reflexivity|congruence]. }
  assert (A3 : All (hq y) s3) by (eapply moved_All; eassumption).
  assert (V3 : vat P s3) by (eapply vat_frame; [apply M3|]; eapply vat_frame; [apply M2|exact V1]).
  inv_bind E i s4 E4'. assert (E4 : inv (All (hq y)) s4).
  { eapply insert_inv; [| | |exact E4'].
  { split; auto. }
  { destruct M3 as (_ & _ & M3). rewrite M3. destruct (Pos.eqb_spec (lm_right m) (lm_left m)) as [Eq|_]; [rewrite <- Eq; exact Qr|].
      rewrite (moved_self _ _ _ _ M2). exact Ql. }
  { rewrite (moved_self _ _ _ _ M3). exact Qr. } }
  inv_bind E li s5 E5. apply bound_run in E5. destruct E5 as (_ & ->). inv_bind E ee1 s5 E5. apply edge_run in E5; [|apply E4].
  destruct E5 as (_ & ->). inv_bind E u4 s5 E5.
  assert (H5 : inv (All (hq y)) s5).
  { destruct (is_horizontal ee1); [apply ret_Ok in E5; destruct E5 as (_ & ->); exact E4|]. eapply tri_insort; [apply All_jab|exact E4|exact E5]. }
  inv_bind E ri s6 E6. apply bound_run in E6. destruct E6 as (_ & ->). inv_bind E re s6 E6. apply edge_run in E6; [|apply H5].
  destruct E6 as (_ & ->). inv_bind E u5 s6 E6.
  assert (H6 : inv (All (hq y)) s6).
  { destruct (is_horizontal re); [apply ret_Ok in E6; destruct E6 as (_ & ->); exact H5|]. eapply tri_insort; [apply All_jab|exact H5|exact E6]. }
  apply ret_Ok in E. destruct E as (-> & ->). exact H6.
Qed.

Lemma set_inv k o (J J' : st -> Prop) s u s' : inv J s -> abl_set k o s = Ok (u, s') -> J' s' -> inv J' s'.
Proof.
  intros (V & S & HJ) E HJ'. pose proof (set_run _ _ _ _ _ E) as (R & _). split; [eapply vat_frame; [apply R|exact V]|].
  split; [eapply relist_stat; eassumption|exact HJ'].
Qed.
Definition onq (y : Z) (i : bid) (k : nat) (s : st) : Prop :=
  All (hq y) s /\ hq y i (bget (s_bounds s) i) /\ nth_error (s_abl s) k = Some (Some i).
Lemma onq_jab y i k : jab (onq y i k).
Proof. intros s s' A B (H1 & H2 & H3). split; [eapply All_jab; eassumption|]. rewrite A, B. auto. Qed.
Lemma set_here k o s u s' : abl_set k o s = Ok (u, s') -> nth_error (s_abl s') k = Some o.
Proof. intros E. apply set_run in E. destruct E as ((_ & _ & A) & L). rewrite A. apply nth_error_upd_eq. exact L. Qed.
Lemma tri_shift y dirle i h : isrec h -> is_horizontal h = true -> py (etop h) = y -> forall idx k,
  tri (inv (onq y i k)) (shift_bound y dirle i k idx) (fun k' => inv (onq y i k')).
Proof.
  intros Rh Hh Yh. induction idx as [|j idx IH]; intros k; cbn [shift_bound]; [apply tri_ret; auto|].
  intros s a s' H E. inv_bind E o s1 E1. apply get_run in E1. destruct E1 as (E1 & ->).
  inv_bind E b s1 E2. apply bd_Ok in E2. destruct E2 as (-> & ->). inv_bind E stop s1 E2.
  assert (H1 : inv (onq y i k) s1 /\ (forall n, o = Some n -> hq y n (bget (s_bounds s1) n))).
  { destruct o as [n|].
    2:{ apply ret_Ok in E2. destruct E2 as (_ & ->). split; [exact H|discriminate]. }
    assert (Hn : hq y n (bget (s_bounds s) n)) by (apply H; eapply nth_error_In, E1).
    inv_bind E2 nb s2 E3. apply bd_Ok in E3. destruct E3 as (-> & ->).
    destruct (dirle _ _); [apply ret_Ok in E2; destruct E2 as (_ & ->); split; [exact H|congruence]|].
    inv_bind E2 e s2 E3. apply lift_Ok in E3. destruct E3 as (_ & ->). inv_bind E2 u s2 E3.
    apply ret_Ok in E2. destruct E2 as (_ & ->).
    destruct (_ && _).
    - inv_bind E3 x s3 E4. apply lift_Ok in E4. destruct E4 as (E4 & ->).
      assert (Eb : s_bounds s2 = s_bounds s) by (apply modify_Ok in E3; subst s2; reflexivity).
      split; [|intros ? [= <-]; rewrite Eb; exact Hn].
      eapply (tri_push (Pt x y)); [apply onq_jab| |exact H|exact E3]. eapply level_point; eauto. apply Hn.
    - apply ret_Ok in E3. destruct E3 as (_ & ->). split; [exact H|congruence]. }
  destruct H1 as (H1 & Hn). destruct stop; [apply ret_Ok in E; destruct E as (-> & ->); exact H1|].
  inv_bind E u s2 E3. inv_bind E u2 s3 E4.
  assert (H2 : inv (fun s => All (hq y) s /\ hq y i (bget (s_bounds s) i)) s2).
  { eapply set_inv; [exact H1|exact E3|]. destruct H1 as (_ & _ & A & B & _). split.
    - eapply set_All; [exact E3|exact Hn|exact A].
    - apply set_run in E3. destruct E3 as ((_ & Eb & _) & _). rewrite Eb. exact B. }
  eapply (IH j); [|exact E]. eapply set_inv; [exact H2|exact E4|]. destruct H2 as (_ & _ & A & B). split; [|split].
  - eapply set_All; [exact E4| |exact A]. intros n [= <-]. exact B.
  - apply set_run in E4. destruct E4 as ((_ & Eb & _) & _). rewrite Eb. exact B.
  - eapply set_here, E4.
Qed.
Lemma moved_inv i b (J J' : st -> Prop) s s' : inv J s -> moved i b s s' -> b_edges b = eds i -> J' s' -> inv J' s'.
Proof.
  intros (V & S & _) M E H. split; [eapply vat_frame; [apply M|exact V]|]. split; [eapply moved_stat; eassumption|exact H].
Qed.
Lemma moved_onq y i k b s s' : moved i b s s' -> hq y i b -> onq y i k s -> onq y i k s'.
Proof.
  intros M H (A & _ & C). split; [eapply moved_All; eassumption|]. rewrite (moved_self _ _ _ _ M). split; [exact H|].
  destruct M as (_ & -> & _). exact C.
Qed.
Lemma hot_horizontal y k i e s r s' : inv (onq y i k) s ->
  nth_error (eds i) (b_cur (bget (s_bounds s) i)) = Some e ->
  is_horizontal e = true -> py (etop e) = y ->
  horizontals_at_top_scanbeam y k s = Ok (r, s') -> inv (onq y i (fst r)) s' /\ b_cur (bget (s_bounds s') i) = b_cur (bget (s_bounds s) i).
Proof.
  intros H He Hh Hy E. unfold horizontals_at_top_scanbeam in E. inv_bind E i' s1 E1. apply bound_run in E1.
  destruct E1 as (E1 & ->). assert (i' = i) by (destruct H as (_ & _ & _ & _ & H); congruence). subst i'. inv_bind E e' s1 E2. apply edge_run in E2; [|apply H].
  destruct E2 as (E2 & ->). assert (e' = e) by congruence. subst e'. inv_bind E u s1 E3. apply moved_upd in E3.
  assert (Ri : Rec i) by (apply H). assert (Re : isrec e) by (eapply in_eds; [exact Ri|exact He]).
  assert (H1 : inv (onq y i k) s1).
  { eapply moved_inv; [exact H|exact E3|apply H|]. eapply moved_onq; [exact E3| |apply H]. split; [exact Ri|].
    red. exists e. split; [exact Re|]. right. right. split; [reflexivity|exact Hy]. }
  assert (C1 : b_cur (bget (s_bounds s1) i) = b_cur (bget (s_bounds s) i)) by (rewrite (moved_self _ _ _ _ E3); reflexivity).
  inv_bind E abl s2 E4. apply gets_Ok in E4. destruct E4 as (-> & ->).
  assert (Sb : forall d idx k0 t k1 t', shift_bound y d i k0 idx t = Ok (k1, t') -> s_bounds t' = s_bounds t).
  { clear. intros d. induction idx as [|j idx IH]; intros k0 t k1 t' E; cbn [shift_bound] in E; [apply ret_Ok in E; destruct E as (_ & ->); reflexivity|].
    inv_bind E o s1 E1. apply get_run in E1. destruct E1 as (E1 & ->).
    inv_bind E b s1 E2. apply bd_Ok in E2. destruct E2 as (-> & ->). inv_bind E stop s1 E2.
    assert (B1 : s_bounds s1 = s_bounds t).
    { destruct o as [n|]; [|apply ret_Ok in E2; destruct E2 as (_ & ->); reflexivity].
      inv_bind E2 nb s2 E3. apply bd_Ok in E3. destruct E3 as (-> & ->).
      destruct (d _ _); [apply ret_Ok in E2; destruct E2 as (_ & ->); reflexivity|].
      inv_bind E2 e s2 E3. apply lift_Ok in E3. destruct E3 as (_ & ->). inv_bind E2 u s2 E3.
      apply ret_Ok in E2. destruct E2 as (_ & ->). destruct (_ && _).
      - inv_bind E3 x s3 E4. apply lift_Ok in E4. destruct E4 as (E4 & ->). apply modify_Ok in E3. subst s2. reflexivity.
      - apply ret_Ok in E3. destruct E3 as (_ & ->). reflexivity. }
    destruct stop; [apply ret_Ok in E; destruct E as (_ & ->); exact B1|].
    inv_bind E u s2 E3. inv_bind E u2 s3 E4. apply IH in E. apply set_run in E3, E4.
    destruct E3 as ((_ & B2 & _) & _), E4 as ((_ & B3 & _) & _). congruence. }
  destruct (px (ebot e) <? px (etop e)); inv_bind E k' s2 E4; apply ret_Ok in E; destruct E as (-> & ->); cbn [fst];
    (split; [eapply (tri_shift y _ i e); eauto|apply Sb in E4; rewrite E4; exact C1]).
Qed.
Lemma hot_edges_of fuel y i : forall k sh s r s', inv (onq y i k) s ->
  loopM fuel (fun '(k, shifted) =>
    (b <- bd i ;;
     if (b_cur b <? length (b_edges b))%nat then
       (e <- lift (cur_edge_of b) ;;
        if py (etop e) =? y then
          (push_hp (etop e) ;;
           ks <- (if is_horizontal e then horizontals_at_top_scanbeam y k
                  else ret (k, shifted)) ;;
           to_next_edge i ;;
           ret (inl ks))
        else ret (inr (k, shifted)))
     else ret (inr (k, shifted)))) (k, sh) s = Ok (r, s') -> inv (onq y i (fst r)) s'.
Proof.
  induction fuel as [|fuel IH]; intros k sh s r s' H E; [discriminate|]. cbn [loopM] in E. inv_bind E v s1 E1.
  inv_bind E1 b s2 E2. apply bd_Ok in E2. destruct E2 as (-> & ->).
  assert (Stop : forall (t : prog ((nat * bool) + (nat * bool))), t = ret (inr (k, sh)) -> t s = Ok (v, s1) ->
    (match v with inl x' => loopM fuel (fun '(k, shifted) =>
    (b <- bd i ;;
     if (b_cur b <? length (b_edges b))%nat then
       (e <- lift (cur_edge_of b) ;;
        if py (etop e) =? y then
          (push_hp (etop e) ;;
           ks <- (if is_horizontal e then horizontals_at_top_scanbeam y k
                  else ret (k, shifted)) ;;
           to_next_edge i ;;
           ret (inl ks))
        else ret (inr (k, shifted)))
     else ret (inr (k, shifted)))) x' | inr v => ret v end) s1 = Ok (r, s') -> inv (onq y i (fst r)) s').
  { intros t -> Et Er. apply ret_Ok in Et. destruct Et as (-> & ->). apply ret_Ok in Er. destruct Er as (-> & ->). exact H. }
  destruct (_ <? _)%nat; [|eapply Stop; [reflexivity|exact E1|exact E]].
  inv_bind E1 e s2 E2. apply lift_Ok in E2. destruct E2 as (E2 & ->).
  assert (He : nth_error (eds i) (b_cur (bget (s_bounds s) i)) = Some e).
  { unfold cur_edge_of, nth_res in E2. destruct H as (_ & S & _). rewrite S in E2. destruct (nth_error _ _); congruence. }
  destruct (Z.eqb_spec (py (etop e)) y) as [Hy|_]; [|eapply Stop; [reflexivity|exact E1|exact E]]. clear Stop.
  assert (Ri : Rec i) by apply H. assert (Re : isrec e) by (eapply in_eds; [exact Ri|exact He]).
  inv_bind E1 u s2 E3. assert (H2 : inv (onq y i k) s2 /\ b_cur (bget (s_bounds s2) i) = b_cur (bget (s_bounds s) i)).
  { split; [eapply tri_push; [apply onq_jab|apply P_top; exact Re|exact H|exact E3]|]. apply modify_Ok in E3. subst s2. reflexivity. }
  destruct H2 as (H2 & C2). inv_bind E1 ks s3 E4.
  assert (H3 : inv (onq y i (fst ks)) s3 /\ b_cur (bget (s_bounds s3) i) = b_cur (bget (s_bounds s) i)).
  { destruct (is_horizontal e) eqn:Hh.
    - rewrite <- C2. eapply hot_horizontal; [exact H2|rewrite C2; exact He|exact Hh|exact Hy|exact E4].
    - apply ret_Ok in E4. destruct E4 as (-> & ->). auto. }
  destruct H3 as (H3 & C3). inv_bind E1 u2 s4 E5. apply ret_Ok in E1. destruct E1 as (-> & ->).
  apply next_run in E5; [|apply H3]. destruct E5 as (b' & M & Eb & Cs). rewrite C3 in Cs.
  destruct ks as [k1 sh1]. eapply IH; [|exact E]. cbn [fst] in *.
  eapply moved_inv; [exact H3|exact M|exact Eb|]. eapply moved_onq; [exact M| |apply H3]. split; [exact Ri|]. red.
  destruct Cs as [(f & Hf & _ & _ & ->)|(_ & ->)].
  - destruct (chain i _ e f Ri He Hf) as (Ec & _). exists f. split; [eapply in_eds; [exact Ri|exact Hf]|]. right. left. split; [reflexivity|].
    rewrite Ec. exact Hy.
  - apply H3.
Qed.
Lemma All_set_None k s u s' (Q : bid -> bound -> Prop) : inv (All Q) s -> abl_set k None s = Ok (u, s') -> inv (All Q) s'.
Proof. intros H E. eapply set_inv; [exact H|exact E|]. eapply set_All; [exact E|discriminate|apply H]. Qed.
Lemma tri_hot_edges fuel y : tri (inv (All (hq y))) (process_hot_pixel_edges fuel y) (fun _ => inv (All (hq y))).
Proof.
  unfold process_hot_pixel_edges. eapply tri_bind; [|intros ?; apply tri_compact].
  apply tri_loop with (Inv := fun _ => inv (All (hq y))). intros k s a s' H E. inv_bind E abl s1 E1. apply gets_Ok in E1.
  destruct E1 as (-> & ->). destruct (nth_error (s_abl s) k) as [[i|]|] eqn:En;
    [|apply ret_Ok in E; destruct E as (-> & ->); exact H..].
  inv_bind E ks s1 E1. unfold hot_pixel_edges_of in E1.
  assert (H0 : inv (onq y i k) s).
  { destruct H as (V & S & A). split; [exact V|]. split; [exact S|]. split; [exact A|]. split; [|exact En].
    apply A. eapply nth_error_In, En. }
  apply hot_edges_of in E1; [|exact H0]. destruct ks as [k' sh]. cbn [fst] in E1.
  inv_bind E b s2 E2. apply bd_Ok in E2. destruct E2 as (-> & ->). inv_bind E u s2 E2. apply ret_Ok in E. destruct E as (-> & ->).
  assert (H1 : inv (All (hq y)) s1) by (eapply inv_weak; [|exact E1]; intros (A & _); exact A).
  destruct (_ =? _)%nat; [|apply ret_Ok in E2; destruct E2 as (_ & ->); exact H1]. eapply All_set_None; eassumption.
Qed.
Lemma quicksort_incl fuel l r : quicksort hot_pixels_compare fuel l = Ok r -> forall x, In x r -> In x l.
Proof.
  intros E x I. set (f' := (fuel + S (3 ^ length l))%nat).
  destruct (quicksort_sorts hot_pixels_compare) with (l := l) (fuel := f') as (r' & E' & Hp & _).
  - intros a b. rewrite !compare_pixel_le. unfold pixel_le. lia.
  - intros a b c. rewrite !compare_pixel_le. unfold pixel_le. lia.
  - unfold f'. lia.
  - pose proof (ler_quicksort fuel f' hot_pixels_compare l ltac:(unfold f'; lia)) as L. rewrite E, E' in L.
    assert (r = r') by (destruct L as [L|L]; congruence). subst r'. eapply Permutation_in; [symmetry; exact Hp|exact I].
Qed.
Lemma tri_hot_sort fuel (J : st -> Prop) : jab J -> tri (inv J) (sort_hot_pixels fuel) (fun _ => inv J).
Proof.
  intros HJ s a s' (V & S & J1) E. unfold sort_hot_pixels in E. inv_bind E l s1 E1. apply gets_Ok in E1. destruct E1 as (-> & ->).
  inv_bind E q s1 E1. apply lift_Ok in E1. destruct E1 as (E1 & ->). apply modify_Ok in E. subst s'.
  split; [|split; [exact S|eapply HJ; [..|exact J1]; reflexivity]]. destruct V as ([P1 P2 P3 P4 P5] & V2). split; [constructor; auto|].
  cbn. rewrite Forall_forall in *. intros x I. apply V2. eapply quicksort_incl; [exact E1|].
  destruct q as [|p q]; [exact I|]. cbn in I. destruct I as [<-|I]; [left; reflexivity|right]. eapply groupby_go_in, I.
Qed.
Lemma tri_pop y (J : st -> Prop) : jab J -> tri (inv J) (pop_scanbeam y) (fun _ => inv J).
Proof.
  intros HJ. apply tri_frame; [|exact HJ]. intros s a s' E. unfold pop_scanbeam in E. inv_bind E l s1 E1. apply gets_Ok in E1.
  destruct E1 as (-> & ->). destruct (last_opt _).
  - inv_bind E u s1 E1. apply modify_Ok in E1. apply ret_Ok in E. destruct E as (_ & ->). subst s1. repeat split.
  - apply ret_Ok in E. destruct E as (_ & ->). repeat split.
Qed.
Lemma tri_pending ms k (J : st -> Prop) : tri (inv J) (sweep_pending ms k) (fun _ => inv J).
Proof.
  intros s a s' H E. unfold sweep_pending in E. inv_bind E l s1 E1. apply gets_Ok in E1. destruct E1 as (_ & ->).
  apply ret_Ok in E. destruct E as (_ & ->). exact H.
Qed.
Lemma tri_build_hot fuel minimums : Forall min_ok minimums ->
  tri (inv (fun _ => True)) (build_hot_pixels fuel minimums) (fun _ => inv (fun _ => True)).
Proof.
  intros F. unfold build_hot_pixels. set (ms := pure_sort_rev lm_lt minimums).
  assert (Fm : Forall min_ok ms) by (eapply Permutation_Forall; [apply pure_sort_rev_perm|exact F]).
  eapply tri_bind with (Q := fun _ => inv (All rec)).
  { intros s a s' (V & S & _) E. apply modify_Ok in E. subst s'. split; [eapply vat_frame; [|exact V]; repeat split|]. split; [exact S|]. intros i []. }
  intros ?. eapply tri_bind with (Q := fun _ => inv (fun _ => True)); [|intros ?; apply tri_hot_sort; red; auto].
  eapply tri_post with (Q' := fun _ => inv (All rec)); [|intros b0 t; apply inv_weak; auto].
  apply tri_loop with (Inv := fun _ => inv (All rec)). intros [y k]. eapply tri_bind; [apply tri_pending|]. intros []; [|apply tri_ret; auto].
  eapply tri_bind; [apply tri_pop, All_jab|]. intros y'. cbv beta.
  eapply tri_bind; [apply tri_hot_intersections|]. intros ?. cbv beta.
  eapply tri_bind; [apply tri_hot_minima; exact Fm|]. intros k'. cbv beta.
  eapply tri_bind; [apply tri_hot_edges|]. intros ?. apply tri_ret. intros s. apply inv_weak. intros A i I. apply A, I.
Qed.

(** ** The second sweep *)
Definition cure (i : bid) (b : bound) (e : edge) : Prop := nth_error (eds i) (b_cur b) = Some e.
Definition base (i : bid) (b : bound) : Prop := Rec i /\ (b_cur b < length (eds i))%nat /\ b_next b = S (b_cur b).
Definition nf (i : bid) (b : bound) : Prop := forall e, cure i b e -> is_horizontal e = false.
Definition hz (y : Z) (i : bid) (b : bound) : Prop := forall e, cure i b e -> is_horizontal e = true -> py (etop e) = y.
Definition pr (y : Z) (i : bid) (b : bound) : Prop := forall e f, cure i b e -> nth_error (eds i) (S (b_cur b)) = Some f ->
  is_horizontal f = true -> is_horizontal e = false -> py (etop e) <> y.
Definition QA : bid -> bound -> Prop := qand base nf.
Definition QB (y : Z) : bid -> bound -> Prop := qand QA (pos y).
Definition QC (y : Z) : bid -> bound -> Prop := qand base (qand (hz y) (pos y)).
Definition QD (y : Z) : bid -> bound -> Prop := qand (QC y) (pr y).
Lemma qand_qst (Q Q' : bid -> bound -> Prop) : qst Q -> qst Q' -> qst (qand Q Q').
Proof. intros H H' i b b' E (A & B). split; [eapply H|eapply H']; eassumption. Qed.
Ltac qcs := intros ? ? ? E; unfold qcore in E; injection E as Eed Ecu Ene Ecx _ _ _ _.
Lemma base_qst : qst base. Proof. qcs. unfold base. rewrite Ecu, Ene. auto. Qed.
Lemma nf_qst : qst nf. Proof. qcs. unfold nf, cure. rewrite Ecu. auto. Qed.
Lemma hz_qst y : qst (hz y). Proof. qcs. unfold hz, cure. rewrite Ecu. auto. Qed.
Lemma pr_qst y : qst (pr y). Proof. qcs. unfold pr, cure. rewrite Ecu. auto. Qed.
Lemma pos_qst y : qst (pos y). Proof. qcs. unfold pos. rewrite Ecx. auto. Qed.
Lemma QA_qst : qst QA. Proof. apply qand_qst; [apply base_qst|apply nf_qst]. Qed.
Lemma QB_qst y : qst (QB y). Proof. apply qand_qst; [apply QA_qst|apply pos_qst]. Qed.
Lemma QC_qst y : qst (QC y). Proof. apply qand_qst; [apply base_qst|]. apply qand_qst; [apply hz_qst|apply pos_qst]. Qed.
Lemma QD_qst y : qst (QD y). Proof. apply qand_qst; [apply QC_qst|apply pr_qst]. Qed.
Lemma QB_QC y i b : QB y i b -> QC y i b.
Proof. intros ((A & B) & C). split; [exact A|]. split; [|exact C]. intros e He Hh. rewrite (B e He) in Hh. discriminate. Qed.
Lemma All_imp (Q Q' : bid -> bound -> Prop) s : (forall i b, Q i b -> Q' i b) -> inv (All Q) s -> inv (All Q') s.
Proof. intros H (V & S & A). split; [exact V|]. split; [exact S|]. intros i I. apply H, A, I. Qed.
Lemma out_inv {A} (m : prog A) (J : st -> Prop) s a s' : vk P m -> pres quiet m -> jst J -> inv J s -> m s = Ok (a, s') -> inv J s'.
Proof. intros V Q HJ H E. eapply tri_output; eauto. Qed.

(** *** Intersections *)
Definition nok (n : intersect_node) : Prop := exists e f, isrec e /\ isrec f /\ edge_and e f = Ok (Some (in_point n)).
Lemma nok_P n q : nok n -> round_point (in_point n) = Ok q -> P q.
Proof. intros (e & f & He & Hf & E) Er. exact (vo_cross _ _ e f _ He Hf E Er). Qed.
Lemma build_run fuel (Q : bid -> bound -> Prop) s l s' : (forall i b, Q i b -> Rec i) -> inv (All Q) s -> build_intersect_list fuel s = Ok (l, s') ->
  s' = s /\ Forall nok l.
Proof.
  intros HR H E. unfold build_intersect_list in E. destruct (abl_ids s) as [[ids s0]| |] eqn:Ei; try discriminate.
  apply ids_run in Ei. destruct Ei as (Ei & ->).
  match type of E with match ?t with _ => _ end = _ => destruct t as [[r l0]| |] eqn:Eb; try discriminate end.
  injection E as <- <-. split; [reflexivity|].
  eapply (bubble_keeps _ _ (Forall nok) Rec) in Eb; [exact (proj1 Eb)| | | |constructor].
  - intros i j acc r0 acc' _ _ Ha Ec. destruct (intersection_compare i j s) as [[? ?]| |]; try discriminate. injection Ec as <- <-. exact Ha.
  - intros i j acc r0 acc' Ri Rj Ha Ec.
    match type of Ec with match ?t with _ => _ end = _ => destruct t as [[[q|] s1]| |] eqn:Eq; try discriminate end.
    injection Ec as <- <-. apply Forall_app. split; [exact Ha|]. constructor; [|constructor].
    inv_bind Eq e s2 E1. apply edge_run in E1; [|apply H]. destruct E1 as (E1 & ->). inv_bind Eq f s2 E2. apply edge_run in E2; [|apply H].
    destruct E2 as (E2 & ->). apply lift_Ok in Eq. destruct Eq as (Eq & _). exists e, f.
    split; [exact (in_eds _ _ _ Ri E1)|]. split; [exact (in_eds _ _ _ Rj E2)|exact Eq].
  - apply Forall_forall. intros i I. eapply HR. apply H. rewrite Ei. apply in_map, I.
Qed.
Lemma process_list_inv fuel op a b (Q : bid -> bound -> Prop) : qst Q -> forall count l s u s', Forall nok l -> inv (All Q) s ->
  process_intersect_list fuel op a b l count s = Ok (u, s') -> inv (All Q) s'.
Proof.
  intros HQ. induction count as [|count IH]; intros l s u s' F H E; [apply ret_Ok in E; destruct E as (_ & ->); exact H|].
  destruct l as [|n rest]; [apply ret_Ok in E; destruct E as (_ & ->); exact H|]. cbn [process_intersect_list] in E.
  inv_bind E abl s1 E1. apply gets_Ok in E1. destruct E1 as (-> & ->). inv_bind E ka s1 E1. apply lift_Ok in E1. destruct E1 as (_ & ->).
  destruct ka as [k ok]. inv_bind E c s1 E1. inversion F as [|? ? Fn Fr]; subst.
  assert (K : s1 = s /\ nok (fst (fst c)) /\ Forall nok (snd (fst c))).
  { destruct ok.
    - apply ret_Ok in E1. destruct E1 as (-> & ->). auto.
    - inv_bind E1 f s2 E2. apply lift_Ok in E2. destruct E2 as (_ & ->). destruct f as [[p k']|]; [|discriminate].
      inv_bind E1 m s2 E2. apply lift_Ok in E2. destruct E2 as (E2 & ->). apply ret_Ok in E1. destruct E1 as (-> & ->).
      unfold nth_res in E2. destruct (nth_error rest p) as [m'|] eqn:Em; [|discriminate]. injection E2 as ->. split; [reflexivity|].
      rewrite Forall_forall in Fr. split; [apply Fr; eapply nth_error_In, Em|]. cbn. apply Forall_forall. intros x I.
      apply In_upd in I. destruct I as [->|I]; auto. }
  destruct c as [[m rest'] k']. cbn in K. destruct K as (-> & Fm & Fr'). inv_bind E q s1 E2. apply lift_Ok in E2. destruct E2 as (E2 & ->).
  inv_bind E v s1 E3. assert (H1 : inv (All Q) s1).
  { eapply out_inv; [apply vk_intersect_bounds|apply qt_intersect_bounds|apply All_quiet, HQ|exact H|exact E3]. eapply nok_P; eassumption. }
  inv_bind E w s2 E4. eapply IH; [exact Fr'| |exact E]. eapply (tri_swap k' (S k') (All Q) (All Q)); [|exact H1|exact E4].
  intros t t' _ HA (x & Ex). eapply swap_All; eassumption.
Qed.
Lemma tri_intersections fuel op a b y : tri (inv (All QA)) (process_intersections fuel op a b y) (fun _ => inv (All (QB y))).
Proof.
  intros s u s' H E. unfold process_intersections in E. inv_bind E abl s1 E1. apply gets_Ok in E1. destruct E1 as (-> & ->).
  destruct (s_abl s) as [|o l0] eqn:Ea.
  - apply ret_Ok in E. destruct E as (_ & ->). destruct H as (V & S & _). split; [exact V|]. split; [exact S|]. intros i I. rewrite Ea in I. destruct I.
  - inv_bind E v s1 E1. apply (tri_update_x y QA) in E1; [|intros i x k z Hi; exact Hi|intros i x ((Hi & _) & _); exact Hi|exact H].
    change (inv (All (QB y)) s1) in E1. inv_bind E l s2 E2. apply (build_run fuel (QB y)) in E2; [|intros i x (((Hi & _) & _) & _); exact Hi|exact E1].
    destruct E2 as (-> & F). destruct l as [|n l]; [apply ret_Ok in E; destruct E as (_ & ->); exact E1|].
    inv_bind E l' s2 E2. pose proof (un_py_sort _ _ _ _ E2) as E3. unfold unchanged in E3. subst s2. apply py_sort_perm in E2.
    eapply (process_list_inv fuel op a b (QB y) (QB_qst y)); [eapply Permutation_Forall; eassumption|exact E1|exact E].
Qed.
Lemma tri_hpi fuel y (J : st -> Prop) : jab J -> tri (inv J) (update_current_hot_pixel_index fuel y) (fun _ => inv J).
Proof.
  intros HJ. unfold update_current_hot_pixel_index. apply tri_loop with (Inv := fun _ => inv J). intros ?.
  intros s r s' H E. inv_bind E s0 s1 E1. apply get_Ok in E1. destruct E1 as (-> & ->). inv_bind E h s1 E1. apply lift_Ok in E1. destruct E1 as (_ & ->).
  destruct (py h >? y); [|apply ret_Ok in E; destruct E as (-> & ->); exact H].
  inv_bind E v s1 E1. apply ret_Ok in E. destruct E as (-> & ->). revert E1. apply (tri_frame (modify _) J); [|exact HJ|exact H].
  intros t z t' Et. apply modify_Ok in Et. subst t'. repeat split.
Qed.

(** *** Moving on *)
Lemma next_step y i e s u s' : stat s -> base i (bget (s_bounds s) i) -> cure i (bget (s_bounds s) i) e -> py (etop e) = y ->
  (b_next (bget (s_bounds s) i) < length (eds i))%nat -> to_next_edge i s = Ok (u, s') ->
  exists b' f, moved i b' s s' /\ b_edges b' = eds i /\ nth_error (eds i) (S (b_cur (bget (s_bounds s) i))) = Some f /\
    cure i b' f /\ QD y i b' /\ (is_horizontal e = true -> is_horizontal f = false).
Proof.
  intros S (R & L & N) He Y Ln E. apply next_run in E; [|exact S]. cbv zeta in E. destruct E as (b' & M & Eb & C).
  destruct C as [(f & Hf & Cu & Ne & Cx)|(C & _)]; [|lia]. exists b', f.
  assert (Cf : cure i b' f) by (unfold cure; rewrite Cu; exact Hf).
  destruct (chain i _ e f R He Hf) as (Ec & Eh).
  assert (Yf : py (ebot f) = y) by congruence.
  assert (Uf : forall g, cure i b' g -> g = f) by (unfold cure in *; intros g Hg; congruence).
  pose proof (hor_iff i f R (nth_error_In _ _ Hf)) as Hi.
  split; [exact M|]. split; [exact Eb|]. split; [exact Hf|]. split; [exact Cf|]. split; [|exact Eh]. split; [split; [|split]|].
  - split; [exact R|]. rewrite Cu, Ne, N. split; [lia|]. unfold clip_index. rewrite S.
    destruct (Nat.ltb_spec (Datatypes.S (Datatypes.S (b_cur (bget (s_bounds s) i)))) (length (eds i))); [reflexivity|lia].
  - intros g Hg Hh. apply Uf in Hg. subst g. apply Hi in Hh. congruence.
  - red. rewrite Cx. exists f. split; [eapply in_eds; [exact R|exact Hf]|]. right. left. auto.
  - intros g h Hg _ _ Hh Yh. apply Uf in Hg. subst g.
    assert (is_horizontal f = true) by (apply Hi; congruence). congruence.
Qed.
Lemma inter_run i y s r s' : stat s -> is_intermediate i y s = Ok (r, s') -> s' = s /\
  (r = true -> (b_next (bget (s_bounds s) i) < length (eds i))%nat /\ exists e, cure i (bget (s_bounds s) i) e /\ py (etop e) = y) /\
  (r = false -> (length (eds i) <= b_next (bget (s_bounds s) i))%nat \/ exists e, cure i (bget (s_bounds s) i) e /\ py (etop e) <> y).
Proof.
  intros S E. unfold is_intermediate in E. inv_bind E b s1 E1. apply bd_Ok in E1. destruct E1 as (-> & ->). rewrite S in E.
  destruct (Nat.ltb_spec (b_next (bget (s_bounds s) i)) (length (eds i))) as [L|L].
  - inv_bind E e s1 E1. apply lift_Ok in E1. destruct E1 as (E1 & ->). apply ret_Ok in E. destruct E as (-> & ->). split; [reflexivity|].
    unfold cur_edge_of, nth_res in E1. rewrite S in E1. destruct (nth_error (eds i) _) as [e'|] eqn:En; [|discriminate]. injection E1 as ->.
    split; intros H.
    + split; [exact L|]. exists e. split; [exact En|]. apply Z.eqb_eq, H.
    + right. exists e. split; [exact En|]. apply Z.eqb_neq, H.
  - apply ret_Ok in E. destruct E as (-> & ->). split; [reflexivity|]. split; [discriminate|auto].
Qed.
Lemma maxima_same i y s r s' : is_maxima i y s = Ok (r, s') -> s' = s.
Proof.
  intros E. unfold is_maxima in E. inv_bind E b s1 E1. apply bd_Ok in E1. destruct E1 as (-> & ->). destruct (_ =? _)%nat.
  - inv_bind E e s1 E1. apply lift_Ok in E1. destruct E1 as (E1 & ->). apply ret_Ok in E. tauto.
  - apply ret_Ok in E. tauto.
Qed.

(** *** Local maxima *)
Definition both (k : nat) (Q Q' : bid -> bound -> Prop) (s : st) : Prop := All Q s /\ Pre k Q' s.
Lemma both_quiet k (Q Q' : bid -> bound -> Prop) : qst Q -> qst Q' -> jst (both k Q Q').
Proof. intros H H'. apply and_quiet; [apply All_quiet, H|apply Pre_quiet, H']. Qed.
Lemma both_swap a b k (Q Q' : bid -> bound -> Prop) s u s' : (k <= a)%nat -> (k <= b)%nat -> inv (both k Q Q') s -> abl_swap a b s = Ok (u, s') ->
  inv (both k Q Q') s'.
Proof.
  intros La Lb H E. eapply (tri_swap a b (both k Q Q') (both k Q Q')); [|exact H|exact E].
  intros t t' _ (HA & HP) (x & Ex). split; [eapply swap_All; eassumption|eapply swap_Pre; eassumption].
Qed.
Lemma both_none j k (Q Q' : bid -> bound -> Prop) s u s' : inv (both k Q Q') s -> abl_set j None s = Ok (u, s') -> inv (both k Q Q') s'.
Proof.
  intros H E. eapply set_inv; [exact H|exact E|]. split; [eapply set_All; [exact E|discriminate|apply H]|eapply set_None_Pre; [exact E|apply H]].
Qed.
Lemma both_none_here k (Q Q' : bid -> bound -> Prop) s u s' : inv (both k Q Q') s -> abl_set k None s = Ok (u, s') -> inv (both (S k) Q Q') s'.
Proof.
  intros H E. eapply set_inv; [exact H|exact E|]. split; [eapply set_All; [exact E|discriminate|apply H]|eapply set_None_here; [exact E|apply H]].
Qed.
Lemma walk_inv fuel op a b m k0 (Q Q' : bid -> bound -> Prop) : qst Q -> qst Q' -> (forall i x, Q i x -> Rec i) ->
  forall js k sk s k' sk' s', (forall j, In j js -> (k0 <= j)%nat) -> (k0 <= k)%nat -> inv (both k0 Q Q') s ->
  walk_go fuel op a b m js k sk s = Ok ((k', sk'), s') -> inv (both k0 Q Q') s' /\ (sk' = false -> k' = k /\ sk = false).
Proof.
  intros HQ HQ' HR. induction js as [|j js IH]; intros k sk s k' sk' s' Hj Lk H E; cbn [walk_go] in E.
  - apply ret_Ok in E. destruct E as (E & ->). injection E as -> ->. auto.
  - destruct (j =? m)%nat; [apply ret_Ok in E; destruct E as (E & ->); injection E as -> ->; auto|].
    inv_bind E o s1 E1. apply get_run in E1. destruct E1 as (_ & ->).
    destruct o as [n|]; [|eapply IH; [|exact Lk|exact H|exact E]; intros; apply Hj; right; assumption].
    inv_bind E i s1 E1. apply bound_run in E1. destruct E1 as (Ei & ->). inv_bind E e s1 E1. apply edge_run in E1; [|apply H].
    destruct E1 as (Ee & ->). inv_bind E u s1 E1.
    assert (H1 : inv (both k0 Q Q') s1).
    { eapply out_inv; [apply vk_intersect_bounds|apply qt_intersect_bounds|apply both_quiet; assumption|exact H|exact E1].
      apply P_top. eapply in_eds; [|exact Ee]. eapply HR. apply H. eapply nth_error_In, Ei. }
    assert (Lj : (k0 <= j)%nat) by (apply Hj; left; reflexivity).
    inv_bind E u2 s2 E2. apply both_swap with (k := k0) (Q := Q) (Q' := Q') in E2; [|assumption..].
    eapply IH in E; [|intros; apply Hj; right; assumption|exact Lj|exact E2]. destruct E as (E & F). split; [exact E|].
    intros ->. destruct (F eq_refl). discriminate.
Qed.
Lemma do_maxima_inv fuel op a b (Q Q' : bid -> bound -> Prop) k m s k' s' : qst Q -> qst Q' -> (forall i x, Q i x -> Rec i) ->
  inv (both k Q Q') s -> do_maxima fuel op a b k m s = Ok (k', s') -> inv (both k' Q Q') s'.
Proof.
  intros HQ HQ' HR H E. unfold do_maxima in E. inv_bind E r s1 E1. unfold maxima_walk in E1. inv_bind E1 n s0 E0. apply gets_Ok in E0.
  destruct E0 as (-> & ->). change ((walk_go fuel op a b m (range (S k) (length (s_abl s))) k false) s = Ok (r, s1)) in E1.
  destruct r as [k1 sk]. apply walk_inv with (k0 := k) (Q := Q) (Q' := Q') in E1; [|assumption|assumption|assumption| |lia|exact H].
  2: { intros j Ij. unfold range in Ij. apply in_seq in Ij. lia. }
  destruct E1 as (H1 & Hs). inv_bind E i s2 E2. apply bound_run in E2. destruct E2 as (Ei & ->). inv_bind E bi s2 E2. apply bd_Ok in E2.
  destruct E2 as (-> & ->). inv_bind E j s2 E2. apply bound_run in E2. destruct E2 as (Ej & ->). inv_bind E bj s2 E2. apply bd_Ok in E2.
  destruct E2 as (-> & ->). inv_bind E u s2 E2.
  assert (H2 : inv (both k Q Q') s2).
  { destruct (_ && _).
    - inv_bind E2 e s3 E3. apply edge_run in E3; [|apply H1]. destruct E3 as (E3 & ->).
      eapply out_inv; [apply vk_add_lmax|apply qt_add_lmax|apply both_quiet; assumption|exact H1|exact E2].
      apply P_top. eapply in_eds; [|exact E3]. eapply HR. apply H1. eapply nth_error_In, Ei.
    - destruct (_ || _); [discriminate|]. apply ret_Ok in E2. destruct E2 as (_ & ->). exact H1. }
  inv_bind E u1 s3 E3. inv_bind E u2 s4 E4. apply ret_Ok in E. destruct E as (-> & ->). destruct sk.
  - eapply both_none; [|exact E4]. eapply both_none; [|exact E3]. exact H2.
  - destruct (Hs eq_refl) as (-> & _). eapply both_none; [|exact E4]. eapply both_none_here; [|exact E3]. exact H2.
Qed.
Lemma QC_Rec y i b : QC y i b -> Rec i. Proof. intros ((H & _) & _). exact H. Qed.
Lemma top_inv fuel op a b y k i s k' s' : inv (both k (QC y) (pr y)) s -> nth_error (s_abl s) k = Some (Some i) ->
  top_step fuel op a b y k i s = Ok (k', s') -> inv (both k' (QC y) (pr y)) s'.
Proof.
  intros H Hk E. unfold top_step in E. inv_bind E mx s1 E1. apply maxima_same in E1. subst s1. inv_bind E m s1 E1.
  assert (s1 = s).
  { destruct mx; [|apply ret_Ok in E1; tauto]. inv_bind E1 x s2 E2. apply bd_Ok in E2. destruct E2 as (-> & ->).
    inv_bind E1 abl s2 E2. apply gets_Ok in E2. destruct E2 as (-> & ->). destruct (_ =? _)%nat; [apply ret_Ok in E1; tauto|].
    inv_bind E1 j s2 E2. apply bound_run in E2. destruct E2 as (_ & ->). inv_bind E1 e s2 E2. apply edge_run in E2; [|apply H].
    destruct E2 as (_ & ->). destruct (is_horizontal e); [apply ret_Ok in E1; tauto|]. inv_bind E1 jm s2 E2. apply maxima_same in E2.
    subst s2. apply ret_Ok in E1. tauto. }
  subst s1. destruct m as [m|]; [eapply do_maxima_inv; [apply QC_qst|apply pr_qst|apply QC_Rec|exact H|exact E]|]. clear E1 mx.
  assert (Qi : QC y i (bget (s_bounds s) i)) by (apply H; eapply nth_error_In, Hk).
  destruct (Qi) as ((Ri & Li & Ni) & Hi & Pi).
  inv_bind E im s1 E1. apply inter_run in E1; [|apply H]. destruct E1 as (-> & It & If).
  inv_bind E promote s1 E1. inv_bind E u s2 E2. apply ret_Ok in E. destruct E as (-> & ->).
  assert (K : s1 = s /\ (promote = true -> im = true) /\ (promote = false -> pr y i (bget (s_bounds s) i))).
  { destruct im.
    - inv_bind E1 ne s3 E3. apply ret_Ok in E1. destruct E1 as (-> & ->). unfold next_edge in E3. inv_bind E3 x s4 E4.
      apply bd_Ok in E4. destruct E4 as (-> & ->). apply lift_Ok in E3. destruct E3 as (E3 & ->). split; [reflexivity|].
      split; [auto|]. intros Hn e f He Hf Hh. unfold next_edge_of, nth_res in E3. destruct H as (_ & S & _). rewrite S, Ni in E3.
      rewrite Hf in E3. injection E3 as ->. congruence.
    - apply ret_Ok in E1. destruct E1 as (-> & ->). split; [reflexivity|]. split; [discriminate|]. intros _ e f He Hf _ _ Hy.
      destruct (If eq_refl) as [L|(e' & He' & Y)].
      + rewrite Ni in L. apply nth_error_None in L. congruence.
      + unfold cure in *. congruence. }
  destruct K as (-> & Kt & Kf).
  assert (Step : forall t b', inv (both k (QC y) (pr y)) t -> nth_error (s_abl t) k = Some (Some i) -> forall t', moved i b' t t' ->
    b_edges b' = eds i -> QC y i b' -> pr y i b' -> inv (both (S k) (QC y) (pr y)) t').
  { intros t b' Ht Hkt t' M Eb HC HP. eapply moved_inv; [exact Ht|exact M|exact Eb|]. split; [eapply moved_All; [exact M|exact HC|apply Ht]|].
    intros p j Lp Hj. destruct M as (_ & Ma & Mb). rewrite Ma in Hj. rewrite Mb. destruct (Pos.eqb_spec i j) as [<-|Ne]; [exact HP|].
    destruct (Nat.eq_dec p k) as [->|Np]; [congruence|]. apply Ht with (p := p); [lia|exact Hj]. }
  destruct promote.
  - destruct (It (Kt eq_refl)) as (Ln & e & He & Ye). inv_bind E2 x s3 E3. apply bd_Ok in E3. destruct E3 as (-> & ->).
    inv_bind E2 u1 s3 E3.
    assert (H3 : inv (both k (QC y) (pr y)) s3 /\ quiet s s3).
    { destruct (is_some _).
      - inv_bind E3 e' s4 E4. apply edge_run in E4; [|apply H]. destruct E4 as (E4 & ->).
        split; [eapply out_inv; [apply vk_insert_hp|apply qt_insert_hp|apply both_quiet; [apply QC_qst|apply pr_qst]|exact H|exact E3]|].
        eapply qt_insert_hp, E3.
      - apply ret_Ok in E3. destruct E3 as (_ & ->). split; [exact H|apply R_refl]. }
    destruct H3 as (H3 & Q3). apply quiet_inv in Q3. destruct Q3 as (Q3 & A3). specialize (Q3 i). unfold qcore in Q3.
    injection Q3 as _ Q3a Q3b Q3c _ _ _ _. inv_bind E2 u2 s4 E4. eapply (next_step y i e) in E4;
      [|apply H3|unfold base; rewrite Q3a, Q3b; auto|unfold cure in *; rewrite Q3a; exact He|exact Ye|rewrite Q3b; exact Ln].
    destruct E4 as (b' & f & M & Eb & Hf & Cf & (HC & HP) & _).
    assert (H4 : inv (both (S k) (QC y) (pr y)) s4) by (eapply Step; [exact H3|rewrite A3; exact Hk|exact M|exact Eb|exact HC|exact HP]).
    inv_bind E2 x s5 E5. apply bd_Ok in E5. destruct E5 as (-> & ->). destruct (is_some (b_ring (bget (s_bounds s4) i))).
    + inv_bind E2 f' s5 E5. apply edge_run in E5; [|apply H4]. destruct E5 as (E5 & ->).
      eapply out_inv; [apply vk_add_point_to_ring|apply qt_add_point_to_ring|apply both_quiet; [apply QC_qst|apply pr_qst]|exact H4|exact E2].
      apply P_bot. eapply in_eds; [exact Ri|exact E5].
    + apply ret_Ok in E2. destruct E2 as (_ & ->). exact H4.
  - inv_bind E2 e s3 E3. apply edge_run in E3; [|apply H]. destruct E3 as (E3 & ->). inv_bind E2 x s3 E4. apply lift_Ok in E4.
    destruct E4 as (E4 & ->). apply moved_upd in E2. eapply Step; [exact H|exact Hk|exact E2|apply H| |exact (Kf eq_refl)].
    split; [exact (conj Ri (conj Li Ni))|]. split; [exact Hi|]. red. cbn. eapply x_at_current; [eapply in_eds; [exact Ri|exact E3]|exact E4].
Qed.

(** *** Horizontal edges *)
Definition PreX (K x : nat) (Q : bid -> bound -> Prop) (s : st) : Prop :=
  forall p j, (p < K)%nat -> p <> x -> nth_error (s_abl s) p = Some (Some j) -> Q j (bget (s_bounds s) j).
Definition onh (y : Z) (K kc : nat) (i : bid) (c0 : nat) (s : st) : Prop :=
  All (QD y) s /\ PreX K kc nf s /\ nth_error (s_abl s) kc = Some (Some i) /\ b_cur (bget (s_bounds s) i) = c0.
Lemma PreX_quiet K x (Q : bid -> bound -> Prop) : qst Q -> jst (PreX K x Q).
Proof. intros HQ s s' H A p i L N I. apply quiet_inv in H. destruct H as (H & Ea). rewrite Ea in I. eapply HQ; [apply H|]. eauto. Qed.
Lemma onh_quiet y K kc i c0 : jst (onh y K kc i c0).
Proof.
  intros s s' R (A & B & C & D). split; [eapply All_quiet; [apply QD_qst|exact R|exact A]|]. split; [eapply PreX_quiet; [apply nf_qst|exact R|exact B]|].
  apply quiet_inv in R. destruct R as (R & Ra). rewrite Ra. split; [exact C|]. specialize (R i). unfold qcore in R. injection R as _ R _ _ _ _ _ _. congruence.
Qed.
Lemma swap_nth a b s u s' : abl_swap a b s = Ok (u, s') -> a <> b -> exists L, relist L s s' /\
  nth_error L a = nth_error (s_abl s) b /\ nth_error L b = nth_error (s_abl s) a /\
  forall p, p <> a -> p <> b -> nth_error L p = nth_error (s_abl s) p.
Proof.
  intros E N. apply swap_run in E. destruct E as (x & y & Ex & Ey & R). eexists. split; [exact R|].
  assert (La : (a < length (s_abl s))%nat) by (apply nth_error_Some; congruence).
  assert (Lb : (b < length (s_abl s))%nat) by (apply nth_error_Some; congruence).
  split; [|split].
  - rewrite nth_error_upd_ne by congruence. rewrite nth_error_upd_eq by exact La. congruence.
  - rewrite nth_error_upd_eq by (rewrite QuickP.upd_length; exact Lb). congruence.
  - intros p Pa Pb. rewrite !nth_error_upd_ne by congruence. reflexivity.
Qed.
Lemma swap_onh y K kc j i c0 n s a b u s' : (a = kc /\ b = j) \/ (a = j /\ b = kc) -> kc <> j -> ((kc < K)%nat -> (j < K)%nat) ->
  nth_error (s_abl s) j = Some (Some n) -> inv (onh y K kc i c0) s -> abl_swap a b s = Ok (u, s') -> inv (onh y K j i c0) s'.
Proof.
  intros Hab Ne Hk Hn H E.
  assert (W : exists L, relist L s s' /\ nth_error L kc = Some (Some n) /\ nth_error L j = Some (Some i) /\
    forall p, p <> kc -> p <> j -> nth_error L p = nth_error (s_abl s) p).
  { destruct H as (_ & _ & _ & _ & H & _). destruct Hab as [(-> & ->)|(-> & ->)].
    - apply swap_nth in E; [|exact Ne]. destruct E as (L & R & A & B & C). exists L. rewrite A, B. auto.
    - apply swap_nth in E; [|congruence]. destruct E as (L & R & A & B & C). exists L. rewrite A, B. auto. }
  destruct W as (L & R & La & Lb & Lp). destruct H as (V & S & A & B & C & D). split; [eapply vat_frame; [apply R|exact V]|].
  split; [eapply relist_stat; eassumption|].
  assert (Old : forall p x, nth_error L p = Some x -> p = kc /\ x = Some n \/ p = j /\ x = Some i \/ p <> kc /\ p <> j /\ nth_error (s_abl s) p = Some x).
  { intros p x Hp. destruct (Nat.eq_dec p kc) as [->|N1]; [left; split; congruence|]. destruct (Nat.eq_dec p j) as [->|N2]; [right; left; split; congruence|].
    right. right. rewrite Lp in Hp by assumption. auto. }
  split; [|split; [|split]].
  - eapply relist_All; [exact R|]. intros x Ix. apply In_nth_error in Ix. destruct Ix as (p & Hp). apply Old in Hp.
    destruct Hp as [(_ & [= ->])|[(_ & [= ->])|(_ & _ & Hp)]]; apply A; eapply nth_error_In; eassumption.
  - destruct R as (_ & Rb & Ra). intros p x Lt Np Hp. rewrite Ra in Hp. rewrite Rb. apply Old in Hp.
    destruct Hp as [(-> & [= ->])|[(-> & _)|(N1 & _ & Hp)]]; [|congruence|].
    + apply B with (p := j); [auto|congruence|exact Hn].
    + apply B with (p := p); [exact Lt|exact N1|exact Hp].
  - destruct R as (_ & _ & ->). exact Lb.
  - destruct R as (_ & -> & _). exact D.
Qed.
Definition gone (y : Z) (K kc : nat) (s : st) : Prop := All (QD y) s /\ forall p j, (p < K)%nat \/ p = kc ->
  nth_error (s_abl s) p = Some (Some j) -> nf j (bget (s_bounds s) j).
Lemma none_gone y K kc m i c0 s u1 s1 u2 s2 : inv (onh y K kc i c0) s -> abl_set m None s = Ok (u1, s1) -> abl_set kc None s1 = Ok (u2, s2) ->
  inv (gone y K kc) s2.
Proof.
  intros H E1 E2. assert (H1 : inv (fun s => All (QD y) s /\ PreX K kc nf s) s1).
  { eapply set_inv; [exact H|exact E1|]. destruct H as (_ & _ & A & B & _). split; [eapply set_All; [exact E1|discriminate|exact A]|].
    apply set_run in E1. destruct E1 as ((_ & Eb & Ea) & _). intros p j L N I. rewrite Ea in I. rewrite Eb. apply nth_upd in I.
    destruct I as [(_ & I)|(_ & I)]; [discriminate|eauto]. }
  eapply set_inv; [exact H1|exact E2|]. destruct H1 as (_ & _ & A & B). split; [eapply set_All; [exact E2|discriminate|exact A]|].
  apply set_run in E2. destruct E2 as ((_ & Eb & Ea) & _). intros p j L I. rewrite Ea in I. rewrite Eb. apply nth_upd in I.
  destruct I as [(_ & I)|(N & I)]; [discriminate|]. destruct L as [L|L]; [|congruence]. eauto.
Qed.
Lemma finish_inv y K kc i c0 e0 s u s' : inv (onh y K kc i c0) s -> nth_error (eds i) c0 = Some e0 -> is_horizontal e0 = true ->
  py (etop e0) = y -> finish_horizontal i kc s = Ok (u, s') -> inv (gone y K kc) s'.
Proof.
  intros H He Hh Hy E. unfold finish_horizontal in E. inv_bind E b s1 E1. apply bd_Ok in E1. destruct E1 as (-> & ->). inv_bind E u1 s1 E1.
  assert (Ri : Rec i) by (eapply QC_Rec; apply H; eapply nth_error_In; apply H).
  assert (H1 : inv (onh y K kc i c0) s1).
  { destruct (is_some (b_ring (bget (s_bounds s) i))); [|apply ret_Ok in E1; destruct E1 as (_ & ->); exact H].
    inv_bind E1 e s2 E2. apply edge_run in E2; [|apply H]. destruct E2 as (E2 & ->).
    eapply out_inv; [apply vk_add_point_to_ring|apply qt_add_point_to_ring|apply onh_quiet|exact H|exact E1].
    apply P_top. eapply in_eds; [exact Ri|exact E2]. }
  clear H E1. inv_bind E b s2 E2. apply bd_Ok in E2. destruct E2 as (-> & ->).
  assert (Eq : b_edges (bget (s_bounds s1) i) = eds i) by apply H1. rewrite Eq in E. destruct H1 as (V & S & A & B & C & D).
  assert (Qi : QD y i (bget (s_bounds s1) i)) by (apply A; eapply nth_error_In, C). destruct Qi as ((Ba & _) & _).
  destruct (Nat.ltb_spec (b_next (bget (s_bounds s1) i)) (length (eds i))) as [L|L].
  - eapply (next_step y i e0) in E; [|exact S|exact Ba|unfold cure; rewrite D; exact He|exact Hy|exact L].
    destruct E as (b' & f & M & Eb & Hf & Cf & HD & Hn). specialize (Hn Hh).
    assert (Nb : nf i b') by (intros g Hg; unfold cure in *; congruence).
    eapply (moved_inv i b' (fun _ => True)); [split; [exact V|split; [exact S|exact I]]|exact M|exact Eb|].
    split; [eapply moved_All; eassumption|]. destruct M as (_ & Ma & Mb). intros p j Lp Hj. rewrite Ma in Hj. rewrite Mb.
    destruct (Pos.eqb_spec i j) as [<-|Ne]; [exact Nb|]. destruct (Nat.eq_dec p kc) as [->|Np]; [congruence|].
    apply B with (p := p); [destruct Lp; [assumption|congruence]|exact Np|exact Hj].
  - eapply (set_inv _ _ (fun _ => True)); [split; [exact V|split; [exact S|exact I]]|exact E|].
    split; [eapply set_All; [exact E|discriminate|exact A]|].
    apply set_run in E. destruct E as ((_ & Eb & Ea) & _). intros p j Lp Hj. rewrite Ea in Hj. rewrite Eb. apply nth_upd in Hj.
    destruct Hj as [(_ & Hj)|(N & Hj)]; [discriminate|]. destruct Lp as [Lp|Lp]; [|congruence]. eauto.
Qed.
Section Level.
Context (fuel : nat) (op : operation_kind) (fa fb : fill_kind) (y : Z) (i : bid) (c0 : nat) (e0 : edge).
Hypothesis (He0 : nth_error (eds i) c0 = Some e0) (Hh0 : is_horizontal e0 = true) (Hy0 : py (etop e0) = y).
Definition next_shape (K kc j k' : nat) (out : option bool) (s' : st) : Prop :=
  match out with
  | Some true => inv (gone y K kc) s' /\ k' = kc
  | Some false => inv (onh y K k' i c0) s' /\ k' = kc
  | None => inv (onh y K k' i c0) s' /\ (k' = kc \/ k' = j)
  end.
Lemma level_Rec s K kc : onh y K kc i c0 s -> Rec i.
Proof. intros (A & _ & C & _). eapply QC_Rec, A. eapply nth_error_In, C. Qed.
Lemma level_edge s K kc e s' : inv (onh y K kc i c0) s -> current_edge i s = Ok (e, s') -> e = e0 /\ s' = s.
Proof. intros H E. apply edge_run in E; [|apply H]. destruct E as (E & ->). destruct H as (_ & _ & _ & _ & _ & D). rewrite D in E. split; congruence. Qed.
Lemma stop_same b e r (t : bool) (s s' : st) : ((if (r =? px (etop e)) && (b_next b <? length (b_edges b))%nat
                    then (ne <- lift (next_edge_of b) ;; ret (num_ltb (NF (eslope e)) (NF (eslope ne))))
                    else ret false) : prog bool) s = Ok (t, s') -> s' = s.
Proof.
  destruct (_ && _); intros E; [|apply ret_Ok in E; tauto]. inv_bind E ne s1 E1. apply lift_Ok in E1. destruct E1 as (_ & ->). apply ret_Ok in E. tauto.
Qed.
Lemma ltr_step_inv is_max m j K kc h sh s k' h' sh' out s' : kc <> j -> ((kc < K)%nat -> (j < K)%nat) -> inv (onh y K kc i c0) s ->
  ltr_step fuel op fa fb i y is_max m j (kc, h, sh) s = Ok ((k', h', sh', out), s') ->
  next_shape K kc j k' out s' /\ (sh' = false -> k' = kc /\ sh = false).
Proof.
  intros Ne Hk H E. unfold ltr_step in E. inv_bind E o s1 E1. apply get_run in E1. destruct E1 as (Eo & ->).
  destruct o as [n|]; [|apply ret_Ok in E; destruct E as (E & ->); injection E as -> -> -> ->; split; [split; auto|auto]].
  assert (Ri : Rec i) by (eapply level_Rec, H). assert (R0 : isrec e0) by (eapply in_eds; [exact Ri|exact He0]).
  inv_bind E hp s1 E1. apply gets_Ok in E1. destruct E1 as (-> & ->). inv_bind E nb s1 E1. apply bd_Ok in E1. destruct E1 as (-> & ->).
  assert (Pn : x_at y (b_cx (bget (s_bounds s) n))).
  { destruct H as (_ & _ & A & _). destruct (A n (nth_error_In _ _ Eo)) as ((_ & _ & Hp) & _). exact Hp. }
  inv_bind E e s1 E1. apply (level_edge _ K kc) in E1; [|exact H]. destruct E1 as (-> & ->).
  inv_bind E h1 s1 E1.
  assert (H1 : inv (onh y K kc i c0) s1) by (eapply out_inv; [apply vk_add_hp_ltr|apply qt_add_hp_ltr|apply onh_quiet|exact H|exact E1]).
  assert (A1 : s_abl s1 = s_abl s) by (apply qt_add_hp_ltr in E1; apply quiet_inv in E1; tauto).
  rewrite <- A1 in Eo. clear H E1 A1.
  inv_bind E fx s2 E2. apply lift_Ok in E2. destruct E2 as (_ & ->). inv_bind E gtb s2 E2. apply lift_Ok in E2. destruct E2 as (_ & ->).
  destruct gtb; [apply ret_Ok in E; destruct E as (E & ->); injection E as -> -> -> ->; split; [split; auto|auto]|].
  inv_bind E r s2 E2. apply lift_Ok in E2. destruct E2 as (Er & ->). inv_bind E b s2 E2. apply bd_Ok in E2. destruct E2 as (-> & ->).
  assert (Pq : P (Pt r y)) by (eapply level_point; [exact R0|exact Hh0|exact Hy0|exact Pn|exact Er]).
  inv_bind E stop s2 E2. apply stop_same in E2. subst s2.
  destruct stop; [apply ret_Ok in E; destruct E as (E & ->); injection E as -> -> -> ->; split; [split; auto|auto]|].
  inv_bind E u s2 E2.
  assert (H2 : inv (onh y K kc i c0) s2 /\ s_abl s2 = s_abl s1).
  { destruct (is_some _).
    - split; [eapply out_inv; [apply vk_add_point_to_ring; exact Pq|apply qt_add_point_to_ring|apply onh_quiet|exact H1|exact E2]|].
      apply qt_add_point_to_ring in E2. apply quiet_inv in E2. tauto.
    - apply ret_Ok in E2. destruct E2 as (_ & ->). auto. }
  destruct H2 as (H2 & A2). rewrite <- A2 in Eo. clear H1 E2 A2.
  destruct (is_max && (j =? m)%nat).
  - inv_bind E b1 s3 E3. apply bd_Ok in E3. destruct E3 as (-> & ->). inv_bind E b2 s3 E3. apply bd_Ok in E3. destruct E3 as (-> & ->).
    inv_bind E u1 s3 E3.
    assert (H3 : inv (onh y K kc i c0) s3).
    { destruct (_ && _).
      - eapply out_inv; [apply vk_add_lmax|apply qt_add_lmax|apply onh_quiet|exact H2|exact E3]. apply P_top, R0.
      - apply ret_Ok in E3. destruct E3 as (_ & ->). exact H2. }
    inv_bind E u2 s4 E4. inv_bind E u3 s5 E5. apply ret_Ok in E. destruct E as (E & ->). injection E as -> -> -> ->.
    split; [split; [|reflexivity]|auto]. eapply none_gone; [exact H3|exact E4|exact E5].
  - inv_bind E u1 s3 E3.
    assert (H3 : inv (onh y K kc i c0) s3) by (eapply out_inv; [apply vk_intersect_bounds; exact Pq|apply qt_intersect_bounds|apply onh_quiet|exact H2|exact E3]).
    assert (A3 : s_abl s3 = s_abl s2) by (apply qt_intersect_bounds in E3; apply quiet_inv in E3; tauto).
    rewrite <- A3 in Eo. inv_bind E u2 s4 E4. apply ret_Ok in E. destruct E as (E & ->). injection E as -> -> -> ->.
    split; [split; [|auto]|discriminate]. eapply (swap_onh y K kc j i c0 n); [left; split; reflexivity|exact Ne|exact Hk|exact Eo|exact H3|exact E4].
Qed.
Lemma rtl_step_inv is_max m j K kc h s k' h' out s' : kc <> j -> ((kc < K)%nat -> (j < K)%nat) -> inv (onh y K kc i c0) s ->
  rtl_step fuel op fa fb i y is_max m j (kc, h) s = Ok ((k', h', out), s') -> next_shape K kc j k' out s'.
Proof.
  intros Ne Hk H E. unfold rtl_step in E. inv_bind E o s1 E1. apply get_run in E1. destruct E1 as (Eo & ->).
  destruct o as [n|]; [|apply ret_Ok in E; destruct E as (E & ->); injection E as -> -> ->; split; auto].
  assert (Ri : Rec i) by (eapply level_Rec, H). assert (R0 : isrec e0) by (eapply in_eds; [exact Ri|exact He0]).
  inv_bind E nb s1 E1. apply bd_Ok in E1. destruct E1 as (-> & ->).
  assert (Pn : x_at y (b_cx (bget (s_bounds s) n))).
  { destruct H as (_ & _ & A & _). destruct (A n (nth_error_In _ _ Eo)) as ((_ & _ & Hp) & _). exact Hp. }
  inv_bind E e s1 E1. apply (level_edge _ K kc) in E1; [|exact H]. destruct E1 as (-> & ->).
  inv_bind E h1 s1 E1.
  assert (H1 : inv (onh y K kc i c0) s1) by (eapply out_inv; [apply vk_add_hp_rtl|apply qt_add_hp_rtl|apply onh_quiet|exact H|exact E1]).
  assert (A1 : s_abl s1 = s_abl s) by (apply qt_add_hp_rtl in E1; apply quiet_inv in E1; tauto).
  rewrite <- A1 in Eo. clear H E1 A1.
  inv_bind E fx s2 E2. apply lift_Ok in E2. destruct E2 as (_ & ->). inv_bind E gtb s2 E2. apply lift_Ok in E2. destruct E2 as (_ & ->).
  destruct gtb; [apply ret_Ok in E; destruct E as (E & ->); injection E as -> -> ->; split; auto|].
  inv_bind E r s2 E2. apply lift_Ok in E2. destruct E2 as (Er & ->). inv_bind E b s2 E2. apply bd_Ok in E2. destruct E2 as (-> & ->).
  assert (Pq : P (Pt r y)) by (eapply level_point; [exact R0|exact Hh0|exact Hy0|exact Pn|exact Er]).
  inv_bind E stop s2 E2. apply stop_same in E2. subst s2.
  destruct stop; [apply ret_Ok in E; destruct E as (E & ->); injection E as -> -> ->; split; auto|].
  inv_bind E u s2 E2.
  assert (H2 : inv (onh y K kc i c0) s2 /\ s_abl s2 = s_abl s1).
  { destruct (is_some _).
    - split; [eapply out_inv; [apply vk_add_point_to_ring; exact Pq|apply qt_add_point_to_ring|apply onh_quiet|exact H1|exact E2]|].
      apply qt_add_point_to_ring in E2. apply quiet_inv in E2. tauto.
    - apply ret_Ok in E2. destruct E2 as (_ & ->). auto. }
  destruct H2 as (H2 & A2). rewrite <- A2 in Eo. clear H1 E2 A2.
  destruct (is_max && (j =? m)%nat).
  - inv_bind E b1 s3 E3. apply bd_Ok in E3. destruct E3 as (-> & ->). inv_bind E b2 s3 E3. apply bd_Ok in E3. destruct E3 as (-> & ->).
    inv_bind E u1 s3 E3.
    assert (H3 : inv (onh y K kc i c0) s3).
    { destruct (_ && _).
      - eapply out_inv; [apply vk_add_lmax|apply qt_add_lmax|apply onh_quiet|exact H2|exact E3]. apply P_top, R0.
      - apply ret_Ok in E3. destruct E3 as (_ & ->). exact H2. }
    inv_bind E u2 s4 E4. inv_bind E u3 s5 E5. apply ret_Ok in E. destruct E as (E & ->). injection E as -> -> ->.
    split; [|reflexivity]. eapply none_gone; [exact H3|exact E4|exact E5].
  - inv_bind E u1 s3 E3.
    assert (H3 : inv (onh y K kc i c0) s3) by (eapply out_inv; [apply vk_intersect_bounds; exact Pq|apply qt_intersect_bounds|apply onh_quiet|exact H2|exact E3]).
    assert (A3 : s_abl s3 = s_abl s2) by (apply qt_intersect_bounds in E3; apply quiet_inv in E3; tauto).
    rewrite <- A3 in Eo. inv_bind E u2 s4 E4. apply ret_Ok in E. destruct E as (E & ->). injection E as -> -> ->.
    split; [|auto]. eapply (swap_onh y K kc j i c0 n); [right; split; reflexivity|exact Ne|exact Hk|exact Eo|exact H3|exact E4].
Qed.
Definition loop_shape (K k' : nat) (out : option bool) (s' : st) : Prop :=
  match out with Some true => inv (gone y K k') s' | _ => inv (onh y K k' i c0) s' end.
Lemma ltr_loop_inv is_max m K : forall len a kc h sh s k' h' sh' out s', (K <= kc)%nat -> (kc < a)%nat -> inv (onh y K kc i c0) s ->
  ltr_loop fuel op fa fb i y is_max m (seq a len) (kc, h, sh) s = Ok ((k', h', sh', out), s') ->
  loop_shape K k' out s' /\ (sh' = false -> k' = kc /\ sh = false).
Proof.
  induction len as [|len IH]; intros a kc h sh s k' h' sh' out s' L1 L2 H E; cbn [seq ltr_loop] in E.
  - apply ret_Ok in E. destruct E as (E & ->). injection E as -> -> -> ->. split; [exact H|auto].
  - inv_bind E r s1 E1. destruct r as [[[k1 h1] sh1] out1]. apply ltr_step_inv with (K := K) in E1; [|lia|lia|exact H].
    destruct E1 as (N1 & S1). cbn [fst snd] in E. destruct out1 as [[|]|].
    + apply ret_Ok in E. destruct E as (E & ->). injection E as -> -> -> ->. destruct N1 as (N1 & ->). split; [exact N1|exact S1].
    + apply ret_Ok in E. destruct E as (E & ->). injection E as -> -> -> ->. destruct N1 as (N1 & ->). split; [exact N1|exact S1].
    + destruct N1 as (N1 & Hk). eapply (IH (S a) k1) in E; [|lia|lia|exact N1]. destruct E as (E & Sx). split; [exact E|].
      intros F. destruct (Sx F) as (-> & ->). apply S1. reflexivity.
Qed.
Lemma rtl_loop_inv is_max m K : forall len kc h s k' h' out s', (len <= kc)%nat -> (kc < K)%nat -> inv (onh y K kc i c0) s ->
  rtl_loop fuel op fa fb i y is_max m (rev (seq 0 len)) (kc, h) s = Ok ((k', h', out), s') ->
  loop_shape K k' out s' /\ (k' < K)%nat.
Proof.
  induction len as [|len IH]; intros kc h s k' h' out s' L1 L2 H E.
  - cbn [seq rev rtl_loop] in E. apply ret_Ok in E. destruct E as (E & ->). injection E as -> -> ->. split; [exact H|exact L2].
  - rewrite seq_S, rev_app_distr in E. cbn [rev app Nat.add rtl_loop] in E.
    inv_bind E r s1 E1. destruct r as [[k1 h1] out1]. apply rtl_step_inv with (K := K) in E1; [|lia|lia|exact H].
    cbn [fst snd] in E. destruct out1 as [[|]|].
    + apply ret_Ok in E. destruct E as (E & ->). injection E as -> -> ->. destruct E1 as (N1 & ->). split; [exact N1|exact L2].
    + apply ret_Ok in E. destruct E as (E & ->). injection E as -> -> ->. destruct E1 as (N1 & ->). split; [exact N1|exact L2].
    + destruct E1 as (N1 & Hk). eapply (IH k1) in E; [exact E|lia|lia|exact N1].
Qed.
End Level.
Lemma gone_both y K kc k s : (forall p, (p < k)%nat -> (p < K)%nat \/ p = kc) -> inv (gone y K kc) s -> inv (both k (QD y) nf) s.
Proof. intros L (V & S & A & B). split; [exact V|]. split; [exact S|]. split; [exact A|]. intros p i Lp Hp. eapply B; [apply L, Lp|exact Hp]. Qed.
Lemma both_onh y K k i e s : inv (both k (QD y) nf) s -> nth_error (s_abl s) k = Some (Some i) ->
  (forall p, (p < K)%nat -> p <> k -> (p < k)%nat) -> cure i (bget (s_bounds s) i) e -> inv (onh y K k i (b_cur (bget (s_bounds s) i))) s.
Proof.
  intros (V & S & A & B) Hk L He. split; [exact V|]. split; [exact S|]. split; [exact A|]. split; [|split; [exact Hk|reflexivity]].
  intros p j Lp Np Hp. apply B with (p := p); [apply L; assumption|exact Hp].
Qed.
Lemma horizontal_inv fuel op fa fb y k i e s k' s' : inv (both k (QD y) nf) s -> nth_error (s_abl s) k = Some (Some i) ->
  cure i (bget (s_bounds s) i) e -> is_horizontal e = true -> process_horizontal fuel op fa fb y k s = Ok (k', s') ->
  inv (both k' (QD y) nf) s'.
Proof.
  intros H Hk He Hh E. unfold process_horizontal in E. inv_bind E i' s1 E1. apply bound_run in E1. destruct E1 as (E1 & ->).
  assert (i' = i) by congruence. subst i'. clear E1. inv_bind E e' s1 E1. apply edge_run in E1; [|apply H]. destruct E1 as (E1 & ->).
  assert (e' = e) by (unfold cure in *; congruence). subst e'. clear E1.
  assert (Qi : QD y i (bget (s_bounds s) i)) by (apply H; eapply nth_error_In, Hk).
  assert (Hy : py (etop e) = y) by (destruct Qi as ((_ & Hz & _) & _); apply Hz; assumption).
  destruct (px (ebot e) <? px (etop e)).
  - unfold process_horizontal_left_to_right in E. inv_bind E i' s1 E1. apply bound_run in E1. destruct E1 as (E1 & ->).
    assert (i' = i) by congruence. subst i'. clear E1. inv_bind E mx s1 E1. apply maxima_same in E1. subst s1.
    inv_bind E s0 s1 E1. apply get_Ok in E1. destruct E1 as (-> & ->). inv_bind E b s1 E1. apply bd_Ok in E1. destruct E1 as (-> & ->).
    inv_bind E e' s1 E1. apply edge_run in E1; [|apply H]. destruct E1 as (_ & ->). inv_bind E r s1 E1. destruct r as [[[k1 h1] sh] out].
    unfold range in E1. eapply (ltr_loop_inv fuel op fa fb y i (b_cur (bget (s_bounds s) i)) e He Hh Hy _ _ k) in E1;
      [|lia|lia|eapply both_onh; [exact H|exact Hk|lia|exact He]].
    destruct E1 as (L1 & S1).
    assert (Res : forall t, inv (gone y k k1) t -> inv (both (if sh then k else S k) (QD y) nf) t).
    { intros t Ht. eapply gone_both; [|exact Ht]. destruct sh; [intros; lia|]. destruct (S1 eq_refl) as (-> & _). intros; lia. }
    assert (Fin : inv (onh y k k1 i (b_cur (bget (s_bounds s) i))) s1 ->
      ((b <- bd i ;;
        hp <- gets s_hp ;;
        (if is_some (b_ring b) then
           (e <- current_edge i ;;
            add_hot_pixels_ltr (S (length hp)) (fun q =>
              Ok (negb (py q =? y) || (px q >=? px (etop e)))) i h1 ;; ret tt)
         else ret tt) ;;
        finish_horizontal i k1 ;;
        ret (if sh then k else S k)) : prog nat) s1 = Ok (k', s') -> inv (both k' (QD y) nf) s').
    { clear E. intros H1 E. inv_bind E b s2 E2. apply bd_Ok in E2. destruct E2 as (-> & ->). inv_bind E hp s2 E2. apply gets_Ok in E2. destruct E2 as (-> & ->).
      inv_bind E u s2 E2. assert (H2 : inv (onh y k k1 i (b_cur (bget (s_bounds s) i))) s2).
      { destruct (is_some (b_ring (bget (s_bounds s1) i))); [|apply ret_Ok in E2; destruct E2 as (_ & ->); exact H1]. inv_bind E2 ee s3 E3.
        apply edge_run in E3; [|apply H1]. destruct E3 as (_ & ->). inv_bind E2 h2 s3 E3. apply ret_Ok in E2. destruct E2 as (_ & ->).
        eapply out_inv; [apply vk_add_hp_ltr|apply qt_add_hp_ltr|apply onh_quiet|exact H1|exact E3]. }
      inv_bind E u1 s3 E3. apply ret_Ok in E. destruct E as (-> & ->). apply Res. eapply finish_inv; [exact H2|exact He|exact Hh|exact Hy|exact E3]. }
    destruct out as [[|]|].
    + apply ret_Ok in E. destruct E as (-> & ->). apply Res, L1.
    + apply Fin; [exact L1|exact E].
    + apply Fin; [exact L1|exact E].
  - unfold process_horizontal_right_to_left in E. inv_bind E i' s1 E1. apply bound_run in E1. destruct E1 as (E1 & ->).
    assert (i' = i) by congruence. subst i'. clear E1. inv_bind E mx s1 E1. apply maxima_same in E1. subst s1.
    inv_bind E s0 s1 E1. apply get_Ok in E1. destruct E1 as (-> & ->). inv_bind E b s1 E1. apply bd_Ok in E1. destruct E1 as (-> & ->).
    inv_bind E e' s1 E1. apply edge_run in E1; [|apply H]. destruct E1 as (_ & ->). inv_bind E r s1 E1. destruct r as [[k1 h1] out].
    unfold range in E1. rewrite Nat.sub_0_r in E1. eapply (rtl_loop_inv fuel op fa fb y i (b_cur (bget (s_bounds s) i)) e He Hh Hy _ _ (S k)) in E1;
      [|lia|lia|eapply both_onh; [exact H|exact Hk|lia|exact He]].
    destruct E1 as (L1 & S1).
    assert (Res : forall t, inv (gone y (S k) k1) t -> inv (both (S k) (QD y) nf) t) by (intros t Ht; eapply gone_both; [|exact Ht]; auto).
    assert (Fin : inv (onh y (S k) k1 i (b_cur (bget (s_bounds s) i))) s1 ->
      ((b <- bd i ;;
        (if is_some (b_ring b) then
           (e <- current_edge i ;;
            add_hot_pixels_rtl (fun q =>
              Ok (negb (py q =? y) || (px q <=? px (etop e)))) i h1 ;; ret tt)
         else ret tt) ;;
        finish_horizontal i k1 ;;
        ret (S k)) : prog nat) s1 = Ok (k', s') -> inv (both k' (QD y) nf) s').
    { clear E. intros H1 E. inv_bind E b s2 E2. apply bd_Ok in E2. destruct E2 as (-> & ->).
      inv_bind E u s2 E2. assert (H2 : inv (onh y (S k) k1 i (b_cur (bget (s_bounds s) i))) s2).
      { destruct (is_some (b_ring (bget (s_bounds s1) i))); [|apply ret_Ok in E2; destruct E2 as (_ & ->); exact H1]. inv_bind E2 ee s3 E3.
        apply edge_run in E3; [|apply H1]. destruct E3 as (_ & ->). inv_bind E2 h2 s3 E3. apply ret_Ok in E2. destruct E2 as (_ & ->).
        eapply out_inv; [apply vk_add_hp_rtl|apply qt_add_hp_rtl|apply onh_quiet|exact H1|exact E3]. }
      inv_bind E u1 s3 E3. apply ret_Ok in E. destruct E as (-> & ->). apply Res. eapply finish_inv; [exact H2|exact He|exact Hh|exact Hy|exact E3]. }
    destruct out as [[|]|].
    + apply ret_Ok in E. destruct E as (-> & ->). apply Res, L1.
    + apply Fin; [exact L1|exact E].
    + apply Fin; [exact L1|exact E].
Qed.
Definition QE (y : Z) : bid -> bound -> Prop := qand (QD y) nf.
Lemma tri_horizontals fuel op fa fb y : tri (inv (All (QD y))) (process_horizontals fuel op fa fb y) (fun _ => inv (All (QE y))).
Proof.
  unfold process_horizontals. eapply tri_bind; [|intros ?; apply tri_compact].
  eapply tri_pre; [apply tri_loop with (Inv := fun k => inv (both k (QD y) nf))|].
  2: { intros s (V & S & A). split; [exact V|]. split; [exact S|]. split; [exact A|]. intros p i L. lia. }
  intros k s r s' H E. inv_bind E abl s1 E1. apply gets_Ok in E1. destruct E1 as (-> & ->).
  destruct (nth_error (s_abl s) k) as [[i|]|] eqn:En.
  - inv_bind E e s1 E1. apply edge_run in E1; [|apply H]. destruct E1 as (E1 & ->). destruct (is_horizontal e) eqn:Hh.
    + inv_bind E k' s1 E2. apply ret_Ok in E. destruct E as (-> & ->). eapply horizontal_inv; [exact H|exact En|exact E1|exact Hh|exact E2].
    + apply ret_Ok in E. destruct E as (-> & ->). destruct H as (V & S & A & B). split; [exact V|]. split; [exact S|]. split; [exact A|].
      intros p j L Hp. destruct (Nat.eq_dec p k) as [->|N]; [|apply B with (p := p); [lia|exact Hp]]. rewrite En in Hp. injection Hp as <-.
      intros g Hg. unfold cure in Hg. congruence.
  - apply ret_Ok in E. destruct E as (-> & ->). destruct H as (V & S & A & B). split; [exact V|]. split; [exact S|]. split; [exact A|].
    intros p j L Hp. destruct (Nat.eq_dec p k) as [->|N]; [congruence|]. apply B with (p := p); [lia|exact Hp].
  - apply ret_Ok in E. destruct E as (-> & ->). destruct H as (V & S & A & B). split; [exact V|]. split; [exact S|].
    intros i I. split; [apply A, I|]. apply In_nth_error in I. destruct I as (p & Hp). apply B with (p := p); [|exact Hp].
    apply nth_error_None in En. assert (p < length (s_abl s))%nat by (apply nth_error_Some; congruence). lia.
Qed.
Lemma QE_qst y : qst (QE y). Proof. apply qand_qst; [apply QD_qst|apply nf_qst]. Qed.
Lemma pass_inv y ids : forall l s u s', (forall i, In i l -> In i ids) -> inv (fun s => All (QE y) s /\ s_abl s = map Some ids) s ->
  forM l (fun i =>
     (im <- is_intermediate i y ;;
      if (im : bool) then
        (b <- bd i ;;
         (if is_some (b_ring b)
          then (e <- current_edge i ;; add_point_to_ring i (etop e)) else ret tt) ;;
         to_next_edge i)
      else ret tt)) s = Ok (u, s') -> inv (fun s => All (QE y) s /\ s_abl s = map Some ids) s'.
Proof.
  induction l as [|i l IH]; intros s u s' Sub H E; cbn [forM] in E; [apply ret_Ok in E; destruct E as (_ & ->); exact H|].
  inv_bind E u1 s1 E1. eapply (IH s1); [intros; apply Sub; right; assumption| |exact E]. clear IH E.
  inv_bind E1 im s2 E2. apply inter_run in E2; [|apply H]. destruct E2 as (-> & It & _).
  destruct im; [|apply ret_Ok in E1; destruct E1 as (_ & ->); exact H]. destruct (It eq_refl) as (Ln & e & He & Ye). clear It.
  inv_bind E1 b s2 E2. apply bd_Ok in E2. destruct E2 as (-> & ->). inv_bind E1 u2 s2 E2.
  assert (Qi : QE y i (bget (s_bounds s) i)).
  { destruct H as (_ & _ & A & Ea). apply A. rewrite Ea. apply in_map, Sub. left. reflexivity. }
  destruct (Qi) as (((Ba & _ & _) & Pi) & Ni). destruct (Ba) as (Ri & _ & _).
  set (J := fun s => All (QE y) s /\ s_abl s = map Some ids) in *.
  assert (JQ : jst J).
  { intros t t' R (A & B). split; [eapply All_quiet; [apply QE_qst|exact R|exact A]|]. apply quiet_inv in R. destruct R as (_ & ->). exact B. }
  assert (H2 : inv J s2 /\ quiet s s2).
  { destruct (is_some _).
    - inv_bind E2 e' s3 E3. apply edge_run in E3; [|apply H]. destruct E3 as (E3 & ->).
      split; [eapply out_inv; [apply vk_add_point_to_ring|apply qt_add_point_to_ring|exact JQ|exact H|exact E2]|eapply qt_add_point_to_ring, E2].
      apply P_top. eapply in_eds; [exact Ri|exact E3].
    - apply ret_Ok in E2. destruct E2 as (_ & ->). split; [exact H|apply R_refl]. }
  destruct H2 as (H2 & Q2). apply quiet_inv in Q2. destruct Q2 as (Q2 & A2). specialize (Q2 i).
  pose proof (base_qst i _ _ Q2 Ba) as Ba2. pose proof (pr_qst y i _ _ Q2 Pi) as Pi2. pose proof (nf_qst i _ _ Q2 Ni) as Ni2.
  unfold qcore in Q2. injection Q2 as _ Q2a Q2b _ _ _ _ _.
  assert (He2 : cure i (bget (s_bounds s2) i) e) by (unfold cure in *; rewrite Q2a; exact He).
  eapply (next_step y i e) in E1; [|apply H2|exact Ba2|exact He2|exact Ye|rewrite Q2b; exact Ln].
  destruct E1 as (b' & f & M & Eb & Hf & Cf & HD & _).
  assert (Nb : nf i b').
  { intros g Hg. assert (g = f) by (unfold cure in *; congruence). subst g. destruct (is_horizontal f) eqn:Hh; [|reflexivity].
    destruct (Pi2 e f He2 Hf Hh (Ni2 e He2) Ye). }
  eapply moved_inv; [exact H2|exact M|exact Eb|]. split; [eapply moved_All; [exact M|split; [exact HD|exact Nb]|apply H2]|].
  destruct M as (_ & -> & _). apply H2.
Qed.

(** *** Local minima *)
Lemma init_run y i side s u s' : stat s -> eds i <> [] -> Rec i -> (forall e, nth_error (eds i) 0 = Some e -> py (ebot e) = y) ->
  init_bound i side s = Ok (u, s') -> exists b' e, moved i b' s s' /\ b_edges b' = eds i /\ nth_error (eds i) 0 = Some e /\ cure i b' e /\ QD y i b'.
Proof.
  intros S Ne Ri Hy E. unfold init_bound in E. inv_bind E b s1 E1. apply bd_Ok in E1. destruct E1 as (-> & ->). rewrite S in E.
  destruct (eds i) as [|e l] eqn:El; [congruence|]. inv_bind E x s1 E1. apply lift_Ok in E1. destruct E1 as (E1 & ->).
  apply moved_upd in E. eexists _, e. split; [exact E|]. split; [rewrite <- El; apply S|]. split; [reflexivity|].
  specialize (Hy e eq_refl). assert (C : cure i (bget (s_bounds s) i <| b_cur := 0%nat |> <| b_next := clip_index (bget (s_bounds s) i <| b_cur := 0%nat |>) 1 |>
                                <| b_cx := NF x |> <| b_wc := 0 |> <| b_owc := 0 |>
                                <| b_side := side |> <| b_ring := None |>) e) by (unfold cure; cbn; rewrite El; reflexivity).
  assert (Ie : In e (eds i)) by (rewrite El; left; reflexivity). pose proof (hor_iff i e Ri Ie) as Hi.
  split; [exact C|]. assert (U : forall g, cure i (bget (s_bounds s) i <| b_cur := 0%nat |> <| b_next := clip_index (bget (s_bounds s) i <| b_cur := 0%nat |>) 1 |>
                                <| b_cx := NF x |> <| b_wc := 0 |> <| b_owc := 0 |>
                                <| b_side := side |> <| b_ring := None |>) g -> g = e) by (unfold cure in *; intros; congruence).
  split; [split; [|split]|].
  - split; [exact Ri|]. cbn. rewrite El. split; [cbn; lia|]. unfold clip_index. cbn. rewrite S, El. cbn. destruct (length l); reflexivity.
  - intros g Hg Hh. apply U in Hg. subst g. apply Hi in Hh. congruence.
  - red. cbn. exists e. split; [exists i; auto|]. left. exists x. split; [reflexivity|]. right. split; [congruence|exact E1].
  - intros g h Hg _ _ Hh Y. apply U in Hg. subst g. assert (is_horizontal e = true) by (apply Hi; congruence). congruence.
Qed.
Lemma vk_winding a b k : vk P (set_winding_count a b k).
Proof.
  unfold set_winding_count. apply vk_bind; [apply vk_bind; [apply vk_bind; [apply vk_gets|intros; apply vk_lift]|intros; apply vk_deref]|].
  intros i. apply vk_bind; [apply tri_get; auto|]. intros s. apply vk_bind; [apply vk_bd|]. intros x. destruct (winding_counts _ _ _ _ _). apply vk_upd_bound.
Qed.
Lemma qt_winding a b k : pres quiet (set_winding_count a b k).
Proof.
  unfold set_winding_count. apply pres_bind; [exact _|apply qt_abl_bound|]. intros i. apply pres_bind; [exact _|intros s r s' E; apply get_Ok in E; destruct E as (_ & ->); apply R_refl|].
  intros s. apply pres_bind; [exact _|apply qt_bd|]. intros x. destruct (winding_counts _ _ _ _ _). qt_prim.
Qed.
Lemma insert_lm_inv op fa fb (Q : bid -> bound -> Prop) l r s u s' : qst Q -> (forall i b, Q i b -> Rec i) -> inv (All Q) s ->
  Q l (bget (s_bounds s) l) -> Q r (bget (s_bounds s) r) -> insert_lm_left_and_right_bound op fa fb l r s = Ok (u, s') -> inv (All Q) s'.
Proof.
  intros HQ HR H Hl Hr E. pose proof (All_quiet Q HQ) as JQ. unfold insert_lm_left_and_right_bound in E. inv_bind E k s1 E1.
  pose proof (insert_inv Q l r s k s1 H Hl Hr E1) as H1. inv_bind E u1 s2 E2.
  assert (H2 : inv (All Q) s2) by (eapply out_inv; [apply vk_winding|apply qt_winding|exact JQ|exact H1|exact E2]). clear E1 E2 H1.
  inv_bind E i s3 E3. apply bound_run in E3. destruct E3 as (Ei & ->). inv_bind E j s3 E3. apply bound_run in E3. destruct E3 as (Ej & ->).
  assert (Ri : Rec i) by (eapply HR, H2, nth_error_In, Ei).
  inv_bind E bi s3 E3. apply bd_Ok in E3. destruct E3 as (-> & ->). inv_bind E u3 s3 E3.
  assert (H3 : inv (All Q) s3) by (eapply out_inv; [| | |exact H2|exact E3]; [apply vk_upd_bound|qt_prim|exact JQ]). clear E3.
  inv_bind E lb s4 E4. apply bd_Ok in E4. destruct E4 as (-> & ->). inv_bind E u4 s4 E4.
  assert (H4 : inv (All Q) s4).
  { destruct (is_contributing _ _ _ _ _ _); [|apply ret_Ok in E4; destruct E4 as (_ & ->); exact H3].
    inv_bind E4 e s5 E5. apply edge_run in E5; [|apply H3]. destruct E5 as (E5 & ->).
    eapply out_inv; [apply vk_add_lmin|apply qt_add_lmin|exact JQ|exact H3|exact E4]. apply P_bot. eapply in_eds; [exact Ri|exact E5]. }
  inv_bind E e s5 E5. apply edge_run in E5; [|apply H4]. destruct E5 as (_ & ->). inv_bind E u5 s5 E5.
  eapply tri_insort in E5; [|apply All_jab|exact H4]. inv_bind E f s6 E6. apply edge_run in E6; [|apply E5]. destruct E6 as (_ & ->).
  destruct (is_horizontal f); [apply ret_Ok in E; destruct E as (_ & ->); exact E5|]. eapply tri_insort in E; [exact E|apply All_jab|exact E5].
Qed.
Lemma insert_one_inv op fa fb y m (Q : bid -> bound -> Prop) s u s' : qst Q -> (forall i b, Q i b -> Rec i) -> min_ok m -> lm_y m = y ->
  (forall i b e, cure i b e -> QD y i b -> (lm_hor m = false -> is_horizontal e = false) -> Q i b) ->
  inv (All Q) s -> (initialize m ;; insert_lm_left_and_right_bound op fa fb (lm_left m) (lm_right m)) s = Ok (u, s') -> inv (All Q) s'.
Proof.
  intros HQ HR (Rl & Rr & Hl & Hr & Nl & Nr) Y New H E. inv_bind E u1 s1 E1. unfold initialize in E1. inv_bind E1 u0 s0 E0.
  apply (init_run y) in E0; [|apply H|exact Nl|exact Rl|intros e He; destruct (Hl e He); congruence]. destruct E0 as (b1 & e1 & M1 & Eb1 & F1 & C1 & D1).
  assert (Q1 : Q (lm_left m) b1) by (eapply New; [exact C1|exact D1|]; intros _; apply Hl, F1).
  assert (H1 : inv (All Q) s0) by (eapply moved_inv; [exact H|exact M1|exact Eb1|]; eapply moved_All; [exact M1|exact Q1|apply H]).
  apply (init_run y) in E1; [|apply H1|exact Nr|exact Rr|intros e He; destruct (Hr e He); congruence]. destruct E1 as (b2 & e2 & M2 & Eb2 & F2 & C2 & D2).
  assert (Q2 : Q (lm_right m) b2).
  { eapply New; [exact C2|exact D2|]. intros Hf. destruct (Hr e2 F2) as (_ & Hh). destruct (is_horizontal e2); [|reflexivity]. rewrite Hh in Hf; auto. }
  assert (H2 : inv (All Q) s1) by (eapply moved_inv; [exact H1|exact M2|exact Eb2|]; eapply moved_All; [exact M2|exact Q2|apply H1]).
  eapply insert_lm_inv; [exact HQ|exact HR|exact H2| | |exact E].
  - destruct M2 as (_ & _ & Mb). rewrite Mb. destruct (Pos.eqb_spec (lm_right m) (lm_left m)) as [Eq|_]; [rewrite <- Eq; exact Q2|].
    rewrite (moved_self _ _ _ _ M1). exact Q1.
  - rewrite (moved_self _ _ _ _ M2). exact Q2.
Qed.
Definition stopped (y : Z) (ms : list local_minimum) (k : nat) : Prop := forall m, nth_error ms k = Some m -> lm_y m = y -> lm_hor m = false.
Lemma insert_true_inv fuel op fa fb y ms : Forall min_ok ms -> forall k s k' s', inv (All (QD y)) s ->
  insert_local_minima fuel op fa fb true y ms k s = Ok (k', s') -> inv (All (QD y)) s' /\ stopped y ms k'.
Proof.
  intros F. unfold insert_local_minima. induction fuel as [|fuel IH]; intros k s k' s' H E; [discriminate|]. cbn [loopM] in E. inv_bind E r s1 E1.
  destruct (nth_error ms k) as [m|] eqn:Em.
  - destruct ((lm_y m =? y) && (negb true || lm_hor m)) eqn:C.
    + apply andb_prop in C. destruct C as (Y & _). apply Z.eqb_eq in Y.
      inv_bind E1 u0 s0 E0. inv_bind E1 u s2 E2'. apply ret_Ok in E1. destruct E1 as (-> & ->).
      assert (E2 : (initialize m ;; insert_lm_left_and_right_bound op fa fb (lm_left m) (lm_right m)) s = Ok (u, s2)) by (unfold bind; rewrite E0; exact E2').
      eapply (insert_one_inv op fa fb y m (QD y)) in E2; [eapply IH; [exact E2|exact E]|apply QD_qst|intros i b (Hc & _); eapply QC_Rec, Hc| |exact Y|auto|exact H].
      rewrite Forall_forall in F. apply F. eapply nth_error_In, Em.
    + apply ret_Ok in E1. destruct E1 as (-> & ->). apply ret_Ok in E. destruct E as (-> & ->). split; [exact H|].
      intros m' Em' Y. assert (m' = m) by congruence. subst m'. rewrite Y, Z.eqb_refl in C. exact C.
  - apply ret_Ok in E1. destruct E1 as (-> & ->). apply ret_Ok in E. destruct E as (-> & ->). split; [exact H|]. intros m' Em'. congruence.
Qed.
Lemma insert_false_inv fuel op fa fb y ms k0 : Forall min_ok ms -> stopped y ms k0 ->
  (forall p q a b, (p < q)%nat -> nth_error ms p = Some a -> nth_error ms q = Some b -> lm_lt a b = false) ->
  forall k s k' s', (k0 <= k)%nat -> ((k0 < k)%nat -> exists m0, nth_error ms k0 = Some m0 /\ lm_y m0 = y) -> inv (All (QE y)) s ->
  insert_local_minima fuel op fa fb false y ms k s = Ok (k', s') -> inv (All (QE y)) s'.
Proof.
  intros F St So. unfold insert_local_minima. induction fuel as [|fuel IH]; intros k s k' s' L Lk H E; [discriminate|]. cbn [loopM] in E. inv_bind E r s1 E1.
  destruct (nth_error ms k) as [m|] eqn:Em.
  - destruct ((lm_y m =? y) && (negb false || lm_hor m)) eqn:C.
    + apply andb_prop in C. destruct C as (Y & _). apply Z.eqb_eq in Y.
      assert (Nh : lm_hor m = false).
      { destruct (Nat.eq_dec k k0) as [->|N]; [eapply St; eassumption|]. destruct (Lk ltac:(lia)) as (m0 & E0 & Y0).
        pose proof (So k0 k m0 m ltac:(lia) E0 Em) as Hlt. pose proof (St m0 E0 Y0) as H0. unfold lm_lt in Hlt.
        rewrite Y, Y0, Z.eqb_refl, H0 in Hlt. destruct (lm_hor m); [|reflexivity]. cbn in Hlt. rewrite ?orb_true_r in Hlt. discriminate. }
      inv_bind E1 u0 s0 E0. inv_bind E1 u s2 E2'. apply ret_Ok in E1. destruct E1 as (-> & ->).
      assert (E2 : (initialize m ;; insert_lm_left_and_right_bound op fa fb (lm_left m) (lm_right m)) s = Ok (u, s2)) by (unfold bind; rewrite E0; exact E2').
      eapply (insert_one_inv op fa fb y m (QE y)) in E2; [eapply IH; [| |exact E2|exact E]|apply QE_qst|intros i b ((Hc & _) & _); eapply QC_Rec, Hc| |exact Y| |exact H].
      * lia.
      * intros _. destruct (Nat.eq_dec k k0) as [->|N]; [eauto|]. apply Lk. lia.
      * rewrite Forall_forall in F. apply F. eapply nth_error_In, Em.
      * intros i b e He Hd Hh. split; [exact Hd|]. intros g Hg. assert (g = e) by (unfold cure in *; congruence). subst g. auto.
    + apply ret_Ok in E1. destruct E1 as (-> & ->). apply ret_Ok in E. destruct E as (-> & ->). exact H.
  - apply ret_Ok in E1. destruct E1 as (-> & ->). apply ret_Ok in E. destruct E as (-> & ->). exact H.
Qed.
Lemma edges_inv fuel op fa fb y ms k s k' s' : Forall min_ok ms -> inv (All (QB y)) s ->
  process_edges_at_top_of_scanbeam fuel op fa fb y ms k s = Ok (k', s') -> inv (All (QE y)) s' /\ stopped y ms k'.
Proof.
  intros F H E. unfold process_edges_at_top_of_scanbeam in E. inv_bind E u s1 E1.
  assert (H1 : inv (All (QD y)) s1).
  { revert E1. eapply (tri_loop fuel _ (fun k => inv (both k (QC y) (pr y))) (fun _ => inv (All (QD y)))).
    2: { destruct H as (V & S & A). split; [exact V|]. split; [exact S|]. split; [intros i I; apply QB_QC, A, I|]. intros p i L. lia. }
    clear - chain hor_iff. intros x s r s' H E. inv_bind E abl s1 E1. apply gets_Ok in E1. destruct E1 as (-> & ->).
    destruct (nth_error (s_abl s) x) as [[i|]|] eqn:En.
    - inv_bind E x' s1 E1. apply ret_Ok in E. destruct E as (-> & ->). eapply top_inv; [exact H|exact En|exact E1].
    - apply ret_Ok in E. destruct E as (-> & ->). destruct H as (V & S & A & B). split; [exact V|]. split; [exact S|]. split; [exact A|].
      intros p j L Hp. destruct (Nat.eq_dec p x) as [->|N]; [congruence|]. apply B with (p := p); [lia|exact Hp].
    - apply ret_Ok in E. destruct E as (-> & ->). destruct H as (V & S & A & B). split; [exact V|]. split; [exact S|].
      intros i I. split; [apply A, I|]. apply In_nth_error in I. destruct I as (p & Hp). apply B with (p := p); [|exact Hp].
      apply nth_error_None in En. assert (p < length (s_abl s))%nat by (apply nth_error_Some; congruence). lia. }
  inv_bind E u2 s2 E2. eapply tri_compact in E2; [|exact H1]. inv_bind E k1 s3 E3. eapply insert_true_inv in E3; [|exact F|exact E2].
  destruct E3 as (H3 & St). inv_bind E u4 s4 E4. eapply tri_horizontals in E4; [|exact H3]. inv_bind E ids s5 E5. apply ids_run in E5.
  destruct E5 as (E5 & ->). inv_bind E u6 s6 E6. apply ret_Ok in E. destruct E as (-> & ->). split; [|exact St].
  eapply (pass_inv y ids) in E6; [eapply inv_weak; [|exact E6]; intros (A & _); exact A|auto|].
  destruct E4 as (V & S & A). split; [exact V|]. split; [exact S|]. split; [exact A|exact E5].
Qed.
Lemma lm_sorted l p q a b : (p < q)%nat -> nth_error (pure_sort_rev lm_lt l) p = Some a -> nth_error (pure_sort_rev lm_lt l) q = Some b -> lm_lt a b = false.
Proof.
  intros L Ha Hb. destruct (pure_sort_rev_spec lm_lt) with (l := l) as (_ & So).
  - intros x z. unfold lm_lt. destruct (lm_hor x), (lm_hor z); lia.
  - intros x z w. unfold lm_lt. destruct (lm_hor x), (lm_hor z), (lm_hor w); lia.
  - revert p q L Ha Hb. induction So as [|x r So IH Fx]; intros p q L Ha Hb; [destruct p; discriminate|].
    destruct q as [|q]; [lia|]. destruct p as [|p]; cbn in Ha, Hb.
    + injection Ha as ->. rewrite Forall_forall in Fx. apply Fx. eapply nth_error_In, Hb.
    + eapply (IH p q); [lia|exact Ha|exact Hb].
Qed.
Lemma tri_vatti fuel op fa fb minimums : Forall min_ok minimums ->
  tri (inv (fun _ => True)) (execute_vatti fuel op fa fb minimums) (fun _ => inv (fun _ => True)).
Proof.
  intros F. unfold execute_vatti. set (ms := pure_sort_rev lm_lt minimums).
  assert (Fm : Forall min_ok ms) by (eapply Permutation_Forall; [apply pure_sort_rev_perm|exact F]).
  eapply tri_bind with (Q := fun _ => inv (All QA)).
  { intros s a s' (V & S & _) E. apply modify_Ok in E. subst s'. split; [eapply vat_frame; [|exact V]; repeat split|]. split; [exact S|]. intros i []. }
  intros ?. eapply tri_post with (Q' := fun _ => inv (All QA)); [|intros b0 t; apply inv_weak; auto].
  apply tri_loop with (Inv := fun _ => inv (All QA)). intros [y k]. eapply tri_bind; [apply tri_pending|]. intros []; [|apply tri_ret; auto].
  eapply tri_bind; [apply tri_pop, All_jab|]. intros y'. cbv beta.
  eapply tri_bind; [apply tri_intersections|]. intros ?. cbv beta.
  eapply tri_bind; [apply tri_hpi, All_jab|]. intros ?. cbv beta.
  intros s r s' H E. inv_bind E k1 s1 E1. eapply edges_inv in E1; [|exact Fm|exact H]. destruct E1 as (H1 & St).
  inv_bind E k2 s2 E2. apply ret_Ok in E. destruct E as (-> & ->).
  eapply (insert_false_inv fuel op fa fb y' ms k1) in E2; [|exact Fm|exact St|intros ? ? ? ?; apply lm_sorted|lia|lia|exact H1].
  eapply All_imp; [|exact E2]. intros i b (((Hb & _) & _) & Hn). split; assumption.
Qed.
End Origin.
