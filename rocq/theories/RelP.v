(** * Two runs on the same input

    A relational logic for two executions of the sweep whose bounds carry the
    same recorded input (edges, winding delta, polygon kind, maximum partner) but
    possibly other identities and other left-over scratch values. *)
From Coq Require Import ZArith List Bool Lia FMapPositive.
From Coq Require Import Floats.SpecFloat.
From RecordUpdate Require Import RecordSet.
From Verif Require Import Py Monad Utils Geometry LinearRingM BoundM LocalMinimumM StateM
     PointNodeM RingM SweepM BlindP SweepFrameP.
Import ListNotations RecordSetNotations.
Local Open Scope m_scope.

(** ** Related answers *)
Definition orel {A A' S S'} (Q : A -> S -> A' -> S' -> Prop) (r : res (A * S)) (r' : res (A' * S')) : Prop :=
  match r, r' with
  | Ok (a, s), Ok (a', s') => Q a s a' s'
  | Raise e, Raise e' => e = e'
  | NoFuel, NoFuel => True
  | _, _ => False
  end.
Lemma orel_imp {A A' S S'} (Q Q' : A -> S -> A' -> S' -> Prop) r r' :
  (forall a s a' s', Q a s a' s' -> Q' a s a' s') -> orel Q r r' -> orel Q' r r'.
Proof. intros H. destruct r as [[a s]|e|], r' as [[a' s']|e'|]; cbn; auto. Qed.

(** ** Lists *)
Lemma F2_app {A B} (V : A -> B -> Prop) l1 l1' l2 l2' : Forall2 V l1 l1' -> Forall2 V l2 l2' -> Forall2 V (l1 ++ l2) (l1' ++ l2').
Proof. intros H K. induction H; cbn; auto. Qed.
Lemma F2_rev {A B} (V : A -> B -> Prop) l l' : Forall2 V l l' -> Forall2 V (rev l) (rev l').
Proof. intros H. induction H; cbn; auto. apply F2_app; auto. Qed.
Lemma F2_length {A B} (V : A -> B -> Prop) l l' : Forall2 V l l' -> length l' = length l.
Proof. intros H. induction H; cbn; auto. Qed.
Lemma F2_firstn {A B} (V : A -> B -> Prop) n l l' : Forall2 V l l' -> Forall2 V (firstn n l) (firstn n l').
Proof. intros H. revert n. induction H; intros [|n]; cbn; auto. Qed.
Lemma F2_skipn {A B} (V : A -> B -> Prop) n l l' : Forall2 V l l' -> Forall2 V (skipn n l) (skipn n l').
Proof. intros H. revert n. induction H; intros [|n]; cbn; auto. Qed.
Lemma F2_insert {A B} (V : A -> B -> Prop) n l l' x x' : Forall2 V l l' -> V x x' -> Forall2 V (list_insert l n x) (list_insert l' n x').
Proof. intros H K. unfold list_insert. apply F2_app; [apply F2_firstn, H|]. constructor; [exact K|apply F2_skipn, H]. Qed.
Lemma F2_upd {A B} (V : A -> B -> Prop) n l l' x x' : Forall2 V l l' -> V x x' -> Forall2 V (upd l n x) (upd l' n x').
Proof. intros H K. revert n. induction H; intros [|n]; cbn; auto. Qed.
Lemma F2_nth {A B} (V : A -> B -> Prop) n l l' : Forall2 V l l' ->
  match nth_error l n, nth_error l' n with Some a, Some a' => V a a' | None, None => True | _, _ => False end.
Proof. intros H. revert n. induction H as [|x y l l' Hx H IH]; intros [|n]; cbn; auto. exact (IH n). Qed.
Lemma F2_map {A B} (g : A -> B) (T : A -> Prop) l : Forall T l -> Forall2 (fun a b => b = g a /\ T a) l (map g l).
Proof. intros H. induction H; cbn; auto. Qed.
Lemma F2_is_map {A B} (g : A -> B) (T : A -> Prop) l l' : Forall2 (fun a b => b = g a /\ T a) l l' -> l' = map g l /\ Forall T l.
Proof. intros H. induction H as [|a b l l' (-> & Ha) _ (-> & IH)]; cbn; auto. Qed.

(** ** Two programs under a fixed relation of states *)
Section Fixed.
Context {S S' : Type} (R0 : S -> S' -> Prop).
Definition rq {A A'} (V : A -> A' -> Prop) (m : M S A) (m' : M S' A') : Prop :=
  forall s t, R0 s t -> orel (fun a s1 a' t1 => V a a' /\ R0 s1 t1) (m s) (m' t).
Lemma rq_ret {A A'} (V : A -> A' -> Prop) a a' : V a a' -> rq V (ret a) (ret a').
Proof. intros H s t K. cbn. auto. Qed.
Lemma rq_raise {A A'} (V : A -> A' -> Prop) e : rq V (raise e) (raise e).
Proof. intros s t K. reflexivity. Qed.
Lemma rq_nofuel {A A'} (V : A -> A' -> Prop) : rq V nofuel nofuel.
Proof. intros s t K. exact I. Qed.
Lemma rq_bind {A A' B B'} (V : A -> A' -> Prop) (W : B -> B' -> Prop) m m' (k : A -> M S B) (k' : A' -> M S' B') :
  rq V m m' -> (forall a a', V a a' -> rq W (k a) (k' a')) -> rq W (bind m k) (bind m' k').
Proof.
  intros H K s t Q. specialize (H s t Q). unfold bind, orel in *.
  destruct (m s) as [[a s1]|e|], (m' t) as [[a' t1]|e'|]; try contradiction; auto.
  destruct H as (H1 & H2). apply (K a a' H1 s1 t1 H2).
Qed.
Lemma rq_loop {X X' A A'} (I : X -> X' -> Prop) (V : A -> A' -> Prop) f b b' x x' :
  I x x' ->
  (forall x x', I x x' -> rq (fun r r' => match r, r' with inl y, inl y' => I y y' | inr a, inr a' => V a a' | _, _ => False end) (b x) (b' x')) ->
  rq V (loopM f b x) (loopM f b' x').
Proof.
  intros Hx H. revert x x' Hx. induction f as [|f IH]; intros x x' Hx; [apply rq_nofuel|].
  cbn. eapply rq_bind; [apply H, Hx|]. intros [y|a] [y'|a'] K; try contradiction; [apply IH, K|apply rq_ret, K].
Qed.

Section Sorts.
Context {A A' : Type} (V : A -> A' -> Prop).
Context (c : A -> A -> M S bool) (c' : A' -> A' -> M S' bool) (w : A -> A -> M S unit) (w' : A' -> A' -> M S' unit).
Context (Hc : forall a b a' b', V a a' -> V b b' -> rq eq (c a b) (c' a' b')).
Context (Hw : forall a b a' b', V a a' -> V b b' -> rq (fun _ _ => True) (w a b) (w' a' b')).
Lemma rq_bubble_pass l l' : Forall2 V l l' -> forall x x', V x x' ->
  rq (fun r r' => Forall2 V (fst r) (fst r') /\ snd r' = snd r) (bubble_pass c w x l) (bubble_pass c' w' x' l').
Proof.
  intros F. induction F as [|y y' l l' Hy F IH]; intros x x' Hx; cbn [bubble_pass].
  - apply rq_ret. cbn. auto.
  - eapply rq_bind; [apply Hc; assumption|]. intros b b' <-. destruct b.
    + eapply rq_bind; [apply IH, Hy|]. intros [r s] [r' s'] (H1 & H2). cbn in *. apply rq_ret. cbn. auto.
    + eapply rq_bind; [apply Hw; assumption|]. intros _ _ _.
      eapply rq_bind; [apply IH, Hx|]. intros [r s] [r' s'] (H1 & H2). cbn in *. apply rq_ret. cbn. auto.
Qed.
Lemma rq_bubble_sort f l l' : Forall2 V l l' -> rq (Forall2 V) (bubble_sort c w f l) (bubble_sort c' w' f l').
Proof.
  intros F. unfold bubble_sort. eapply rq_loop; [exact F|]. clear l l' F. intros l l' F. unfold bubble_body.
  destruct F as [|x x' l l' Hx F]; [apply rq_ret; constructor|].
  eapply rq_bind; [apply rq_bubble_pass; eassumption|]. intros [r s] [r' s'] (H1 & H2). cbn in *. subst s'. apply rq_ret.
  destruct s; exact H1.
Qed.
Lemma rq_count_run d l l' : Forall2 V l l' -> forall x x', V x x' ->
  rq (fun r r' => Forall2 V (fst r) (fst r') /\ Forall2 V (snd r) (snd r')) (count_run c d x l) (count_run c' d x' l').
Proof.
  intros F. induction F as [|y y' l l' Hy F IH]; intros x x' Hx; cbn [count_run]; [apply rq_ret; cbn; auto|].
  eapply rq_bind; [apply Hc; assumption|]. intros b b' <-. destruct (Bool.eqb b d); [|apply rq_ret; cbn; auto].
  eapply rq_bind; [apply IH, Hy|]. intros [r s] [r' s'] (H1 & H2). cbn in *. apply rq_ret. cbn. auto.
Qed.
Lemma rq_bin_search n pre pre' x x' : Forall2 V pre pre' -> V x x' -> forall lo hi,
  rq eq (bin_search c n pre x lo hi) (bin_search c' n pre' x' lo hi).
Proof.
  intros F Hx. induction n as [|n IH]; intros lo hi; cbn [bin_search]; [apply rq_ret; reflexivity|].
  destruct (lo <? hi)%nat; [|apply rq_ret; reflexivity]. cbv zeta.
  pose proof (F2_nth V (lo + Nat.div2 (hi - lo)) pre pre' F) as N.
  destruct (nth_error pre _), (nth_error pre' _); try contradiction; [|apply rq_raise].
  eapply rq_bind; [apply Hc; assumption|]. intros b b' <-. destruct b; apply IH.
Qed.
Lemma rq_binary_insertion l l' : Forall2 V l l' -> forall pre pre', Forall2 V pre pre' ->
  rq (Forall2 V) (binary_insertion c pre l) (binary_insertion c' pre' l').
Proof.
  intros F. induction F as [|x x' l l' Hx F IH]; intros pre pre' Hp; cbn [binary_insertion]; [apply rq_ret; exact Hp|].
  rewrite (F2_length _ _ _ Hp). eapply rq_bind; [apply rq_bin_search; assumption|]. intros k k' <-. apply IH. apply F2_insert; assumption.
Qed.
Lemma rq_py_sort l l' : Forall2 V l l' -> rq (Forall2 V) (py_sort c l) (py_sort c' l').
Proof.
  intros F. unfold py_sort. destruct F as [|x x' l l' Hx F]; [apply rq_ret; constructor|].
  destruct F as [|y y' l l' Hy F]; [apply rq_ret; auto|].
  eapply rq_bind; [apply Hc; assumption|]. intros d d' <-.
  eapply rq_bind; [apply rq_count_run; eassumption|]. intros [r s] [r' s'] (H1 & H2). cbn in H1, H2.
  apply rq_binary_insertion; [exact H2|]. destruct d; [apply F2_rev|]; auto.
Qed.
End Sorts.
End Fixed.

(** ** The relation of states *)
Record world := World { wX : bid -> Prop; wL : bid -> Prop }.
Definition wle (w w' : world) : Prop := (forall i, wX w i -> wX w' i) /\ (forall i, wL w i -> wL w' i).
Lemma wle_refl w : wle w w. Proof. split; auto. Qed.
Lemma wle_trans w1 w2 w3 : wle w1 w2 -> wle w2 w3 -> wle w1 w3. Proof. intros (A & B) (C & D). split; auto. Qed.

Section Rel.
(** [be]: how identities of the first run correspond to those of the second; [P]:
    the bounds of the minima; [v]: false in the hot pixel pass (winding counts, sides
    and rings are not used), true in the Vatti pass. *)
Context (be : bid -> bid) (Inj : forall i j, be i = be j -> i = j) (P : bid -> Prop) (v : bool).
(** [km]: how the polygon kinds of the first run correspond to those of the second;
    [zo]: whether the first run has subject rings only *)
Context (km : polygon_kind -> polygon_kind) (zo : bool).

(** the recorded input agrees *)
Definition stat (b b' : bound) : Prop :=
  b_edges b' = b_edges b /\ b_wd b' = b_wd b /\ b_kind b' = km (b_kind b) /\ b_max b' = option_map be (b_max b) /\ b_edges b <> [] /\
  (zo = true -> b_kind b = SUBJECT).
(** the scratch values agree *)
Definition core (b b' : bound) : Prop :=
  b_cur b' = b_cur b /\ b_next b' = b_next b /\ b_cx b' = b_cx b.
Definition full (b b' : bound) : Prop :=
  b_wc b' = b_wc b /\ b_owc b' = b_owc b /\ b_side b' = b_side b /\ b_ring b' = b_ring b /\ (zo = true -> b_owc b = 0%Z).

Record Rw (w : world) (s t : st) : Prop := {
  rw_same : t = veil (s_bounds t) (s_abl t) s;
  rw_abl : s_abl t = map (option_map be) (s_abl s);
  rw_act : forall i, In (Some i) (s_abl s) -> wX w i;
  rw_stat : forall i, P i -> stat (bget (s_bounds s) i) (bget (s_bounds t) (be i));
  rw_core : forall i, wX w i -> core (bget (s_bounds s) i) (bget (s_bounds t) (be i));
  rw_full : v = true -> forall i, wX w i -> full (bget (s_bounds s) i) (bget (s_bounds t) (be i));
  rw_last : forall i, wL w i -> b_last (bget (s_bounds t) (be i)) = b_last (bget (s_bounds s) i);
  rw_ring : v = true -> forall i, wX w i -> b_ring (bget (s_bounds s) i) <> None -> wL w i;
  rw_rec : forall i, wX w i -> P i
}.

Definition rl {A A'} (w : world) (V : world -> A -> A' -> Prop) (m : prog A) (m' : prog A') : Prop :=
  forall s t, Rw w s t -> orel (fun a s1 a' t1 => exists w', wle w w' /\ V w' a a' /\ Rw w' s1 t1) (m s) (m' t).

Lemma rl_rq {A A'} w (V : A -> A' -> Prop) m m' : rq (Rw w) V m m' -> rl w (fun _ => V) m m'.
Proof. intros H s t K. eapply orel_imp; [|apply H, K]. cbn. intros a s1 a' t1 (H1 & H2). exists w. auto using wle_refl. Qed.
Lemma rl_ret {A A'} w (V : world -> A -> A' -> Prop) a a' : V w a a' -> rl w V (ret a) (ret a').
Proof. intros H s t K. cbn. exists w. auto using wle_refl. Qed.
Lemma rl_raise {A A'} w (V : world -> A -> A' -> Prop) e : rl w V (raise e) (raise e).
Proof. intros s t K. reflexivity. Qed.
Lemma rl_nofuel {A A'} w (V : world -> A -> A' -> Prop) : rl w V nofuel nofuel.
Proof. intros s t K. exact I. Qed.
Lemma rl_lift {A} w (V : world -> A -> A -> Prop) r : (forall a, r = Ok a -> V w a a) -> rl w V (lift r) (lift r).
Proof. intros H s t K. destruct r; cbn; auto. exists w. auto using wle_refl. Qed.
Lemma rl_deref {A A'} w (V : world -> A -> A' -> Prop) o o' :
  match o, o' with Some a, Some a' => V w a a' | None, None => True | _, _ => False end -> rl w V (deref o) (deref o').
Proof. destruct o, o'; intros H; try contradiction; [apply rl_ret, H|apply rl_raise]. Qed.
Lemma rl_bind {A A' B B'} w (V : world -> A -> A' -> Prop) (W : world -> B -> B' -> Prop) m m' k k' :
  rl w V m m' -> (forall w' a a', wle w w' -> V w' a a' -> rl w' W (k a) (k' a')) -> rl w W (bind m k) (bind m' k').
Proof.
  intros H K s t Q. specialize (H s t Q). unfold bind, orel in *.
  destruct (m s) as [[a s1]|e|], (m' t) as [[a' t1]|e'|]; try contradiction; auto.
  destruct H as (w1 & L1 & H1 & H2). pose proof (K w1 a a' L1 H1 s1 t1 H2) as G. unfold orel in G.
  destruct (k a s1) as [[b s2]|e|], (k' a' t1) as [[b' t2]|e'|]; try contradiction; auto.
  destruct G as (w2 & L2 & G1 & G2). exists w2. eauto using wle_trans.
Qed.
Lemma rl_weak {A A'} w (V W : world -> A -> A' -> Prop) m m' :
  rl w V m m' -> (forall w' a a', wle w w' -> V w' a a' -> W w' a a') -> rl w W m m'.
Proof. intros H K s t Q. eapply orel_imp; [|apply H, Q]. cbn. intros a s1 a' t1 (w1 & L1 & H1 & H2). exists w1. auto. Qed.
Lemma rl_loop {X X' A A'} (I : world -> X -> X' -> Prop) (V : world -> A -> A' -> Prop) f b b' w x x' :
  I w x x' ->
  (forall w x x', I w x x' -> rl w (fun w' r r' => match r, r' with inl y, inl y' => I w' y y' | inr a, inr a' => V w' a a' | _, _ => False end) (b x) (b' x')) ->
  rl w V (loopM f b x) (loopM f b' x').
Proof.
  intros Hx H. revert w x x' Hx. induction f as [|f IH]; intros w x x' Hx; [apply rl_nofuel|].
  cbn. eapply rl_bind; [apply H, Hx|]. intros w' [y|a] [y'|a'] L1 K; try contradiction; [apply IH, K|apply rl_ret, K].
Qed.
Lemma rl_for {A A'} (I : world -> Prop) (J : world -> A -> A' -> Prop) l l' (b : A -> prog unit) (b' : A' -> prog unit) w :
  Forall2 (J w) l l' -> (forall w w' x x', wle w w' -> J w x x' -> J w' x x') -> I w ->
  (forall w x x', I w -> J w x x' -> rl w (fun w' _ _ => I w') (b x) (b' x')) ->
  rl w (fun w' _ _ => I w') (forM l b) (forM l' b').
Proof.
  intros F Mo Iw H. revert w Iw F. revert l'. induction l as [|x l IH]; intros l' w Iw F; inversion F as [|? x' ? l1 Hx F1]; subst; cbn; [apply rl_ret, Iw|].
  eapply rl_bind; [apply H; assumption|]. intros w' [] [] L1 Iw'. apply IH; [exact Iw'|].
  clear -F1 L1 Mo. induction F1; constructor; eauto.
Qed.
Lemma rl_blind {A} w (m : prog A) : blind m -> rl w (fun _ a a' => a' = a) m m.
Proof.
  intros B s t [H1 H2 H3 H4 H5 H6 H7 H8 H9].
  assert (C : forall s, s = veil (s_bounds s) (s_abl s) s) by (intros []; reflexivity).
  pose proof (B (s_bounds s) (s_abl s) s) as Bs. rewrite <- C in Bs.
  rewrite H1. rewrite (B (s_bounds t) (s_abl t) s). unfold orel.
  destruct (m s) as [[a s1]| |] eqn:Em; auto. injection Bs as Bs. exists w.
  split; [apply wle_refl|]. split; [reflexivity|].
  assert (Eb : s_bounds s1 = s_bounds s) by (rewrite Bs; reflexivity).
  assert (Ea : s_abl s1 = s_abl s) by (rewrite Bs; reflexivity).
  constructor; cbn [veil s_bounds s_abl]; rewrite ?Eb, ?Ea; auto.
Qed.
Lemma wle_X w w' i : wle w w' -> wX w i -> wX w' i. Proof. intros (A & _). auto. Qed.
Lemma wle_L w w' i : wle w w' -> wL w i -> wL w' i. Proof. intros (_ & A). auto. Qed.

(** what one learns from reading a bound *)
Record vb (w : world) (i : bid) (b b' : bound) : Prop := {
  vb_stat : stat b b'; vb_core : core b b'; vb_full : v = true -> full b b';
  vb_ring : v = true -> b_ring b <> None -> wL w i;
  vb_last : wL w i -> b_last b' = b_last b
}.
Lemma Rw_vb w s t i : Rw w s t -> wX w i -> vb w i (bget (s_bounds s) i) (bget (s_bounds t) (be i)).
Proof. intros [H1 H2 H3 H4 H5 H6 H7 H8 H9] Hi. constructor; auto. Qed.
Lemma rl_bd w i : wX w i -> rl w (fun w' b b' => vb w' i b b') (bd i) (bd (be i)).
Proof. intros Hi s t K. cbn. exists w. split; [apply wle_refl|]. split; [|exact K]. apply Rw_vb; assumption. Qed.

(** writing a bound *)
Definition ext (w : world) (g : bool) (i : bid) : world :=
  World (wX w) (fun j => wL w j \/ g = true /\ j = i).
Lemma rl_upd w i f f' (g : bool) : wX w i ->
  (forall b b', stat b b' -> stat (f b) (f' b')) ->
  (forall b b', stat b b' -> core b b' -> core (f b) (f' b')) ->
  (v = true -> forall b b', stat b b' -> core b b' -> full b b' -> full (f b) (f' b')) ->
  (wL w i \/ g = true -> forall b b', (wL w i -> b_last b' = b_last b) -> b_last (f' b') = b_last (f b)) ->
  (v = true -> forall b, (b_ring b <> None -> wL w i) -> b_ring (f b) <> None -> wL w i \/ g = true) ->
  rl w (fun w' _ _ => w' = ext w g i) (upd_bound i f) (upd_bound (be i) f').
Proof.
  intros Hi Hs Hc Hf Hl Hr s t [H1 H2 H3 H4 H5 H6 H7 H8 H9]. cbn. exists (ext w g i).
  assert (Le : wle w (ext w g i)) by (split; cbn; auto).
  split; [exact Le|]. split; [reflexivity|].
  assert (G : forall j, bget (hset (s_bounds t) (be i) (f' (bget (s_bounds t) (be i)))) (be j) =
                        if Pos.eqb i j then f' (bget (s_bounds t) (be i)) else bget (s_bounds t) (be j)).
  { intros j. rewrite bget_hset. destruct (Pos.eqb_spec i j) as [->|N]; [rewrite Pos.eqb_refl; reflexivity|].
    destruct (Pos.eqb_spec (be i) (be j)) as [Q|_]; [apply Inj in Q; contradiction|reflexivity]. }
  constructor; cbn [s_bounds s_abl set].
  - change (s_bounds (s <| s_bounds := hset (s_bounds s) i (f (bget (s_bounds s) i)) |>)) with (hset (s_bounds s) i (f (bget (s_bounds s) i))).
    rewrite H1 at 1. reflexivity.
  - exact H2.
  - exact H3.
  - intros j Hj. cbn. rewrite G, bget_hset. destruct (Pos.eqb_spec i j) as [->|N]; auto.
  - intros j Hj. cbn in *. rewrite G, bget_hset. destruct (Pos.eqb_spec i j) as [->|N]; auto.
  - intros Hv j Hj. cbn in *. rewrite G, bget_hset. destruct (Pos.eqb_spec i j) as [->|N]; auto.
  - intros j Hj. cbn in *. rewrite G, bget_hset. destruct (Pos.eqb_spec i j) as [->|N].
    + apply Hl; [|apply H7]. destruct Hj as [Hj|(Hj & _)]; auto.
    + destruct Hj as [Hj|(_ & ->)]; [auto|contradiction].
  - intros Hv j Hj. cbn in *. rewrite bget_hset. destruct (Pos.eqb_spec i j) as [->|N]; [|auto].
    intros Q. destruct (Hr Hv _ (H8 Hv j Hj) Q) as [K|K]; auto.
  - exact H9.
Qed.

(** ** Shared functions of both passes *)
Lemma rl_eq_bind {A B} w m m' (k k' : A -> prog B) W :
  rl w (fun _ a a' => a' = a) m m' -> (forall w' a, wle w w' -> rl w' W (k a) (k' a)) -> rl w W (bind m k) (bind m' k').
Proof. intros H K. eapply rl_bind; [exact H|]. intros w' a a' L1 ->. auto. Qed.
Lemma rl_keep {A} w m m' i : wX w i -> rl w (fun _ (a a' : A) => a' = a) m m' -> rl w (fun w' a a' => a' = a /\ wX w' i) m m'.
Proof. intros Hi H. eapply rl_weak; [exact H|]. cbv beta. intros w' a a' L1 ->. split; [reflexivity|]. exact (wle_X _ _ _ L1 Hi). Qed.
Lemma rl_unit w (V : world -> unit -> unit -> Prop) m m' : rl w V m m' -> rl w (fun _ a a' => a' = a) m m'.
Proof. intros H. eapply rl_weak; [exact H|]. intros _ [] [] _ _. reflexivity. Qed.
Lemma vb_cur_edge w i b b' : vb w i b b' -> cur_edge_of b' = cur_edge_of b.
Proof. intros [(S1 & _) (C1 & _) _ _ _]. unfold cur_edge_of. rewrite S1, C1. reflexivity. Qed.
Lemma vb_next_edge w i b b' : vb w i b b' -> next_edge_of b' = next_edge_of b.
Proof. intros [(S1 & _) (_ & C1 & _) _ _ _]. unfold next_edge_of. rewrite S1, C1. reflexivity. Qed.
Definition vo (w : world) (o o' : option bid) : Prop := o' = option_map be o /\ forall i, o = Some i -> wX w i.
Definition vi (w : world) (i i' : bid) : Prop := i' = be i /\ wX w i.

Lemma rl_gets_abl w : rl w (fun w' l l' => l' = map (option_map be) l /\ forall i, In (Some i) l -> wX w' i) (gets s_abl) (gets s_abl).
Proof. intros s t K. cbn. exists w. split; [apply wle_refl|]. split; [|exact K]. split; [apply (rw_abl _ _ _ K)|apply (rw_act _ _ _ K)]. Qed.
Lemma rl_abl_get w k : rl w vo (abl_get k) (abl_get k).
Proof.
  unfold abl_get. eapply rl_bind; [apply rl_gets_abl|]. intros w' l l' _ (-> & Hl). intros s t K. cbn. unfold nth_res. rewrite nth_error_map.
  destruct (nth_error l k) as [o|] eqn:Ek; cbn; [|reflexivity]. exists w'. split; [apply wle_refl|]. split; [|exact K].
  split; [reflexivity|]. intros i ->. apply Hl. eapply nth_error_In; eauto.
Qed.
Lemma rl_deref_id w o o' : vo w o o' -> rl w vi (deref o) (deref o').
Proof. intros (-> & H). apply rl_deref. destruct o; cbn; [split; [reflexivity|auto]|exact I]. Qed.
Lemma rl_abl_bound w k : rl w vi (abl_bound k) (abl_bound k).
Proof. unfold abl_bound. eapply rl_bind; [apply rl_abl_get|]. intros w' o o' _ H. apply rl_deref_id, H. Qed.
Lemma upd_in {A} (l : list A) k x y : In y (upd l k x) -> y = x \/ In y l.
Proof. revert k. induction l as [|a l IH]; intros [|k]; cbn; auto; intros [->|H]; auto. destruct (IH _ H); auto. Qed.
Lemma upd_map {A B} (g : A -> B) l k x : upd (map g l) k (g x) = map g (upd l k x).
Proof. revert k. induction l as [|a l IH]; intros [|k]; cbn; auto. rewrite IH. reflexivity. Qed.
Lemma Rw_set_abl w s t l : Rw w s t -> (forall i, In (Some i) l -> wX w i) ->
  Rw w (s <| s_abl := l |>) (t <| s_abl := map (option_map be) l |>).
Proof.
  intros [H1 H2 H3 H4 H5 H6 H7 H8 H9] Hl. constructor; cbn; auto. rewrite H1. reflexivity.
Qed.
Lemma rl_set_abl w (f f' : list (option bid) -> list (option bid)) :
  (forall l, f' (map (option_map be) l) = map (option_map be) (f l)) ->
  (forall l i, In (Some i) (f l) -> In (Some i) l \/ wX w i) ->
  rl w (fun _ a a' => a' = a) (modify (fun s => s <| s_abl := f (s_abl s) |>)) (modify (fun s => s <| s_abl := f' (s_abl s) |>)).
Proof.
  intros Hf Hi s t K. cbn. exists w. split; [apply wle_refl|]. split; [reflexivity|].
  rewrite (rw_abl _ _ _ K), Hf. apply Rw_set_abl; [exact K|]. intros i I1. destruct (Hi _ _ I1) as [G|G]; [exact (rw_act _ _ _ K i G)|exact G].
Qed.
Lemma rl_abl_set w k o o' : vo w o o' -> rl w (fun _ a a' => a' = a) (abl_set k o) (abl_set k o').
Proof.
  intros (-> & Ho). unfold abl_set. intros s t K. unfold bind, gets. rewrite (rw_abl _ _ _ K), map_length.
  destruct (k <? length (s_abl s))%nat; cbn; [|reflexivity]. exists w. split; [apply wle_refl|]. split; [reflexivity|].
  rewrite upd_map. apply Rw_set_abl; [exact K|]. intros i I1. apply upd_in in I1. destruct I1 as [I1|I1]; [auto|exact (rw_act _ _ _ K i I1)].
Qed.
Lemma vo_le w w' o o' : wle w w' -> vo w o o' -> vo w' o o'.
Proof. intros (A & _) (-> & H). split; auto. Qed.
Lemma vi_le w w' o o' : wle w w' -> vi w o o' -> vi w' o o'.
Proof. intros (A & _) (-> & H). split; auto. Qed.
Lemma vo_none w : vo w None None. Proof. split; [reflexivity|discriminate]. Qed.
Lemma vo_some w i : wX w i -> vo w (Some i) (Some (be i)). Proof. intros H. split; [reflexivity|]. intros j [= <-]. exact H. Qed.
Lemma rl_abl_swap w i j : rl w (fun _ a a' => a' = a) (abl_swap i j) (abl_swap i j).
Proof.
  unfold abl_swap. eapply rl_bind; [apply rl_abl_get|]. intros w1 a a' L1 Ha. eapply rl_bind; [apply rl_abl_get|]. intros w2 b b' L2 Hb.
  apply rl_eq_bind; [apply rl_abl_set, Hb|]. intros w3 _ L3. apply rl_abl_set. eauto using vo_le.
Qed.
Lemma filter_some_map l : filter is_some (map (option_map be) l) = map (option_map be) (filter is_some l).
Proof. induction l as [|[a|] l IH]; cbn; rewrite ?IH; reflexivity. Qed.
Lemma rl_abl_compact w : rl w (fun _ a a' => a' = a) abl_compact abl_compact.
Proof.
  unfold abl_compact. apply (rl_set_abl w (filter is_some) (filter is_some)).
  - apply filter_some_map.
  - intros l i H. apply filter_In in H. left. apply H.
Qed.
Lemma opt_is_be a b : opt_is (option_map be a) (option_map be b) = opt_is a b.
Proof.
  destruct a as [a|], b as [b|]; cbn; auto. destruct (Pos.eqb_spec a b) as [->|N]; [apply Pos.eqb_refl|].
  apply Pos.eqb_neq. intros Q. apply N, Inj, Q.
Qed.
Lemma find_bound_be o l : find_bound (option_map be o) (map (option_map be) l) = find_bound o l.
Proof. unfold find_bound. induction l as [|a l IH]; cbn; [reflexivity|]. rewrite opt_is_be, IH. reflexivity. Qed.
Lemma rl_current_edge w i : wX w i -> rl w (fun _ a a' => a' = a) (current_edge i) (current_edge (be i)).
Proof.
  intros Hi. unfold current_edge. eapply rl_bind; [apply rl_bd, Hi|]. intros w' b b' _ V. rewrite (vb_cur_edge _ _ _ _ V). apply rl_lift. auto.
Qed.
Lemma rl_next_edge w i : wX w i -> rl w (fun _ a a' => a' = a) (next_edge i) (next_edge (be i)).
Proof.
  intros Hi. unfold next_edge. eapply rl_bind; [apply rl_bd, Hi|]. intros w' b b' _ V. rewrite (vb_next_edge _ _ _ _ V). apply rl_lift. auto.
Qed.

Lemma vo_X w i o : vo w (Some i) o -> wX w i.
Proof. intros (_ & H). auto. Qed.
Ltac up L :=
  match type of L with wle ?w ?w' =>
    repeat match goal with
    | H : wX w ?i |- _ => apply (wle_X _ _ _ L) in H
    | H : wL w ?i |- _ => apply (wle_L _ _ _ L) in H
    | H : vo w ?i ?j |- _ => apply (vo_le _ _ _ _ L) in H
    | H : vi w ?i ?j |- _ => apply (vi_le _ _ _ _ L) in H
    | H : b_ring ?b <> None -> wL w ?i |- _ =>
        let K := fresh in assert (K : b_ring b <> None -> wL w' i) by (intros ?; apply (wle_L _ _ _ L); auto); clear H; rename K into H
    | H : forall i, In (Some i) ?l -> wX w i |- _ =>
        let K := fresh in assert (K : forall i, In (Some i) l -> wX w' i) by (intros ? ?; apply (wle_X _ _ _ L); auto); clear H; rename K into H
    | H : wle ?w0 w |- _ => clear H
    end; clear L; try clear w
  end.
Ltac use_vb V :=
  let a := fresh in let b := fresh in
  pose proof (vb_cur_edge _ _ _ _ V) as a; pose proof (vb_next_edge _ _ _ _ V) as b;
  let S1 := fresh in let S2 := fresh in let S3 := fresh in let S4 := fresh in let S5 := fresh in let SZ := fresh "SZ" in
  let C1 := fresh in let C2 := fresh in let C3 := fresh in let F := fresh in let Rr := fresh "Rr" in let La := fresh in
  destruct V as [(S1 & S2 & S3 & S4 & S5 & SZ) (C1 & C2 & C3) F Rr La];
  rewrite ?a, ?b, ?S1, ?S2, ?S3, ?S4, ?C1, ?C2, ?C3; clear a b S1 S2 S3 S4 S5 C1 C2 C3 La;
  first
    [ match goal with Hv : v = true |- _ =>
        let F1 := fresh in let F2 := fresh in let F3 := fresh in let F4 := fresh in let FZ := fresh "FZ" in
        destruct (F Hv) as (F1 & F2 & F3 & F4 & FZ); rewrite ?F1, ?F2, ?F3, ?F4; clear F F1 F2 F3 F4;
        specialize (Rr Hv)
      end
    | clear F Rr ].
Ltac ring_facts :=
  repeat match goal with
  | H : is_some (b_ring ?b) && is_some (b_ring ?c) = true |- _ =>
      let H1 := fresh "Q" in let H2 := fresh "Q" in apply andb_prop in H; destruct H as [H1 H2]
  | H : is_some (b_ring ?b) = true, K : b_ring ?b <> None -> wL ?w ?i |- _ =>
      lazymatch goal with _ : wL w i |- _ => fail
      | _ => let J := fresh "HL" in assert (J : wL w i) by (apply K; intros Z; rewrite Z in H; discriminate H) end
  | H : is_none (b_ring ?b) = false, K : b_ring ?b <> None -> wL ?w ?i |- _ =>
      lazymatch goal with _ : wL w i |- _ => fail
      | _ => let J := fresh "HL" in assert (J : wL w i) by (apply K; intros Z; rewrite Z in H; discriminate H) end
  end.
Ltac upd_side :=
  unfold stat, core, full, clip_index in *; cbn; intros;
  repeat match goal with H : _ /\ _ |- _ => destruct H end;
  repeat match goal with H : _ ?x = _ ?y |- _ => rewrite H end;
  repeat split; auto.
Ltac upd_with g :=
  refine (rl_upd _ _ _ _ g _ _ _ _ _ _);
  [ assumption
  | solve [upd_side] | solve [upd_side] | solve [upd_side]
  | intros [?|?] ? ? ?; cbn; [auto; fail|auto; discriminate]
  | intros ? ? ? ?; cbn in *; first [right; reflexivity | left; solve [auto | congruence]] ].
Ltac rl_step :=
  match goal with
  | |- rl _ _ (bind get _) _ => fail 1
  | |- rl _ (fun _ u u' => u' = u) (ret ?z) (ret ?z) => apply rl_ret; reflexivity
  | |- rl _ _ (raise _) (raise _) => apply rl_raise
  | |- rl _ _ nofuel nofuel => apply rl_nofuel
  | |- rl _ _ (lift _) (lift _) => apply rl_lift; intros; reflexivity
  | |- rl _ _ (bind (bd _) _) (bind (bd _) _) =>
      let w := fresh "w" in let b := fresh "b" in let c := fresh "b'" in let L := fresh in let V := fresh in
      eapply rl_bind; [apply rl_bd; assumption|intros w b c L V; up L; use_vb V]
  | |- rl _ _ (bind (abl_bound _) _) (bind (abl_bound _) _) =>
      let w := fresh "w" in let b := fresh "i" in let L := fresh in let V := fresh in
      eapply rl_bind; [apply rl_abl_bound|intros w b ? L (-> & V); up L]
  | |- rl _ _ (bind (abl_get _) _) (bind (abl_get _) _) =>
      let w := fresh "w" in let b := fresh "o" in let L := fresh in let V := fresh in
      eapply rl_bind; [apply rl_abl_get|intros w b ? L V; pose proof (proj1 V); subst; up L]
  | |- rl _ _ (bind (gets s_abl) _) (bind (gets s_abl) _) =>
      let w := fresh "w" in let b := fresh "l" in let L := fresh in let V := fresh in
      eapply rl_bind; [apply rl_gets_abl|intros w b ? L (-> & V); up L]
  | |- rl _ _ (bind (upd_bound ?i _) _) (bind (upd_bound _ _) _) =>
      let w := fresh "w" in let L := fresh in let H := fresh "HL" in let Hw := fresh in
      first [ eapply rl_bind; [upd_with true|intros w ? ? L Hw; cbv beta in Hw; assert (H : wL w i) by (rewrite Hw; right; auto); clear Hw; up L]
            | eapply rl_eq_bind; [eapply rl_unit; upd_with false|intros w ? L; up L] ]
  | |- rl _ _ (upd_bound _ _) (upd_bound _ _) => eapply rl_unit; upd_with false
  | |- rl _ (fun _ u u' => u' = u) ?m ?m => apply rl_blind; solve [bl]
  | |- rl _ _ _ _ => solve [eauto with rel]
  | |- rl _ _ (bind _ _) (bind _ _) =>
      let w := fresh "w" in let L := fresh in eapply rl_eq_bind; [|intros w ? L; up L]
  | |- rl _ _ (match ?x with _ => _ end) (match option_map _ ?x with _ => _ end) => 
      destruct x; [match goal with V : vo ?w (Some _) _ |- _ => apply vo_X in V end|]; cbn [option_map]
  | |- rl _ _ (match ?x with _ => _ end) (match ?x with _ => _ end) => let E := fresh "Q" in destruct x eqn:E; ring_facts
  | |- rl _ _ (let _ := _ in _) _ => cbv zeta
  end.
Create HintDb rel.
Ltac ra := cbv beta; repeat (rl_step; cbv beta).
Hint Resolve rl_abl_set rl_abl_swap rl_abl_compact rl_current_edge rl_next_edge vo_none vo_some : rel.

Lemma rl_is_intermediate w i y : wX w i -> rl w (fun _ a a' => a' = a) (is_intermediate i y) (is_intermediate (be i) y).
Proof. intros Hi. unfold is_intermediate. ra. Qed.
Lemma rl_is_maxima w i y : wX w i -> rl w (fun _ a a' => a' = a) (is_maxima i y) (is_maxima (be i) y).
Proof. intros Hi. unfold is_maxima. ra. Qed.
Hint Resolve rl_is_intermediate rl_is_maxima : rel.
Lemma rl_to_next_edge w i : wX w i -> rl w (fun _ a a' => a' = a) (to_next_edge i) (to_next_edge (be i)).
Proof. intros Hi. unfold to_next_edge. ra. Qed.
Hint Resolve rl_to_next_edge : rel.
Lemma rl_intersection_compare w i j : wX w i -> wX w j -> rl w (fun _ a a' => a' = a) (intersection_compare i j) (intersection_compare (be i) (be j)).
Proof. intros Hi Hj. unfold intersection_compare. ra. Qed.
Hint Resolve rl_intersection_compare : rel.
Lemma rl_hot_pixels_on_swap w i j : wX w i -> wX w j -> rl w (fun _ a a' => a' = a) (hot_pixels_on_swap i j) (hot_pixels_on_swap (be i) (be j)).
Proof. intros Hi Hj. unfold hot_pixels_on_swap. ra. Qed.
Hint Resolve rl_hot_pixels_on_swap : rel.
Lemma F2_combine {A B} (V : A -> B -> Prop) l l' n : Forall2 V l l' ->
  Forall2 (fun x x' => fst x' = fst x /\ V (snd x) (snd x')) (combine (seq n (length l)) l) (combine (seq n (length l')) l').
Proof. intros H. revert n. induction H; intros n; cbn; constructor; cbn; auto. Qed.
Lemma F2_vo w l : (forall i, In (Some i) l -> wX w i) -> Forall2 (vo w) l (map (option_map be) l).
Proof.
  induction l as [|o l IH]; cbn; intros H; constructor; [|apply IH; intros; apply H; auto].
  split; [reflexivity|]. intros i ->. apply H. auto.
Qed.
Lemma rl_update_current_x w y : rl w (fun _ a a' => a' = a) (update_current_x y) (update_current_x y).
Proof.
  unfold update_current_x. rl_step. eapply rl_unit.
  apply (rl_for (fun _ => True) (fun w x x' => fst x' = fst x /\ vo w (snd x) (snd x'))).
  - apply F2_combine, F2_vo. assumption.
  - intros w1 w2 x x' L1 (H1 & H2). split; [exact H1|]. eauto using vo_le.
  - exact I.
  - clear -Inj. intros w [k o] [k' o'] _ (H1 & H2). cbn in H1, H2. subst k'.
    apply (rl_weak _ (fun _ a a' => a' = a)); [|intros; exact I]. eapply rl_bind; [apply rl_deref_id, H2|]. intros w1 i ? L1 (-> & Hi). ra.
Qed.
Hint Resolve rl_update_current_x : rel.
Lemma rl_abl_ids w : rl w (fun w' l l' => l' = map be l /\ Forall (wX w') l) abl_ids abl_ids.
Proof.
  unfold abl_ids. rl_step. intros s t K. unfold lift.
  match goal with |- context [?f l] => lazymatch type of (f l) with res (list bid) => set (g := f) end end.
  assert (H : match g l, g (map (option_map be) l) with
              | Ok a, Ok a' => a' = map be a /\ Forall (wX w0) a
              | Raise e, Raise e' => e = e'
              | _, _ => False end).
  { clear K. induction l as [|[i|] l IH]; cbn; auto.
    specialize (IH (fun i Hi => H0 i (or_intror Hi))). fold g.
    destruct (g l) as [a|e|], (g (map (option_map be) l)) as [a'|e'|]; cbn; try contradiction; auto.
    destruct IH as (-> & IH). split; [reflexivity|]. constructor; [apply H0; cbn; auto|exact IH]. }
  destruct (g l) as [a|e|], (g (map (option_map be) l)) as [a'|e'|]; cbn; try contradiction; auto.
  exists w0. auto using wle_refl.
Qed.

(** functions that keep the world *)
Lemma rq_bd w i : wX w i -> rq (Rw w) (vb w i) (bd i) (bd (be i)).
Proof. intros Hi s t K. cbn. split; [apply Rw_vb; assumption|exact K]. Qed.
Lemma rq_lift {A} w (r : res A) : rq (Rw w) eq (lift r) (lift r).
Proof. intros s t K. destruct r; cbn; auto. Qed.
Lemma rq_blind {A} w (m : prog A) : blind m -> rq (Rw w) eq m m.
Proof.
  intros B s t [H1 H2 H3 H4 H5 H6 H7 H8 H9].
  assert (C : forall s, s = veil (s_bounds s) (s_abl s) s) by (intros []; reflexivity).
  pose proof (B (s_bounds s) (s_abl s) s) as Bs. rewrite <- C in Bs.
  rewrite H1. rewrite (B (s_bounds t) (s_abl t) s). unfold orel.
  destruct (m s) as [[a s1]| |] eqn:Em; auto. injection Bs as Bs.
  split; [reflexivity|].
  assert (Eb : s_bounds s1 = s_bounds s) by (rewrite Bs; reflexivity).
  assert (Ea : s_abl s1 = s_abl s) by (rewrite Bs; reflexivity).
  constructor; cbn [veil s_bounds s_abl]; rewrite ?Eb, ?Ea; auto.
Qed.
Lemma rq_current_edge w i : wX w i -> rq (Rw w) eq (current_edge i) (current_edge (be i)).
Proof.
  intros Hi. unfold current_edge. eapply rq_bind; [apply rq_bd, Hi|]. intros b b' V. rewrite (vb_cur_edge _ _ _ _ V). apply rq_lift.
Qed.
Lemma rq_intersection_compare w i j : wX w i -> wX w j -> rq (Rw w) eq (intersection_compare i j) (intersection_compare (be i) (be j)).
Proof.
  intros Hi Hj. unfold intersection_compare. eapply rq_bind; [apply rq_bd, Hi|]. intros a a' Va.
  eapply rq_bind; [apply rq_bd, Hj|]. intros b b' Vb. rewrite (vb_cur_edge _ _ _ _ Va), (vb_cur_edge _ _ _ _ Vb).
  destruct (vb_core _ _ _ _ Va) as (_ & _ & ->), (vb_core _ _ _ _ Vb) as (_ & _ & ->).
  destruct (num_leb _ _); [apply rq_ret; reflexivity|].
  eapply rq_bind; [apply rq_lift|]. intros e ? <-. eapply rq_bind; [apply rq_lift|]. intros e' ? <-. apply rq_ret. reflexivity.
Qed.
Lemma rq_hot_pixels_on_swap w i j : wX w i -> wX w j -> rq (Rw w) eq (hot_pixels_on_swap i j) (hot_pixels_on_swap (be i) (be j)).
Proof.
  intros Hi Hj. unfold hot_pixels_on_swap. eapply rq_bind; [apply rq_current_edge, Hi|]. intros a ? <-.
  eapply rq_bind; [apply rq_current_edge, Hj|]. intros b ? <-. apply rq_blind. bl.
Qed.
Lemma F2_vi w l : Forall (wX w) l -> Forall2 (vi w) l (map be l).
Proof. intros H. induction H; cbn; constructor; auto. split; auto. Qed.
Lemma vi_list w l l' : Forall2 (vi w) l l' -> l' = map be l /\ Forall (wX w) l.
Proof. intros H. induction H as [|a b l l' (-> & Ha) _ (-> & IH)]; cbn; auto. Qed.
Lemma rl_process_hot_pixel_intersections fu w y : rl w (fun _ a a' => a' = a) (process_hot_pixel_intersections fu y) (process_hot_pixel_intersections fu y).
Proof.
  unfold process_hot_pixel_intersections. rl_step; [ra|].
  eapply rl_bind; [apply rl_abl_ids|]. intros w1 l ? L1 (-> & Hl). clear L1.
  eapply rl_bind.
  - eapply rl_rq, (rq_bubble_sort _ (vi w1)).
    + intros c d c' d' (-> & Ha) (-> & Hb). apply rq_intersection_compare; assumption.
    + intros c d c' d' (-> & Ha) (-> & Hb) s t K. eapply orel_imp; [|apply (rq_hot_pixels_on_swap w1 c d Ha Hb s t K)]. cbn. tauto.
    + apply F2_vi, Hl.
  - cbv beta. intros w2 r r1 L2 F. apply vi_list in F. destruct F as (Er & F). subst r1. rewrite (map_map be Some).
    pose proof (rl_set_abl w2 (fun _ => map Some r) (fun _ => map (fun x => Some (be x)) r)) as K. apply K.
    + intros ?. rewrite map_map. reflexivity.
    + intros ? i Hi. right. apply in_map_iff in Hi. destruct Hi as (j & [= <-] & Hj). apply (wle_X _ _ _ L2).
      rewrite Forall_forall in F. apply F, Hj.
Qed.
Hint Resolve rl_process_hot_pixel_intersections : rel.

Lemma bil_eq w i b b' j c c' : vb w i b b' -> vb w j c c' -> bound_insert_location b' c' = bound_insert_location b c.
Proof.
  intros V W. unfold bound_insert_location. rewrite (vb_cur_edge _ _ _ _ V), (vb_cur_edge _ _ _ _ W).
  destruct (vb_core _ _ _ _ V) as (_ & _ & ->), (vb_core _ _ _ _ W) as (_ & _ & ->). reflexivity.
Qed.
Lemma find_insert_eq w s t i : Rw w s t -> wX w i -> forall l, (forall j, In (Some j) l -> wX w j) ->
  find_insert (s_bounds t) (bget (s_bounds t) (be i)) (map (option_map be) l) = find_insert (s_bounds s) (bget (s_bounds s) i) l.
Proof.
  intros K Hi. induction l as [|[j|] l IH]; intros Hl; cbn; auto.
  rewrite (bil_eq w i (bget (s_bounds s) i) _ j (bget (s_bounds s) j) _) by (apply Rw_vb; auto; apply Hl; cbn; auto).
  destruct (bound_insert_location _ _) as [[|]| |]; cbn; auto. rewrite IH by (intros; apply Hl; cbn; auto). reflexivity.
Qed.
Lemma map_insert {A B} (g : A -> B) l k x : list_insert (map g l) k (g x) = map g (list_insert l k x).
Proof. unfold list_insert. rewrite map_app, firstn_map, skipn_map. reflexivity. Qed.
Lemma in_insert {A} (l : list A) k x y : In y (list_insert l k x) -> y = x \/ In y l.
Proof.
  unfold list_insert. intros H. apply in_app_or in H. destruct H as [H|[->|H]]; auto; right;
    [rewrite <- (firstn_skipn k l)|rewrite <- (firstn_skipn k l)]; apply in_or_app; auto.
Qed.
Lemma rl_insert_bound_into_abl w i j : wX w i -> wX w j ->
  rl w (fun _ a a' => a' = a) (insert_bound_into_abl i j) (insert_bound_into_abl (be i) (be j)).
Proof.
  intros Hi Hj s t K. unfold insert_bound_into_abl. unfold bind at 1 4, get. unfold bind at 1 3, lift.
  rewrite (rw_abl _ _ _ K). rewrite (find_insert_eq w s t i K Hi) by apply (rw_act _ _ _ K).
  destruct (find_insert _ _ _) as [k| |]; cbn; auto. exists w. split; [apply wle_refl|]. split; [reflexivity|].
  rewrite (rw_abl _ _ _ K). change (Some (be j)) with (option_map be (Some j)). change (Some (be i)) with (option_map be (Some i)).
  rewrite !map_insert. apply Rw_set_abl; [exact K|]. intros l Hl. apply in_insert in Hl. destruct Hl as [[= ->]|Hl]; [exact Hi|].
  apply in_insert in Hl. destruct Hl as [[= ->]|Hl]; [exact Hj|]. exact (rw_act _ _ _ K _ Hl).
Qed.
Hint Resolve rl_insert_bound_into_abl : rel.

(** a bound enters the sweep *)
Definition grow (w : world) (i : bid) : world := World (fun j => wX w j \/ j = i) (wL w).
Lemma grow_le w i : wle w (grow w i). Proof. split; cbn; auto. Qed.
Lemma Rw_grow w s t B B' b b' i : Rw w s t -> P i ->
  (forall j, bget B j = if Pos.eqb i j then b else bget (s_bounds s) j) ->
  (forall j, bget B' j = if Pos.eqb (be i) j then b' else bget (s_bounds t) j) ->
  stat b b' -> core b b' -> (v = true -> full b b') -> (wL w i -> b_last b' = b_last b) -> (v = true -> b_ring b = None) ->
  Rw (grow w i) (s <| s_bounds := B |>) (t <| s_bounds := B' |>).
Proof.
  intros [H1 H2 H3 H4 H5 H6 H7 H8 H9] Pi Hb Hb' Hs Hc Hf Hl Hr.
  assert (G : forall j, bget B' (be j) = if Pos.eqb i j then b' else bget (s_bounds t) (be j)).
  { intros j. rewrite Hb'. destruct (Pos.eqb_spec i j) as [->|N]; [rewrite Pos.eqb_refl; reflexivity|].
    destruct (Pos.eqb_spec (be i) (be j)) as [Q|_]; [apply Inj in Q; contradiction|reflexivity]. }
  assert (N : forall j, i <> j -> wX w j \/ j = i -> wX w j) by (intros j N [K|K]; [exact K|congruence]).
  constructor; cbn.
  - rewrite H1. reflexivity.
  - exact H2.
  - intros j Hj. left. auto.
  - intros j Hj. rewrite G, Hb. destruct (Pos.eqb_spec i j) as [->|Q]; auto.
  - intros j Hj. rewrite G, Hb. destruct (Pos.eqb_spec i j) as [->|Q]; auto.
  - intros Hv j Hj. rewrite G, Hb. destruct (Pos.eqb_spec i j) as [->|Q]; auto.
  - intros j Hj. rewrite G, Hb. destruct (Pos.eqb_spec i j) as [->|Q]; auto.
  - intros Hv j Hj. rewrite Hb. destruct (Pos.eqb_spec i j) as [->|Q]; [rewrite (Hr Hv); contradiction|auto].
  - intros j [Hj| ->]; auto.
Qed.
Lemma nth_res_0 {A} (l : list A) : l <> [] -> exists x, nth_res l 0 = Ok x.
Proof. destruct l as [|x l]; [contradiction|]. intros _. exists x. reflexivity. Qed.
Lemma clip_0 b : clip_index b 0 = 0%nat.
Proof. unfold clip_index. destruct (b_edges b); reflexivity. Qed.
Lemma rl_start_bound w i : v = false -> P i -> rl w (fun w' _ _ => wX w' i) (start_bound i) (start_bound (be i)).
Proof.
  intros Hv Pi s t K. pose proof (rw_stat _ _ _ K i Pi) as Hs. pose proof Hs as (E1 & E2 & E3 & E4 & E5 & E6).
  destruct (nth_res_0 _ E5) as (e & He).
  assert (Rn : forall s i, nth_res (b_edges (bget (s_bounds s) i)) 0 = Ok e ->
             start_bound i s = Ok (tt, s <| s_bounds := hset (hset (s_bounds s) i (bget (s_bounds s) i <| b_cur := 0%nat |> <| b_next := clip_index (bget (s_bounds s) i) 1 |>)) i
                                        (bget (s_bounds s) i <| b_cur := 0%nat |> <| b_next := clip_index (bget (s_bounds s) i) 1 |> <| b_cx := NI (px (ebot e)) |>) |>)).
  { clear. intros s i He. unfold start_bound, current_edge, upd_bound, bind, modify, bd, gets, lift. cbn [s_bounds set].
    rewrite clip_0. cbn. rewrite !bget_hset_eq. unfold cur_edge_of. cbn. rewrite He. cbn. rewrite !bget_hset_eq. reflexivity. }
  rewrite (Rn s i He). rewrite (Rn t (be i)) by (rewrite E1; exact He). cbn.
  exists (grow w i). split; [apply grow_le|]. split; [right; reflexivity|].
  eapply Rw_grow; [exact K|exact Pi| | | | | | |].
  - intros j. rewrite !bget_hset. destruct (Pos.eqb i j); reflexivity.
  - intros j. rewrite !bget_hset. destruct (Pos.eqb (be i) j); reflexivity.
  - exact Hs.
  - unfold core, clip_index. cbn. rewrite E1. auto.
  - intros Hv'. congruence.
  - cbn. exact (rw_last _ _ _ K i).
  - intros Hv'. congruence.
Qed.
Record lmr (m m' : local_minimum) : Prop := {
  lmr_l : lm_left m' = be (lm_left m); lmr_r : lm_right m' = be (lm_right m);
  lmr_y : lm_y m' = lm_y m; lmr_h : lm_hor m' = lm_hor m;
  lmr_pl : P (lm_left m); lmr_pr : P (lm_right m)
}.
Lemma rl_bd_stat w i : P i -> rl w (fun _ b b' => stat b b') (bd i) (bd (be i)).
Proof. intros Hi s t K. cbn. exists w. split; [apply wle_refl|]. split; [|exact K]. exact (rw_stat _ _ _ K i Hi). Qed.
Lemma rl_loop_eq {X A} f (b b' : X -> prog (X + A)) w x :
  (forall w x, rl w (fun _ r r' => r' = r) (b x) (b' x)) -> rl w (fun _ a a' => a' = a) (loopM f b x) (loopM f b' x).
Proof.
  intros H. eapply (rl_loop (fun _ x x' => x' = x) (fun _ a a' => a' = a)); [reflexivity|]. intros w1 y ? ->. eapply rl_weak; [apply H|].
  intros w2 r ? _ ->. destruct r; reflexivity.
Qed.
Lemma rl_insert_minima_hot_pixel fu w y ms ms' k : v = false -> Forall2 lmr ms ms' ->
  rl w (fun _ a a' => a' = a) (insert_minima_hot_pixel fu y ms k) (insert_minima_hot_pixel fu y ms' k).
Proof.
  intros Hv F. unfold insert_minima_hot_pixel. apply rl_loop_eq. clear w k. intros w k.
  pose proof (F2_nth _ k _ _ F) as N. destruct (nth_error ms k) as [m|], (nth_error ms' k) as [m'|]; try contradiction; [|ra].
  destruct N as [-> -> -> _ Pl Pr]. destruct (_ =? _)%Z; [|ra].
  eapply rl_bind; [apply rl_bd_stat, Pl|]. intros w1 b b' L1 (-> & _). clear L1 w. cbv beta.
  rl_step; [ra|]. rl_step; [ra|].
  eapply rl_bind; [apply rl_start_bound; assumption|]. intros w2 ? ? L2 H2. cbv beta in H2. clear L2.
  eapply rl_bind; [apply rl_start_bound; assumption|]. intros w3 ? ? L3 H3. cbv beta in H3. up L3.
  ra.
Qed.
Hint Resolve rl_insert_minima_hot_pixel : rel.
Lemma rl_shift_bound w y d i : wX w i -> forall idx k, rl w (fun _ a a' => a' = a) (shift_bound y d i k idx) (shift_bound y d (be i) k idx).
Proof.
  intros Hi idx. revert w Hi. induction idx as [|j idx IH]; intros w Hi k; cbn [shift_bound]; ra.
Qed.
Hint Resolve rl_shift_bound : rel.
Lemma rl_horizontals_at_top_scanbeam w y k : rl w (fun _ a a' => a' = a) (horizontals_at_top_scanbeam y k) (horizontals_at_top_scanbeam y k).
Proof. unfold horizontals_at_top_scanbeam. ra; rewrite map_length; ra. Qed.
Hint Resolve rl_horizontals_at_top_scanbeam : rel.
Lemma rl_abl_scan {A} w k (x x' y y' : prog A) (z z' : bid -> prog A) :
  (forall w, rl w (fun _ a a' => a' = a) x x') -> (forall w, rl w (fun _ a a' => a' = a) y y') ->
  (forall w i, wX w i -> rl w (fun _ a a' => a' = a) (z i) (z' (be i))) ->
  rl w (fun _ a a' => a' = a)
     (abl <- gets s_abl ;; match nth_error abl k with None => x | Some None => y | Some (Some i) => z i end)
     (abl <- gets s_abl ;; match nth_error abl k with None => x' | Some None => y' | Some (Some i) => z' i end).
Proof.
  intros Hx Hy Hz. rl_step. rewrite nth_error_map. destruct (nth_error l k) as [[i|]|] eqn:Ek; cbn; auto.
  apply Hz. apply H0. eapply nth_error_In; eauto.
Qed.
Lemma rl_hot_pixel_edges_of fu w y i k : wX w i -> rl w (fun _ a a' => a' = a) (hot_pixel_edges_of fu y i k) (hot_pixel_edges_of fu y (be i) k).
Proof.
  intros Hi. unfold hot_pixel_edges_of.
  eapply (rl_loop (fun w x x' => x' = x /\ wX w i) (fun _ a a' => a' = a)); [auto|]. clear w Hi k.
  intros w [k sh] ? (-> & Hi). apply (rl_weak _ (fun w' r r' => r' = r /\ wX w' i)).
  2:{ intros w1 r ? _ (-> & H). destruct r; auto. }
  apply rl_keep; [exact Hi|]. ra.
Qed.
Hint Resolve rl_hot_pixel_edges_of : rel.
Lemma rl_process_hot_pixel_edges fu w y : rl w (fun _ a a' => a' = a) (process_hot_pixel_edges fu y) (process_hot_pixel_edges fu y).
Proof.
  unfold process_hot_pixel_edges. rl_step; [|ra]. apply rl_loop_eq. clear w. intros w k. apply rl_abl_scan; clear w; intros w; [ra|ra|].
  intros i Hi. ra.
Qed.
Hint Resolve rl_process_hot_pixel_edges : rel.
Lemma bl_sort_hot_pixels fu : blind (sort_hot_pixels fu).
Proof. unfold sort_hot_pixels. bl. Qed.
Lemma rl_sweep_pending w ms ms' k : length ms' = length ms -> rl w (fun _ a a' => a' = a) (sweep_pending ms k) (sweep_pending ms' k).
Proof. intros H. unfold sweep_pending. rewrite H. apply rl_blind. bl. Qed.
Lemma F2_pure_sort {A A'} (V : A -> A' -> Prop) lt lt' l l' :
  (forall a b a' b', V a a' -> V b b' -> lt' a' b' = lt a b) -> Forall2 V l l' -> Forall2 V (pure_sort lt l) (pure_sort lt' l').
Proof.
  intros H F. unfold pure_sort.
  pose proof (rq_py_sort (fun _ _ : unit => True) V (fun a b => ret (lt a b)) (fun a b => ret (lt' a b))) as G.
  specialize (G (fun a b a' b' Ha Hb => rq_ret _ _ _ _ (eq_sym (H a b a' b' Ha Hb)))).
  specialize (G l l' F tt tt I). unfold orel in G.
  destruct (py_sort _ l tt) as [[r u]| |], (py_sort _ l' tt) as [[r' u']| |]; try contradiction; auto. apply G.
Qed.
Lemma lmr_lt a b a' b' : lmr a a' -> lmr b b' -> lm_lt a' b' = lm_lt a b.
Proof. intros [_ _ H1 H2 _ _] [_ _ H3 H4 _ _]. unfold lm_lt. rewrite H1, H2, H3, H4. reflexivity. Qed.
Lemma lmr_sorted ms ms' : Forall2 lmr ms ms' -> Forall2 lmr (pure_sort_rev lm_lt ms) (pure_sort_rev lm_lt ms').
Proof. intros H. unfold pure_sort_rev. apply F2_rev, F2_pure_sort; [apply lmr_lt|]. apply F2_rev, H. Qed.
Lemma lmr_scan ms ms' : Forall2 lmr ms ms' -> scanbeams_of ms' = scanbeams_of ms.
Proof. intros H. unfold scanbeams_of. f_equal. induction H as [|m m' ms ms' [_ _ H1 _ _ _] _ IH]; cbn; congruence. Qed.
Lemma Rw_start w s t (f : st -> st) : Rw w s t ->
  (forall B L s, f (veil B L s) = veil B [] (f s)) -> (forall s, s_bounds (f s) = s_bounds s) -> (forall s, s_abl (f s) = []) -> Rw w (f s) (f t).
Proof.
  intros [H1 H2 H3 H4 H5 H6 H7 H8 H9] Hf Hb Ha. constructor; rewrite ?Hb, ?Ha; auto.
  - rewrite H1 at 1. rewrite Hf. reflexivity.
  - intros i [].
Qed.
Lemma rl_build_hot_pixels fu w ms ms' : v = false -> Forall2 lmr ms ms' ->
  rl w (fun _ a a' => a' = a) (build_hot_pixels fu ms) (build_hot_pixels fu ms').
Proof.
  intros Hv F. unfold build_hot_pixels. cbv zeta. rewrite (lmr_scan _ _ F). pose proof (lmr_sorted _ _ F) as Fs.
  set (l := pure_sort_rev lm_lt ms) in *. set (l' := pure_sort_rev lm_lt ms') in *.
  apply rl_eq_bind.
  { intros s t K. cbn. exists w. split; [apply wle_refl|]. split; [reflexivity|].
    apply (Rw_start w s t (fun s => s <| s_scan := scanbeams_of ms |> <| s_abl := [] |>)); try reflexivity. exact K. }
  intros w1 _ L1. clear L1. apply rl_eq_bind; [|intros; apply rl_blind, bl_sort_hot_pixels].
  apply rl_loop_eq. clear w w1. intros w [y k]. apply rl_eq_bind; [apply rl_sweep_pending, (F2_length _ _ _ Fs)|]. intros w1 go L1. clear L1. ra.
Qed.

(** ** The Vatti pass *)
Section V.
Context (Hv : v = true).
Lemma rl_get w : rl w (fun w' s t => Rw w' s t) get get.
Proof. intros s t K. cbn. exists w. auto using wle_refl. Qed.
Lemma hp_eq w s t : Rw w s t -> s_hp t = s_hp s. Proof. intros K. rewrite (rw_same _ _ _ K). reflexivity. Qed.
Lemma hpi_eq w s t : Rw w s t -> s_hpi t = s_hpi s. Proof. intros K. rewrite (rw_same _ _ _ K). reflexivity. Qed.
Lemma rl_keepL {A} w m m' i : wL w i -> rl w (fun _ (a a' : A) => a' = a) m m' -> rl w (fun w' a a' => a' = a /\ wL w' i) m m'.
Proof. intros Hi H. eapply rl_weak; [exact H|]. cbv beta. intros w' a a' L1 ->. split; [reflexivity|]. exact (wle_L _ _ _ L1 Hi). Qed.
Lemma rl_loop_mono (T : world -> Prop) {X A} f (b b' : X -> prog (X + A)) w x : (forall w w', wle w w' -> T w -> T w') -> T w ->
  (forall w x, T w -> rl w (fun _ r r' => r' = r) (b x) (b' x)) -> rl w (fun _ a a' => a' = a) (loopM f b x) (loopM f b' x).
Proof.
  intros Mo Tw H. eapply (rl_loop (fun w x x' => x' = x /\ T w) (fun _ a a' => a' = a)); [auto|]. intros w1 y ? (-> & T1).
  eapply rl_weak; [apply H, T1|]. cbv beta. intros w2 r ? L ->. destruct r; eauto.
Qed.

Context (op op' : operation_kind) (sfk cfk sfk' cfk' : fill_kind).
Context (Hkm : forall a b, kind_eqb (km a) (km b) = kind_eqb a b).
Context (Heo : forall k, (zo = true -> k = SUBJECT) -> even_odd_fill sfk' cfk' (km k) = even_odd_fill sfk cfk k).
Context (Heoa : zo = false -> forall k, even_odd_alt_fill sfk' cfk' (km k) = even_odd_alt_fill sfk cfk k).
Context (Hco : forall k wc owc, (zo = true -> k = SUBJECT /\ owc = 0%Z) ->
  is_contributing op' sfk' cfk' (km k) wc owc = is_contributing op sfk cfk k wc owc).
Context (Hcr : forall c1 c2 k1 k2 a b c d, (zo = true -> (k1 = SUBJECT /\ b = 0%Z) /\ k2 = SUBJECT /\ d = 0%Z) ->
  crossing op' sfk' cfk' c1 c2 (km k1) (km k2) a b c d = crossing op sfk cfk c1 c2 k1 k2 a b c d).
Definition wdr (b b' : bound) : Prop := b_kind b' = km (b_kind b) /\ b_wd b' = b_wd b /\ b_wc b' = b_wc b /\ b_owc b' = b_owc b /\
  (zo = true -> b_kind b = SUBJECT /\ b_owc b = 0%Z).
Lemma wdr_split k : forall l l', Forall2 wdr l l' -> forall a a', Forall2 wdr a a' ->
  match split_same_kind k l a, split_same_kind (km k) l' a' with
  | (o, r), (o', r') => Forall2 wdr r r' /\ match o, o' with Some b, Some b' => wdr b b' | None, None => True | _, _ => False end end.
Proof.
  intros l l' F. induction F as [|b b' l l' Hb F IH]; intros a a' Fa; cbn; auto.
  pose proof Hb as (E1 & _). rewrite E1, Hkm. destruct (kind_eqb _ _); auto. apply IH. auto.
Qed.
Lemma zo_split : zo = true -> forall l l', Forall2 wdr l l' -> split_same_kind SUBJECT l [] = match l with [] => (None, []) | b :: _ => (Some b, []) end.
Proof. intros Z l l' F. destruct F as [|b b' l l' Hb F]; [reflexivity|]. destruct Hb as (_ & _ & _ & _ & Hz). destruct (Hz Z) as (Hk & _). cbn. rewrite Hk. reflexivity. Qed.
Lemma wdr_counts k wd l l' : (zo = true -> k = SUBJECT) -> Forall2 wdr l l' ->
  winding_counts sfk' cfk' l' (km k) wd = winding_counts sfk cfk l k wd /\ (zo = true -> snd (winding_counts sfk cfk l k wd) = 0%Z).
Proof.
  intros Zk F. pose proof (F2_rev _ _ _ F) as Fv. pose proof (wdr_split k _ _ Fv [] [] (Forall2_nil _)) as G.
  assert (Zs : zo = true -> match l with [] => True | _ => exists p, split_same_kind k (rev l) [] = (Some p, []) /\ b_owc p = 0%Z end).
  { intros Z. rewrite (Zk Z). rewrite (zo_split Z _ _ Fv). destruct l as [|b l]; [exact I|].
    destruct (rev (b :: l)) as [|x m] eqn:Ev; [destruct (app_cons_not_nil (rev l) [] b); symmetry; exact Ev|].
    exists x. split; [reflexivity|]. inversion Fv as [|? x' ? m' (_ & _ & _ & _ & Hz) Fv']; subst. apply Hz, Z. }
  unfold winding_counts.
  destruct (split_same_kind k (rev l) []) as [o r], (split_same_kind (km k) (rev l') []) as [o' r']. destruct G as (Fr & G).
  destruct F as [|b b' l l' Hb F]; [auto|].
  assert (A : forall z, fold_left (fun z _ => toggle z) r' z = fold_left (fun z (_ : bound) => toggle z) r z) by (clear -Fr; induction Fr; cbn; auto).
  assert (B : forall z, fold_left (fun z b => z + b_wd b)%Z r' z = fold_left (fun z b => z + b_wd b)%Z r z).
  { clear -Fr. induction Fr as [|x x' r r' (_ & H & _) Fr IH]; cbn; auto. intros z. rewrite H. apply IH. }
  rewrite (Heo k Zk).
  destruct zo eqn:Z.
  - destruct (Zs eq_refl) as (p & [= -> ->] & Op). destruct o' as [p'|]; try contradiction. destruct G as (_ & -> & -> & -> & _). inversion Fr; subst.
    destruct (even_odd_fill sfk cfk k); cbn; rewrite Op; destruct (even_odd_alt_fill _ _ _), (even_odd_alt_fill _ _ _); auto.
  - rewrite (Heoa eq_refl k). split; [|discriminate].
    destruct o as [p|], o' as [p'|]; try contradiction; [destruct G as (_ & -> & -> & -> & _)|];
      try destruct (even_odd_fill sfk cfk k); rewrite ?A, ?B; reflexivity.
Qed.
Lemma rl_set_winding_count w k : rl w (fun _ a a' => a' = a) (set_winding_count sfk cfk k) (set_winding_count sfk' cfk' k).
Proof.
  unfold set_winding_count. rl_step. eapply rl_bind; [apply rl_get|]. intros w1 s t L1 K. up L1.
  assert (F : Forall2 wdr (flat_map (fun o => match o with Some j => [bget (s_bounds s) j] | None => [] end) (firstn k (s_abl s)))
                          (flat_map (fun o => match o with Some j => [bget (s_bounds t) j] | None => [] end) (firstn k (s_abl t)))).
  { rewrite (rw_abl _ _ _ K), firstn_map. assert (G : forall j, In (Some j) (firstn k (s_abl s)) -> wX w1 j).
    { intros j Hj. apply (rw_act _ _ _ K). rewrite <- (firstn_skipn k (s_abl s)). apply in_or_app. auto. }
    induction (firstn k (s_abl s)) as [|[j|] l IH]; cbn; auto.
    - constructor; [|apply IH; intros; apply G; cbn; auto]. assert (Xj : wX w1 j) by (apply G; cbn; auto).
      destruct (Rw_vb _ _ _ _ K Xj) as [(_ & S2 & S3 & _ & _ & S6) _ Fu _ _]. destruct (Fu Hv) as (F1 & F2 & _ & _ & F5). unfold wdr. auto 10.
    - apply IH. intros; apply G; cbn; auto. }
  rl_step. match goal with Hk : zo = true -> b_kind ?b = SUBJECT |- _ => pose proof (fun wd => wdr_counts (b_kind b) wd _ _ Hk F) as Wc end.
  match goal with |- context [winding_counts sfk cfk ?l ?k ?d] => destruct (Wc d) as (-> & Zc); destruct (winding_counts sfk cfk l k d) as [wc owc] end. clear Wc F K. cbn [snd] in Zc. ra.
Qed.
Hint Resolve rl_set_winding_count : rel.
Lemma rl_init_bound w i sd : P i -> rl w (fun w' _ _ => wX w' i) (init_bound i sd) (init_bound (be i) sd).
Proof.
  intros Pi s t K. pose proof (rw_stat _ _ _ K i Pi) as Hs. pose proof Hs as (E1 & E2 & E3 & E4 & E5 & E6).
  unfold init_bound. unfold bind at 1 3. unfold bd at 1 2, gets. rewrite E1.
  destruct (b_edges (bget (s_bounds s) i)) as [|e l] eqn:Ee; [contradiction|]. unfold bind, lift, upd_bound, modify.
  destruct (float_of_Z _) as [x| |]; cbn; auto.
  exists (grow w i). split; [apply grow_le|]. split; [right; reflexivity|].
  eapply Rw_grow; [exact K|exact Pi| | | | | | |].
  - intros j. rewrite bget_hset. reflexivity.
  - intros j. rewrite bget_hset. reflexivity.
  - exact Hs.
  - unfold core, clip_index. cbn. rewrite E1, Ee. auto.
  - intros _. unfold full. cbn. auto.
  - cbn. exact (rw_last _ _ _ K i).
  - reflexivity.
Qed.
Lemma rl_initialize w m m' : lmr m m' -> rl w (fun w' _ _ => wX w' (lm_left m) /\ wX w' (lm_right m)) (initialize m) (initialize m').
Proof.
  intros [H1 H2 _ _ Pl Pr]. unfold initialize. rewrite H1, H2. eapply rl_bind; [apply rl_init_bound, Pl|]. intros w1 ? ? _ X1. cbv beta in X1.
  eapply rl_weak; [apply rl_init_bound, Pr|]. cbv beta. intros w2 _ _ L2 X2. split; [exact (wle_X _ _ _ L2 X1)|exact X2].
Qed.

Context (fu : nat).
Lemma last_index_be i : forall l k acc, last_index (be i) (map (option_map be) l) k acc = last_index i l k acc.
Proof. induction l as [|o l IH]; intros k acc; cbn; auto. rewrite IH. change (Some (be i)) with (option_map be (Some i)). rewrite opt_is_be. reflexivity. Qed.
Lemma Rw_ring w s t j : Rw w s t -> wX w j -> b_ring (bget (s_bounds t) (be j)) = b_ring (bget (s_bounds s) j).
Proof. intros K Hj. destruct (rw_full _ _ _ K Hv j Hj) as (_ & _ & _ & G & _). exact G. Qed.
Lemma hole_scan_be w s t : Rw w s t -> forall l tmp, (forall j, In (Some j) l -> wX w j) -> (forall j, tmp = Some j -> wX w j) ->
  vo w (hole_scan (s_bounds s) l tmp) (hole_scan (s_bounds t) (map (option_map be) l) (option_map be tmp)).
Proof.
  intros K. induction l as [|[j|] l IH]; intros tmp Hl Ht; cbn [hole_scan map option_map].
  - split; [reflexivity|exact Ht].
  - assert (Xj : wX w j) by (apply Hl; cbn; auto). rewrite (Rw_ring w s t j K Xj).
    assert (Hl' : forall j, In (Some j) l -> wX w j) by (intros; apply Hl; cbn; auto).
    destruct (b_ring (bget (s_bounds s) j)) as [r|]; [|apply IH; auto].
    destruct tmp as [x|]; cbn [option_map].
    + rewrite (Rw_ring w s t x K) by auto. destruct (opt_is _ _).
      * apply (IH None); auto. discriminate.
      * apply (IH (Some x)); auto.
    + apply (IH (Some j)); auto. intros ? [= <-]. exact Xj.
  - apply IH; auto. intros; apply Hl; cbn; auto.
Qed.
Definition hole_tail (parent : option rid) (r : rid) : prog unit :=
  (upd_ring r (fun x => x <| r_parent := parent |>) ;; l <- children_of parent ;; set_children parent (l ++ [Some r])).
Lemma bl_hole_tail p r : blind (hole_tail p r).
Proof. unfold hole_tail. bl. Qed.
Definition hole_parent (B : heap bound) (L : list (option bid)) (k : nat) : option rid :=
  match hole_scan B (rev (firstn k L)) None with None => None | Some t => b_ring (bget B t) end.
Lemma rl_set_hole_state w i : wX w i -> rl w (fun _ a a' => a' = a) (set_hole_state i) (set_hole_state (be i)).
Proof.
  intros Hi. unfold set_hole_state. eapply rl_bind; [apply rl_get|]. intros w1 s t L1 K. up L1.
  pose proof (rw_abl _ _ _ K) as Ea. rewrite Ea, last_index_be.
  destruct (last_index i (s_abl s) 0 None) as [k|]; [|ra]. cbv zeta.
  pose proof (hole_scan_be w1 s t K (rev (firstn k (s_abl s))) None) as G. cbn [option_map] in G.
  rewrite map_rev, <- firstn_map in G.
  destruct G as (G1 & G2); [|discriminate|].
  { intros j Hj. apply (rw_act _ _ _ K). apply in_rev in Hj. rewrite <- (firstn_skipn k (s_abl s)). apply in_or_app. auto. }
  rewrite G1. destruct (hole_scan (s_bounds s) _ None) as [x|]; cbn [option_map]; [rewrite (Rw_ring w1 s t x K) by auto|]; ra.
Qed.
Hint Resolve rl_set_hole_state : rel.

(** [add_first_point] with the two writes to the bound joined *)
Definition add_first_point' (i : bid) (p : point) : prog unit :=
  (r <- create_ring ;;
   upd_bound i (fun b => b <| b_ring := Some r |> <| b_last := p |>) ;;
   n <- create_point_node (Some r) p None ;;
   upd_ring r (fun x => x <| r_node := Some n |>) ;;
   set_hole_state i).
Definition lastly (i : bid) (p : point) (s : st) : st := s <| s_bounds := hset (s_bounds s) i (bget (s_bounds s) i <| b_last := p |>) |>.
Definition late {A} (i : bid) (p : point) (m : prog A) : Prop := forall s,
  m (lastly i p s) = match m s with Ok (a, s1) => Ok (a, lastly i p s1) | Raise e => Raise e | NoFuel => NoFuel end.
Lemma late_blind {A} i p (m : prog A) : blind m -> late i p m.
Proof.
  intros B s. assert (C : forall s, s = veil (s_bounds s) (s_abl s) s) by (intros []; reflexivity).
  pose proof (B (s_bounds s) (s_abl s) s) as Bs. rewrite <- C in Bs.
  pose proof (B (s_bounds (lastly i p s)) (s_abl s) s) as Bt.
  replace (lastly i p s) with (veil (s_bounds (lastly i p s)) (s_abl s) s) by (destruct s; reflexivity).
  rewrite Bt. destruct (m s) as [[a s1]| |] eqn:Em; auto. injection Bs as Bs. do 2 f_equal.
  rewrite Bs. reflexivity.
Qed.
Lemma late_bind {A B} i p (m : prog A) (k : A -> prog B) : late i p m -> (forall a, late i p (k a)) -> late i p (bind m k).
Proof. intros H K s. unfold bind. rewrite H. destruct (m s) as [[a s1]| |]; [apply K|reflexivity|reflexivity]. Qed.
Lemma lastly_ring i p s j : b_ring (bget (s_bounds (lastly i p s)) j) = b_ring (bget (s_bounds s) j).
Proof. cbn. rewrite bget_hset. destruct (Pos.eqb_spec i j) as [->|_]; reflexivity. Qed.
Lemma hole_scan_ext h h' : (forall j, b_ring (bget h' j) = b_ring (bget h j)) -> forall l tmp, hole_scan h' l tmp = hole_scan h l tmp.
Proof. intros H. induction l as [|o l IH]; intros tmp; cbn; auto. rewrite IH. destruct o as [j|]; [|reflexivity]. rewrite H. destruct (b_ring _), tmp as [x|]; try reflexivity. rewrite H. reflexivity. Qed.
Lemma run_get {A} (k : st -> prog A) s : bind get k s = k s s. Proof. reflexivity. Qed.
Lemma run_bd {A} i (k : bound -> prog A) s : bind (bd i) k s = k (bget (s_bounds s) i) s. Proof. reflexivity. Qed.
Lemma late_set_hole_state i p : late i p (set_hole_state i).
Proof.
  intros s. unfold set_hole_state. rewrite !run_get. cbv beta. change (s_abl (lastly i p s)) with (s_abl s).
  destruct (last_index i (s_abl s) 0 None) as [k|]; [|reflexivity]. cbv zeta.
  rewrite (hole_scan_ext (s_bounds s) (s_bounds (lastly i p s)) (lastly_ring i p s)).
  set (par := match hole_scan (s_bounds s) _ None with None => None | Some t => b_ring (bget (s_bounds s) t) end).
  replace (match hole_scan (s_bounds s) _ None with None => None | Some t => b_ring (bget (s_bounds (lastly i p s)) t) end) with par
    by (unfold par; destruct (hole_scan _ _ _); [rewrite lastly_ring|]; reflexivity).
  clearbody par. rewrite !run_bd, lastly_ring.
  apply (late_bind i p); [apply late_blind; bl|]. intros r. apply late_blind. apply bl_hole_tail.
Qed.
Lemma add_add (m : heap bound) i x y : hset (hset m i x) i y = hset m i y.
Proof. unfold hset. revert m. induction i as [i IH|i IH|]; intros [|l o r]; cbn; rewrite ?IH; reflexivity. Qed.
Lemma add_first_point_eq i p s : add_first_point i p s = add_first_point' i p s.
Proof.
  unfold add_first_point, add_first_point'. unfold bind at 1 6. destruct (create_ring s) as [[r s1]| |]; auto.
  unfold bind at 1 5. unfold upd_bound at 1 3, modify.
  set (s2 := s1 <| s_bounds := hset (s_bounds s1) i (bget (s_bounds s1) i <| b_ring := Some r |>) |>).
  replace (s1 <| s_bounds := hset (s_bounds s1) i (bget (s_bounds s1) i <| b_ring := Some r |> <| b_last := p |>) |>) with (lastly i p s2).
  2:{ unfold lastly, s2. cbn. rewrite add_add, bget_hset_eq. reflexivity. }
  assert (L : late i p (n <- create_point_node (Some r) p None ;; upd_ring r (fun x => x <| r_node := Some n |>) ;; set_hole_state i)).
  { apply late_bind; [apply late_blind; bl|]. intros n. apply late_bind; [apply late_blind; bl|]. intros _. apply late_set_hole_state. }
  specialize (L s2). fold s2 in L. rewrite L. clear L. clearbody s2. clear s1.
  unfold bind. destruct (create_point_node _ _ _ s2) as [[n s3]| |]; auto. destruct (upd_ring r _ s3) as [[[] s4]| |]; auto.
  destruct (set_hole_state i s4) as [[[] s5]| |]; auto.
Qed.
Lemma rl_add_first_point w i p : wX w i -> rl w (fun _ a a' => a' = a) (add_first_point i p) (add_first_point (be i) p).
Proof.
  intros Hi s t K. rewrite !add_first_point_eq. revert s t K. change (rl w (fun _ a a' => a' = a) (add_first_point' i p) (add_first_point' (be i) p)).
  unfold add_first_point'. ra.
Qed.
Hint Resolve rl_add_first_point : rel.
Lemma rl_put_point w i p : wX w i -> rl w (fun _ a a' => a' = a) (put_point i p) (put_point (be i) p).
Proof. intros Hi. unfold put_point. ra. Qed.
Hint Resolve rl_put_point : rel.
Lemma rl_hot_pixel_walk i ex ae sk sp l : forall w, wX w i -> rl w (fun _ a a' => a' = a) (hot_pixel_walk i ex ae sk sp l) (hot_pixel_walk (be i) ex ae sk sp l).
Proof. induction l as [|h l IH]; intros w Hi; cbn [hot_pixel_walk]; ra. Qed.
Hint Resolve rl_hot_pixel_walk : rel.
Lemma rl_hp_ltr w y sx ex i g ae : wX w i -> rl w (fun _ a a' => a' = a) (hot_pixel_set_left_to_right y sx ex i g ae) (hot_pixel_set_left_to_right y sx ex (be i) g ae).
Proof. intros Hi. unfold hot_pixel_set_left_to_right. ra. Qed.
Lemma rl_hp_rtl w y sx ex i g ae : wX w i -> rl w (fun _ a a' => a' = a) (hot_pixel_set_right_to_left y sx ex i g ae) (hot_pixel_set_right_to_left y sx ex (be i) g ae).
Proof. intros Hi. unfold hot_pixel_set_right_to_left. ra. Qed.
Hint Resolve rl_hp_ltr rl_hp_rtl : rel.
Lemma rl_insert_hot_pixels_in_path w i p ae : wX w i -> wL w i ->
  rl w (fun _ a a' => a' = a) (insert_hot_pixels_in_path i p ae) (insert_hot_pixels_in_path (be i) p ae).
Proof.
  intros Hi Li. unfold insert_hot_pixels_in_path. eapply rl_bind; [apply rl_bd, Hi|]. intros w1 b b' L1 Vb. up L1.
  rewrite (vb_last _ _ _ _ Vb Li). clear Vb. destruct (point_eqb _ _); [ra|]. cbv zeta.
  eapply rl_bind; [apply rl_get|]. intros w2 s t L2 K. up L2. rewrite (hp_eq _ _ _ K), (hpi_eq _ _ _ K). clear K.
  rl_step; [ra|]. rl_step; [|ra].
  apply (rl_loop_mono (fun w => wX w i)); [intros; eapply wle_X; eauto|assumption|]. intros w3 k H3. ra.
Qed.
Hint Resolve rl_insert_hot_pixels_in_path : rel.
Lemma rl_add_point_to_ring w i p : wX w i -> rl w (fun _ a a' => a' = a) (add_point_to_ring i p) (add_point_to_ring (be i) p).
Proof. intros Hi. unfold add_point_to_ring. ra. Qed.
Hint Resolve rl_add_point_to_ring : rel.
Lemma rl_add_point w i p : wX w i -> rl w (fun _ a a' => a' = a) (add_point i p) (add_point (be i) p).
Proof. intros Hi. unfold add_point. ra. Qed.
Hint Resolve rl_add_point : rel.
Lemma rl_add_local_minimum_point w i j p : wX w i -> wX w j -> rl w (fun _ a a' => a' = a) (add_local_minimum_point p i j) (add_local_minimum_point p (be i) (be j)).
Proof. intros Hi Hj. unfold add_local_minimum_point. ra. Qed.
Hint Resolve rl_add_local_minimum_point : rel.

Lemma find_ring_bound_be w s t r : Rw w s t -> forall l, (forall j, In (Some j) l -> wX w j) ->
  find_ring_bound (s_bounds t) r (map (option_map be) l) = option_map be (find_ring_bound (s_bounds s) r l) /\
  forall x, find_ring_bound (s_bounds s) r l = Some x -> wX w x /\ wL w x.
Proof.
  intros K. induction l as [|[j|] l IH]; intros Hl; cbn [find_ring_bound map option_map].
  - split; [reflexivity|discriminate].
  - assert (Xj : wX w j) by (apply Hl; cbn; auto). rewrite (Rw_ring w s t j K Xj).
    destruct (opt_is (b_ring (bget (s_bounds s) j)) (Some r)) eqn:Ej; [|apply IH; intros; apply Hl; cbn; auto].
    split; [reflexivity|]. intros x [= <-]. split; [exact Xj|]. apply (rw_ring _ _ _ K Hv j Xj). intros Z. rewrite Z in Ej. discriminate.
  - apply IH. intros; apply Hl; cbn; auto.
Qed.
Hint Resolve bl_is_descendant_of bl_lowermost_ring bl_join_chains bl_ring_depth bl_replace_ring bl_update_points : blind.
Lemma rl_append_ring w i j : wX w i -> wX w j -> rl w (fun _ a a' => a' = a) (append_ring fu i j) (append_ring fu (be i) (be j)).
Proof.
  intros Hi Hj. unfold append_ring. ra.
  match goal with |- context [if ?x then (_, _, _, _) else _] => destruct x end; cbv iota beta; ra;
    (eapply rl_bind; [apply rl_get|]; intros w4 s t L4 K; up L4; rewrite (rw_abl _ _ _ K);
     edestruct find_ring_bound_be as (G1 & G2); [exact K|apply (rw_act _ _ _ K)|]; rewrite G1; clear K G1;
     match goal with |- context [find_ring_bound ?a ?b ?c] => destruct (find_ring_bound a b c) as [x|] end; cbn [option_map];
     [destruct (G2 x eq_refl); clear G2; ra|ra]).
Qed.
Hint Resolve rl_append_ring : rel.
Lemma rl_add_local_maximum_point w i j p : wX w i -> wX w j -> wL w j ->
  rl w (fun _ a a' => a' = a) (add_local_maximum_point fu p i j) (add_local_maximum_point fu p (be i) (be j)).
Proof. intros Hi Hj Lj. unfold add_local_maximum_point. ra. Qed.
Hint Resolve rl_add_local_maximum_point : rel.

Lemma rl_swap_sides w i j : wX w i -> wX w j -> rl w (fun _ a a' => a' = a) (swap_sides i j) (swap_sides (be i) (be j)).
Proof. intros Hi Hj. unfold swap_sides. ra. Qed.
Lemma rl_swap_rings w i j : wX w i -> wX w j -> wL w i -> wL w j -> rl w (fun _ a a' => a' = a) (swap_rings i j) (swap_rings (be i) (be j)).
Proof. intros Hi Hj Li Lj. unfold swap_rings. ra. Qed.
Hint Resolve rl_swap_sides rl_swap_rings : rel.
Lemma cw_eq b b' c c' : stat b b' -> full b b' -> stat c c' -> full c c' ->
  crossed_windings sfk' cfk' b' c' = crossed_windings sfk cfk b c /\
  (zo = true -> snd (fst (crossed_windings sfk cfk b c)) = 0%Z /\ snd (snd (crossed_windings sfk cfk b c)) = 0%Z).
Proof.
  intros (_ & S2 & S3 & _ & _ & S6) (F1 & F2 & _ & _ & F5) (_ & T2 & T3 & _ & _ & T6) (G1 & G2 & _ & _ & G5).
  unfold crossed_windings. rewrite S2, S3, T2, T3, F1, F2, G1, G2, Hkm, !Heo by assumption. split; [reflexivity|].
  intros Z. rewrite (S6 Z), (T6 Z). cbn. destruct (even_odd_fill _ _ _); cbn; auto.
Qed.
Lemma vb_le w w' i b b' : wle w w' -> vb w i b b' -> (b_ring b <> None -> wL w' i).
Proof. intros L [_ _ _ R0 _] H. apply (wle_L _ _ _ L). auto. Qed.
Lemma crossing_both_first c1 c2 k1 k2 a b c d : crossing op sfk cfk c1 c2 k1 k2 a b c d = ActMaximum \/ crossing op sfk cfk c1 c2 k1 k2 a b c d = ActSwap -> c1 = true /\ c2 = true.
Proof. unfold crossing. intros H. destruct c1, c2; cbn in H; auto; exfalso; revert H;
  repeat match goal with |- context [if ?x then _ else _] => destruct x | |- context [match ?x with INTERSECTION => _ | _ => _ end] => destruct x end; intros [H|H]; discriminate. Qed.
Lemma crossing_first c1 c2 k1 k2 a b c d : crossing op sfk cfk c1 c2 k1 k2 a b c d = ActSwapFirst -> c1 = true.
Proof. unfold crossing. intros H. destruct c1, c2; cbn in H; auto; exfalso; revert H;
  repeat match goal with |- context [if ?x then _ else _] => destruct x | |- context [match ?x with INTERSECTION => _ | _ => _ end] => destruct x end; intros H; discriminate. Qed.
Lemma crossing_second c1 c2 k1 k2 a b c d : crossing op sfk cfk c1 c2 k1 k2 a b c d = ActSwapSecond -> c2 = true.
Proof. unfold crossing. intros H. destruct c1, c2; cbn in H; auto; exfalso; revert H;
  repeat match goal with |- context [if ?x then _ else _] => destruct x | |- context [match ?x with INTERSECTION => _ | _ => _ end] => destruct x end; intros H; discriminate. Qed.
Lemma is_some_not_none {A} (o : option A) : is_some o = true -> o <> None.
Proof. destruct o; [discriminate|cbn; discriminate]. Qed.
Lemma rl_intersect_bounds w i j p : wX w i -> wX w j ->
  rl w (fun _ a a' => a' = a) (intersect_bounds fu op sfk cfk p i j) (intersect_bounds fu op' sfk' cfk' p (be i) (be j)).
Proof.
  intros Hi Hj. unfold intersect_bounds.
  eapply rl_bind; [apply rl_bd, Hi|]. intros w1 b b' L1 Vb. up L1.
  eapply rl_bind; [apply rl_bd, Hj|]. intros w2 c c' L2 Vc.
  destruct (cw_eq b b' c c' (vb_stat _ _ _ _ Vb) (vb_full _ _ _ _ Vb Hv) (vb_stat _ _ _ _ Vc) (vb_full _ _ _ _ Vc Hv)) as (-> & Zc).
  use_vb Vb. up L2. use_vb Vc.
  destruct (crossed_windings sfk cfk b c) as [[wc1 owc1] [wc2 owc2]]. cbn [fst snd] in Zc.
  assert (Zc1 : zo = true -> owc1 = 0%Z) by (intros Z; apply Zc, Z). assert (Zc2 : zo = true -> owc2 = 0%Z) by (intros Z; apply Zc, Z). clear Zc.
  rewrite Hcr by auto.
  rl_step. rl_step.
  destruct (crossing _ _ _ _ _ _ _ _ _ _ _) eqn:Cr.
  - destruct (crossing_both_first _ _ _ _ _ _ _ _ (or_introl Cr)) as (Q1 & Q2). ring_facts. ra.
  - destruct (crossing_both_first _ _ _ _ _ _ _ _ (or_intror Cr)) as (Q1 & Q2). ring_facts. ra.
  - pose proof (crossing_first _ _ _ _ _ _ _ _ Cr) as Q1. ring_facts. ra.
  - pose proof (crossing_second _ _ _ _ _ _ _ _ Cr) as Q1. ring_facts. ra.
  - ra.
  - ra.
  - ra.
Qed.
Hint Resolve rl_intersect_bounds : rel.
Lemma rl_insert_lm w i j : wX w i -> wX w j ->
  rl w (fun _ a a' => a' = a) (insert_lm_left_and_right_bound op sfk cfk i j) (insert_lm_left_and_right_bound op' sfk' cfk' (be i) (be j)).
Proof. intros Hi Hj. unfold insert_lm_left_and_right_bound. ra. rewrite Hco by auto. ra. Qed.
Hint Resolve rl_insert_lm : rel.
Lemma rl_insert_local_minima w oh y ms ms' k : Forall2 lmr ms ms' ->
  rl w (fun _ a a' => a' = a) (insert_local_minima fu op sfk cfk oh y ms k) (insert_local_minima fu op' sfk' cfk' oh y ms' k).
Proof.
  intros F. unfold insert_local_minima. apply rl_loop_eq. clear w k. intros w k.
  pose proof (F2_nth _ k _ _ F) as N. destruct (nth_error ms k) as [m|], (nth_error ms' k) as [m'|]; try contradiction; [|ra].
  pose proof (rl_initialize w m m' N) as Hm. destruct N as [E1 E2 E3 E4 Pl Pr]. rewrite E3, E4. destruct (_ && _); [|ra].
  eapply rl_bind; [exact Hm|]. intros w1 ? ? L1 H1. cbv beta in H1. destruct H1. clear L1. rewrite E1, E2. ra.
Qed.
Hint Resolve rl_insert_local_minima : rel.

Record inr' (w : world) (n n' : intersect_node) : Prop := {
  ir_f : in_first n' = be (in_first n); ir_s : in_second n' = be (in_second n); ir_p : in_point n' = in_point n;
  ir_xf : wX w (in_first n); ir_xs : wX w (in_second n)
}.
Lemma inr_le w w' n n' : wle w w' -> inr' w n n' -> inr' w' n n'.
Proof. intros L [H1 H2 H3 H4 H5]. constructor; auto; eapply wle_X; eauto. Qed.
Lemma F2_inr_le w w' l l' : wle w w' -> Forall2 (inr' w) l l' -> Forall2 (inr' w') l l'.
Proof. intros L H. induction H; constructor; eauto using inr_le. Qed.
Lemma rq_in_lt w a b a' b' : inr' w a a' -> inr' w b b' -> rq (Rw w) eq (in_lt a b) (in_lt a' b').
Proof.
  intros [A1 A2 A3 A4 A5] [B1 B2 B3 B4 B5]. unfold in_lt. rewrite A1, A2, A3, B1, B2, B3.
  eapply rq_bind; [apply rq_lift|]. intros x ? <-. eapply rq_bind; [apply rq_lift|]. intros y ? <-.
  destruct (f_almost_equal x y); [|apply rq_ret; reflexivity].
  eapply rq_bind; [apply rq_bd, A4|]. intros c c' V1. eapply rq_bind; [apply rq_bd, A5|]. intros d d' V2.
  eapply rq_bind; [apply rq_bd, B4|]. intros e e' V3. eapply rq_bind; [apply rq_bd, B5|]. intros f f' V4.
  apply rq_ret. destruct (vb_full _ _ _ _ V1 Hv) as (_ & -> & _), (vb_full _ _ _ _ V2 Hv) as (_ & -> & _),
    (vb_full _ _ _ _ V3 Hv) as (_ & -> & _), (vb_full _ _ _ _ V4 Hv) as (_ & -> & _). reflexivity.
Qed.
Lemma has_bound_be w n n' o : inr' w n n' -> has_bound n' (option_map be o) = has_bound n o.
Proof.
  intros [A1 A2 A3 A4 A5]. unfold has_bound. rewrite A1, A2.
  change (Some (be (in_first n))) with (option_map be (Some (in_first n))). change (Some (be (in_second n))) with (option_map be (Some (in_second n))).
  rewrite !opt_is_be. reflexivity.
Qed.
Lemma find_if_map {A B} (g : A -> B) (p : A -> bool) (q : B -> bool) l : (forall x, q (g x) = p x) -> find_if q (map g l) = find_if p l.
Proof. intros H. induction l as [|x l IH]; cbn; auto. rewrite H, IH. reflexivity. Qed.
Lemma adjacent_at_be w n n' l : inr' w n n' -> adjacent_at (map (option_map be) l) n' = adjacent_at l n.
Proof.
  intros H. unfold adjacent_at. rewrite (find_if_map (option_map be) (has_bound n)) by (intros; eapply has_bound_be; eauto).
  unfold nth_res. rewrite nth_error_map. destruct (nth_error l _) as [o|]; cbn; auto. rewrite (has_bound_be _ _ _ _ H). reflexivity.
Qed.
Lemma find_adjacent_be w l : forall ns ns' k, Forall2 (inr' w) ns ns' -> find_adjacent (map (option_map be) l) ns' k = find_adjacent l ns k.
Proof.
  intros ns ns' k F. revert k. induction F as [|n n' ns ns' Hn F IH]; intros k; cbn [find_adjacent]; auto.
  rewrite (adjacent_at_be _ _ _ _ Hn). destruct (adjacent_at l n) as [[x [|]]| |]; cbn; auto.
Qed.
Lemma rq_abl_ids w : rq (Rw w) (fun l l' => l' = map be l /\ Forall (wX w) l) abl_ids abl_ids.
Proof.
  intros s t K. unfold abl_ids, bind, gets. unfold lift. rewrite (rw_abl _ _ _ K).
  match goal with |- context [?f (s_abl s)] => lazymatch type of (f (s_abl s)) with res (list bid) => set (g := f) end end.
  assert (H : forall l, (forall i, In (Some i) l -> wX w i) -> match g l, g (map (option_map be) l) with
              | Ok a, Ok a' => a' = map be a /\ Forall (wX w) a
              | Raise e, Raise e' => e = e'
              | _, _ => False end).
  { clear K. induction l as [|[i|] l IH]; cbn; auto. intros Hl.
    specialize (IH (fun i Hi => Hl i (or_intror Hi))). fold g.
    destruct (g l) as [a|e|], (g (map (option_map be) l)) as [a'|e'|]; cbn; try contradiction; auto.
    destruct IH as (-> & IH). split; [reflexivity|]. constructor; [apply Hl; cbn; auto|exact IH]. }
  specialize (H (s_abl s) (rw_act _ _ _ K)).
  destruct (g (s_abl s)) as [a|e|], (g (map (option_map be) (s_abl s))) as [a'|e'|]; cbn; try contradiction; auto.
Qed.
Lemma rl_build_intersect_list w : rl w (fun w' l l' => Forall2 (inr' w') l l') (build_intersect_list fu) (build_intersect_list fu).
Proof.
  intros s t K. unfold build_intersect_list. pose proof (rq_abl_ids w s t K) as G. unfold orel in G.
  destruct (abl_ids s) as [[ids s1]|e|], (abl_ids t) as [[ids' t1]|e'|]; try contradiction; auto.
  destruct G as ((-> & Hl) & _). cbv zeta.
  match goal with |- orel _ (match bubble_sort ?c ?sw fu ids [] with _ => _ end) (match bubble_sort ?c' ?sw' fu _ [] with _ => _ end) =>
    pose proof (rq_bubble_sort (Forall2 (inr' w)) (vi w) c c' sw sw') as G end.
  match type of G with ?A -> ?B -> _ => assert (HA : A); [|assert (HB : B); [|specialize (G HA HB fu ids (map be ids) (F2_vi w ids Hl) [] [] (Forall2_nil _))]] end.
  - intros a b a' b' (-> & Ha) (-> & Hb) l l' F. pose proof (rq_intersection_compare w a b Ha Hb s t K) as Q. unfold orel in Q.
    destruct (intersection_compare a b s) as [[x sx]|e|], (intersection_compare (be a) (be b) t) as [[y sy]|e'|]; cbn; try contradiction; auto.
    destruct Q as (-> & _). auto.
  - intros a b a' b' (-> & Ha) (-> & Hb) l l' F.
    assert (Q : rq (Rw w) eq (x <- current_edge a ;; y <- current_edge b ;; lift (edge_and x y)) (x <- current_edge (be a) ;; y <- current_edge (be b) ;; lift (edge_and x y))).
    { eapply rq_bind; [apply rq_current_edge, Ha|]. intros x ? <-. eapply rq_bind; [apply rq_current_edge, Hb|]. intros y ? <-. apply rq_lift. }
    specialize (Q s t K). unfold orel in Q.
    destruct ((x <- current_edge a ;; y <- current_edge b ;; lift (edge_and x y)) s) as [[x sx]|e|],
      ((x <- current_edge (be a) ;; y <- current_edge (be b) ;; lift (edge_and x y)) t) as [[y sy]|e'|]; cbn; try contradiction; auto.
    destruct Q as (<- & _). destruct x as [q|]; cbn; auto. split; [exact I|]. apply F2_app; [exact F|]. constructor; [|constructor]. constructor; auto.
  - clear HA HB. unfold orel in *.
    match goal with |- match match ?x with _ => _ end with _ => _ end => destruct x as [[r l]|e|] end;
    match goal with |- match match ?x with _ => _ end with _ => _ end => destruct x as [[r' l']|e'|] | |- match ?x with _ => _ end => idtac | _ => idtac end; 
    try contradiction; auto.
    all: try (match goal with |- context [bubble_sort ?a ?b ?c ?d ?e] => destruct (bubble_sort a b c d e) as [[r' l']|e'|] end; try contradiction; auto).
    destruct G as (G1 & G2). exists w. auto using wle_refl.
Qed.
Lemma rl_process_intersect_list : forall c w l l', Forall2 (inr' w) l l' ->
  rl w (fun _ a a' => a' = a) (process_intersect_list fu op sfk cfk l c) (process_intersect_list fu op' sfk' cfk' l' c).
Proof.
  induction c as [|c IH]; intros w l l' F; cbn [process_intersect_list]; [ra|]. destruct F as [|n n' l l' Hn F]; [ra|].
  eapply rl_bind; [apply rl_gets_abl|]. intros w1 abl ? L1 (-> & Ha). apply (inr_le _ _ _ _ L1) in Hn. apply (F2_inr_le _ _ _ _ L1) in F. clear L1 w.
  rewrite (adjacent_at_be _ _ _ _ Hn). apply rl_eq_bind; [ra|]. intros w2 [k ok] L2. apply (inr_le _ _ _ _ L2) in Hn. apply (F2_inr_le _ _ _ _ L2) in F. clear L2 w1 Ha.
  eapply (rl_bind _ (fun w' c c' => inr' w' (fst (fst c)) (fst (fst c')) /\ Forall2 (inr' w') (snd (fst c)) (snd (fst c')) /\ snd c' = snd c)).
  - destruct ok; [apply rl_ret; cbn; auto|]. rewrite (find_adjacent_be _ _ _ _ _ F). apply rl_eq_bind; [ra|]. intros w3 f L3.
    apply (inr_le _ _ _ _ L3) in Hn. apply (F2_inr_le _ _ _ _ L3) in F. clear L3 w2. destruct f as [[pos k']|]; [|apply rl_raise].
    pose proof (F2_nth _ pos _ _ F) as N. unfold nth_res.
    destruct (nth_error l pos) as [m|] eqn:E1, (nth_error l' pos) as [m'|] eqn:E2; try contradiction; [|intros s t K; reflexivity].
    eapply (rl_bind _ (fun w' x x' => inr' w' x x')).
    + intros s t K. cbn. exists w3. auto using wle_refl.
    + cbv beta. intros w4 x x' L4 Hx. apply rl_ret. cbn. repeat split; auto. 1:apply Hx. 1:apply Hx. 1:apply Hx. 1:apply Hx. 1:apply Hx.
      eapply F2_inr_le; [exact L4|]. apply F2_upd; assumption.
  - intros w3 [[m r] k'] [[m' r'] k''] L3 (Hm & Fr & Ek). cbn in Hm, Fr, Ek. subst k''. pose proof Hm as [M1 M2 M3 M4 M5]. rewrite M1, M2, M3.
    clear Hm. apply rl_eq_bind; [ra|]. intros w4 p L4. apply (F2_inr_le _ _ _ _ L4) in Fr. up L4.
    apply rl_eq_bind; [ra|]. intros w5 u L5. apply (F2_inr_le _ _ _ _ L5) in Fr. up L5.
    apply rl_eq_bind; [ra|]. intros w6 u' L6. apply (F2_inr_le _ _ _ _ L6) in Fr. up L6.
    apply IH. exact Fr.
Qed.
Lemma rl_process_intersections w y : rl w (fun _ a a' => a' = a) (process_intersections fu op sfk cfk y) (process_intersections fu op' sfk' cfk' y).
Proof.
  unfold process_intersections. rl_step. destruct l as [|o l]; cbn [map]; [ra|].
  apply rl_eq_bind; [ra|]. intros w1 u L1. clear L1. eapply rl_bind; [apply rl_build_intersect_list|]. intros w2 ns ns' L2 F. clear L2. cbv beta in F.
  destruct F as [|n n' ns ns' Hn F]; [ra|].
  eapply rl_bind.
  - eapply rl_rq, (rq_py_sort _ (inr' w2)); [intros; apply rq_in_lt; assumption|]. constructor; eassumption.
  - cbv beta. intros w3 ms ms' L3 G. apply (F2_inr_le _ _ _ _ L3) in G. rewrite (F2_length _ _ _ G). apply rl_process_intersect_list, G.
Qed.
Hint Resolve rl_process_intersections : rel.
Lemma rl_add_hot_pixels_ltr stop i : forall n w k, wX w i -> rl w (fun _ a a' => a' = a) (add_hot_pixels_ltr n stop i k) (add_hot_pixels_ltr n stop (be i) k).
Proof. induction n as [|n IH]; intros w k Hi; cbn [add_hot_pixels_ltr]; ra. Qed.
Hint Resolve rl_add_hot_pixels_ltr : rel.
Lemma rl_ltr_step w i y mx mi j x : wX w i -> rl w (fun _ a a' => a' = a) (ltr_step fu op sfk cfk i y mx mi j x) (ltr_step fu op' sfk' cfk' (be i) y mx mi j x).
Proof. intros Hi. unfold ltr_step. destruct x as [[k h] sh]. ra. Qed.
Hint Resolve rl_ltr_step : rel.
Lemma rl_ltr_loop i y mx mi : forall js w x, wX w i -> rl w (fun _ a a' => a' = a) (ltr_loop fu op sfk cfk i y mx mi js x) (ltr_loop fu op' sfk' cfk' (be i) y mx mi js x).
Proof. induction js as [|j js IH]; intros w x Hi; cbn [ltr_loop]; ra. Qed.
Hint Resolve rl_ltr_loop : rel.
Lemma rl_finish_horizontal w i k : wX w i -> rl w (fun _ a a' => a' = a) (finish_horizontal i k) (finish_horizontal (be i) k).
Proof. intros Hi. unfold finish_horizontal. ra. Qed.
Hint Resolve rl_finish_horizontal : rel.
Ltac get_step :=
  let w := fresh "w" in let s := fresh "s" in let t := fresh "t" in let L := fresh in let K := fresh in
  eapply rl_bind; [apply rl_get|]; intros w s t L K; up L; rewrite (hp_eq _ _ _ K), (hpi_eq _ _ _ K), (rw_abl _ _ _ K), ?map_length; clear K.
Lemma rl_phl w y k : rl w (fun _ a a' => a' = a) (process_horizontal_left_to_right fu op sfk cfk y k) (process_horizontal_left_to_right fu op' sfk' cfk' y k).
Proof. unfold process_horizontal_left_to_right. rl_step. rl_step; [ra|]. get_step. rl_step. cbv zeta. rewrite find_bound_be. ra. Qed.
Hint Resolve rl_phl : rel.
Lemma rl_add_hot_pixels_rtl stop i : forall k w, wX w i -> rl w (fun _ a a' => a' = a) (add_hot_pixels_rtl stop i k) (add_hot_pixels_rtl stop (be i) k).
Proof. induction k as [|k IH]; intros w Hi; cbn [add_hot_pixels_rtl]; ra. Qed.
Hint Resolve rl_add_hot_pixels_rtl : rel.
Lemma rl_rtl_step w i y mx mi j x : wX w i -> rl w (fun _ a a' => a' = a) (rtl_step fu op sfk cfk i y mx mi j x) (rtl_step fu op' sfk' cfk' (be i) y mx mi j x).
Proof. intros Hi. unfold rtl_step. destruct x as [k h]. ra. Qed.
Hint Resolve rl_rtl_step : rel.
Lemma rl_rtl_loop i y mx mi : forall js w x, wX w i -> rl w (fun _ a a' => a' = a) (rtl_loop fu op sfk cfk i y mx mi js x) (rtl_loop fu op' sfk' cfk' (be i) y mx mi js x).
Proof. induction js as [|j js IH]; intros w x Hi; cbn [rtl_loop]; ra. Qed.
Hint Resolve rl_rtl_loop : rel.
Lemma rl_phr w y k : rl w (fun _ a a' => a' = a) (process_horizontal_right_to_left fu op sfk cfk y k) (process_horizontal_right_to_left fu op' sfk' cfk' y k).
Proof. unfold process_horizontal_right_to_left. rl_step. rl_step; [ra|]. get_step. rl_step. cbv zeta. rewrite find_bound_be. ra. Qed.
Hint Resolve rl_phr : rel.
Lemma rl_process_horizontal w y k : rl w (fun _ a a' => a' = a) (process_horizontal fu op sfk cfk y k) (process_horizontal fu op' sfk' cfk' y k).
Proof. unfold process_horizontal. ra. Qed.
Hint Resolve rl_process_horizontal : rel.
Lemma rl_process_horizontals w y : rl w (fun _ a a' => a' = a) (process_horizontals fu op sfk cfk y) (process_horizontals fu op' sfk' cfk' y).
Proof.
  unfold process_horizontals. rl_step; [|ra]. apply rl_loop_eq. clear w. intros w k. apply rl_abl_scan; clear w; intros w; [ra|ra|].
  intros i Hi. ra.
Qed.
Hint Resolve rl_process_horizontals : rel.
Lemma rl_maxima_walk w k m : rl w (fun _ a a' => a' = a) (maxima_walk fu op sfk cfk k m) (maxima_walk fu op' sfk' cfk' k m).
Proof.
  unfold maxima_walk. apply rl_eq_bind.
  - intros s t K. cbn. exists w. split; [apply wle_refl|]. split; [|exact K]. rewrite (rw_abl _ _ _ K), map_length. reflexivity.
  - intros w1 n L1. clear L1. generalize false. generalize (range (S k) n). intros js. revert k w1. induction js as [|j js IH]; intros k w1 b; ra.
Qed.
Hint Resolve rl_maxima_walk : rel.
Lemma rl_do_maxima w k m : rl w (fun _ a a' => a' = a) (do_maxima fu op sfk cfk k m) (do_maxima fu op' sfk' cfk' k m).
Proof. unfold do_maxima. ra. Qed.
Hint Resolve rl_do_maxima : rel.
Lemma rl_top_step w y k i : wX w i -> rl w (fun _ a a' => a' = a) (top_step fu op sfk cfk y k i) (top_step fu op' sfk' cfk' y k (be i)).
Proof.
  intros Hi. unfold top_step. rl_step; [ra|]. rl_step; [|ra].
  rl_step; [|ra]. rl_step. rl_step. cbv zeta. rewrite map_length, find_bound_be. ra.
Qed.
Hint Resolve rl_top_step : rel.
Lemma rl_process_edges w y ms ms' k : Forall2 lmr ms ms' ->
  rl w (fun _ a a' => a' = a) (process_edges_at_top_of_scanbeam fu op sfk cfk y ms k) (process_edges_at_top_of_scanbeam fu op' sfk' cfk' y ms' k).
Proof.
  intros F. unfold process_edges_at_top_of_scanbeam. apply rl_eq_bind.
  { apply rl_loop_eq. clear w k. intros w k. apply rl_abl_scan; clear w; intros w; [ra|ra|]. intros i Hi. ra. }
  intros w1 u L1. clear L1. rl_step; [ra|]. rl_step; [ra|]. rl_step; [ra|].
  eapply rl_bind; [apply rl_abl_ids|]. intros w4 l ? L4 (-> & Hl). clear L4.
  rl_step; [|ra]. eapply rl_unit, (rl_for (fun _ => True) vi).
  - apply F2_vi, Hl.
  - intros. eapply vi_le; eauto.
  - exact I.
  - intros w5 i ? _ (-> & Hi). apply (rl_weak _ (fun _ a a' => a' = a)); [|intros; exact I]. ra.
Qed.
Hint Resolve rl_process_edges : rel.
Lemma bl_update_hpi y : blind (update_current_hot_pixel_index fu y).
Proof. unfold update_current_hot_pixel_index. bl. Qed.
Lemma rl_execute_vatti w ms ms' : Forall2 lmr ms ms' ->
  rl w (fun _ a a' => a' = a) (execute_vatti fu op sfk cfk ms) (execute_vatti fu op' sfk' cfk' ms').
Proof.
  intros F. unfold execute_vatti. cbv zeta. rewrite (lmr_scan _ _ F). pose proof (lmr_sorted _ _ F) as Fs.
  set (l := pure_sort_rev lm_lt ms) in *. set (l' := pure_sort_rev lm_lt ms') in *.
  apply rl_eq_bind.
  { intros s t K. cbn. exists w. split; [apply wle_refl|]. split; [reflexivity|].
    apply (Rw_start w s t (fun s => s <| s_scan := scanbeams_of ms |> <| s_abl := [] |> <| s_hpi := 0%nat |>)); try reflexivity. exact K. }
  intros w1 _ L1. clear L1.
  apply rl_loop_eq. clear w w1. intros w [y k]. apply rl_eq_bind; [apply rl_sweep_pending, (F2_length _ _ _ Fs)|]. intros w1 go L1. clear L1.
  rl_step; [|ra]. rl_step; [ra|]. rl_step; [ra|]. rl_step; [apply rl_blind, bl_update_hpi|]. ra.
Qed.
End V.
End Rel.
