(** * References to point nodes

    The topology correction creates no point node and moves none; every
    reference it stores or returns was already stored somewhere. *)
From Coq Require Import ZArith List Bool Lia FMapPositive Permutation.
From Coq Require Import Floats.SpecFloat.
From RecordUpdate Require Import RecordSet.
From Verif Require Import Py Monad Utils Geometry LinearRingM BoundM LocalMinimumM StateM
     PointNodeM RingM SweepM TopologyM WagyuM ListP SweepFrameP.
Import ListNotations RecordSetNotations.
Local Open Scope m_scope.

Definition place (s : st) (i : nid) : point := npos (hget dummy_node (s_nodes s) i).
Definition oG (G : nid -> Prop) (o : option nid) : Prop := forall j, o = Some j -> G j.

Lemma pure_sort_perm {A} (lt : A -> A -> bool) l : Permutation l (pure_sort lt l).
Proof.
  unfold pure_sort. destruct (py_sort _ l tt) as [[r u]| |] eqn:E; try reflexivity. eapply py_sort_perm. exact E.
Qed.
Lemma pure_sort_rev_perm {A} (lt : A -> A -> bool) l : Permutation l (pure_sort_rev lt l).
Proof. unfold pure_sort_rev. rewrite <- Permutation_rev, <- pure_sort_perm. apply Permutation_rev. Qed.

Section Keep.
Context (G : nid -> Prop) (W : nid -> point).
Definition linksG (n : node) : Prop := oG G (n_next n) /\ oG G (n_prev n).
Definition pairG (p : nid * nid) : Prop := G (fst p) /\ G (snd p).
Record ptrs (s : st) : Prop := {
  pt_node : forall i, linksG (hget dummy_node (s_nodes s) i);
  pt_ring : forall r, oG G (r_node (hget new_ring (s_rings s) r));
  pt_all : Forall G (s_all s);
  pt_conn : forall r, Forall pairG (hget [] (s_conn s) r);
  pt_place : forall i, place s i = W i
}.
Definition keeps {A} (m : prog A) (post : A -> Prop) : Prop :=
  forall s a s', ptrs s -> m s = Ok (a, s') -> ptrs s' /\ post a.
Definition T {A} (_ : A) : Prop := True.

Lemma oG_None : oG G None. Proof. intros j; discriminate. Qed.
Lemma oG_Some i : G i -> oG G (Some i). Proof. intros H j [= <-]. exact H. Qed.
Lemma oG_inv i : oG G (Some i) -> G i. Proof. intros H. apply H. reflexivity. Qed.

Lemma kp_weak {A} (m : prog A) (p q : A -> Prop) : keeps m p -> (forall a, p a -> q a) -> keeps m q.
Proof. intros H I s a s' P E. destruct (H _ _ _ P E). auto. Qed.
Lemma kp_T {A} (m : prog A) (p : A -> Prop) : keeps m p -> keeps m T.
Proof. intros H. eapply kp_weak; [exact H|]. intros; exact I. Qed.
Lemma kp_ret {A} (a : A) (p : A -> Prop) : p a -> keeps (ret a) p.
Proof. intros H s b s' P E. injection E as <- <-. auto. Qed.
Lemma kp_raise {A} e (p : A -> Prop) : keeps (raise e) p. Proof. intros s b s' P E. discriminate. Qed.
Lemma kp_nofuel {A} (p : A -> Prop) : keeps nofuel p. Proof. intros s b s' P E. discriminate. Qed.
Lemma kp_lift {A} (r : res A) (p : A -> Prop) : (forall a, r = Ok a -> p a) -> keeps (lift r) p.
Proof. intros H s b s' P E. destruct r; try discriminate. injection E as <- <-. auto. Qed.
Lemma kp_gets {A} (f : st -> A) (p : A -> Prop) : (forall s, ptrs s -> p (f s)) -> keeps (gets f) p.
Proof. intros H s b s' P E. injection E as <- <-. auto. Qed.
Lemma kp_get (p : st -> Prop) : (forall s, ptrs s -> p s) -> keeps get p.
Proof. intros H s b s' P E. injection E as <- <-. auto. Qed.
Lemma kp_modify f : (forall s, ptrs s -> ptrs (f s)) -> keeps (modify f) T.
Proof. intros H s b s' P E. injection E as <- <-. split; [auto|exact I]. Qed.
Lemma kp_bind {A B} (m : prog A) (k : A -> prog B) (p : A -> Prop) (q : B -> Prop) :
  keeps m p -> (forall a, p a -> keeps (k a) q) -> keeps (bind m k) q.
Proof.
  intros Hm Hk s b s' P E. unfold bind in E. destruct (m s) as [[a s1]| |] eqn:Em; try discriminate.
  destruct (Hm _ _ _ P Em) as (P1 & H). exact (Hk _ H _ _ _ P1 E).
Qed.
Lemma kp_bindT {A B} (m : prog A) (k : A -> prog B) (q : B -> Prop) :
  keeps m T -> (forall a, keeps (k a) q) -> keeps (bind m k) q.
Proof. intros H K. apply kp_bind with (p := T); auto. Qed.
Lemma kp_loop {X R} f (b : X -> prog (X + R)) (inv : X -> Prop) (p : R -> Prop) x :
  (forall x, inv x -> keeps (b x) (fun r => match r with inl x' => inv x' | inr v => p v end)) -> inv x ->
  keeps (loopM f b x) p.
Proof.
  intros H. revert x. induction f as [|f IH]; intros x Hx; cbn [loopM]; [apply kp_nofuel|].
  eapply kp_bind; [apply H, Hx|]. intros [y|v] Hy; [apply IH, Hy|apply kp_ret, Hy].
Qed.
Lemma kp_loopT {X R} f (b : X -> prog (X + R)) x : (forall x, keeps (b x) T) -> keeps (loopM f b x) T.
Proof.
  intros H. apply kp_loop with (inv := T); [|exact I]. intros y _. eapply kp_weak; [apply H|]. intros [a|a] _; exact I.
Qed.
Lemma kp_for {A} (l : list A) b (p : A -> Prop) : Forall p l -> (forall a, p a -> keeps (b a) T) -> keeps (forM l b) T.
Proof.
  intros F H. induction F as [|a l Ha F IH]; cbn [forM]; [apply kp_ret; exact I|].
  apply kp_bindT; auto.
Qed.
Lemma kp_forT {A} (l : list A) b : (forall a, keeps (b a) T) -> keeps (forM l b) T.
Proof. intros H. induction l; cbn [forM]; [apply kp_ret; exact I|]. apply kp_bindT; auto. Qed.
Lemma kp_for_breakT {A R} (l : list A) (b : A -> prog (option R)) : (forall a, keeps (b a) T) -> keeps (for_breakM l b) T.
Proof.
  intros H. induction l; cbn [for_breakM]; [apply kp_ret; exact I|]. apply kp_bindT; auto.
  intros [r|]; [apply kp_ret; exact I|exact IHl].
Qed.
Lemma kp_forM_acc {A B} (l : list A) (f : A -> B -> prog B) (p : B -> Prop) b : p b ->
  (forall a b, p b -> keeps (f a b) p) -> keeps (forM_acc l f b) p.
Proof.
  intros Hb H. revert b Hb. unfold forM_acc. induction l as [|a l IH]; intros b Hb; [apply kp_ret, Hb|].
  eapply kp_bind; [apply H, Hb|]. intros b' Hb'. apply IH, Hb'.
Qed.
Lemma kp_filterM {A} (f : A -> prog bool) l : (forall a, keeps (f a) T) -> keeps (filterM f l) T.
Proof.
  intros H. induction l; cbn [filterM]; [apply kp_ret; exact I|]. apply kp_bindT; [apply H|]. intros b.
  apply kp_bindT; [exact IHl|]. intros r. apply kp_ret. exact I.
Qed.
Lemma kp_mapM {A B} (f : A -> prog B) l (p : B -> Prop) : (forall a, keeps (f a) p) -> keeps (mapM f l) (Forall p).
Proof.
  intros H. induction l; cbn [mapM]; [apply kp_ret; constructor|]. eapply kp_bind; [apply H|]. intros b Hb.
  eapply kp_bind; [exact IHl|]. intros r Hr. apply kp_ret. constructor; assumption.
Qed.
Lemma kp_deref {A} (o : option A) (p : A -> Prop) : (forall a, o = Some a -> p a) -> keeps (deref o) p.
Proof. intros H. destruct o; [apply kp_ret; auto|apply kp_raise]. Qed.

Section Sort.
Context {A : Type} (lt : A -> A -> prog bool) (Hl : forall a b, keeps (lt a b) T).
Lemma kp_count_run d : forall l p (q : A -> Prop), q p -> Forall q l ->
  keeps (count_run lt d p l) (fun r => Forall q (fst r) /\ Forall q (snd r)).
Proof.
  induction l as [|x l IH]; intros p q Hp F; cbn [count_run].
  - apply kp_ret. split; constructor; auto.
  - inversion F as [|? ? Hx F']; subst. apply kp_bindT; [apply Hl|]. intros b. destruct (Bool.eqb b d).
    + eapply kp_bind; [apply (IH x q Hx F')|]. intros [r1 r2] [H1 H2]. apply kp_ret. split; [|exact H2]. constructor; auto.
    + apply kp_ret. split; [repeat constructor; auto|constructor; auto].
Qed.
Lemma kp_bin_search pre x : forall f lo hi, keeps (bin_search lt f pre x lo hi) T.
Proof.
  induction f as [|f IH]; intros lo hi; cbn [bin_search]; [apply kp_ret; exact I|].
  destruct (lo <? hi)%nat; [|apply kp_ret; exact I]. destruct (nth_error _ _); [|apply kp_raise].
  apply kp_bindT; [apply Hl|]. intros []; apply IH.
Qed.
Lemma kp_binary_insertion (q : A -> Prop) : forall l pre, Forall q pre -> Forall q l ->
  keeps (binary_insertion lt pre l) (Forall q).
Proof.
  induction l as [|x l IH]; intros pre Fp F; cbn [binary_insertion]; [apply kp_ret, Fp|].
  inversion F; subst. apply kp_bindT; [apply kp_bin_search|]. intros i. apply IH; [|assumption].
  unfold list_insert. apply Forall_app. rewrite <- (firstn_skipn i pre) in Fp. apply Forall_app in Fp as [F1 F2].
  split; [exact F1|]. constructor; assumption.
Qed.
Lemma kp_py_sort l (q : A -> Prop) : Forall q l -> keeps (py_sort lt l) (Forall q).
Proof.
  intros F. unfold py_sort. destruct l as [|x [|y l]]; try (apply kp_ret; exact F).
  inversion F as [|? ? Hx F1]; subst. inversion F1 as [|? ? Hy F2]; subst.
  apply kp_bindT; [apply Hl|]. intros d.
  eapply kp_bind; [apply (kp_count_run d l y q Hy F2)|]. intros [run rest] [R1 R2]. cbn [fst snd] in *.
  assert (F3 : Forall q (x :: y :: run)) by (constructor; [assumption|constructor; assumption]).
  apply kp_binary_insertion; [|exact R2]. destruct d; [apply Forall_rev|]; exact F3.
Qed.
Lemma kp_py_sort_rev l (q : A -> Prop) : Forall q l -> keeps (py_sort_rev lt l) (Forall q).
Proof.
  intros F. unfold py_sort_rev. eapply kp_bind; [apply kp_py_sort, Forall_rev, F|]. intros r Hr. apply kp_ret, Forall_rev, Hr.
Qed.
End Sort.

(** ** Primitives *)
Lemma kp_nd i : keeps (nd i) (fun n => linksG n /\ npos n = W i).
Proof. apply kp_gets. intros s P. split; [apply P|apply (pt_place _ P)]. Qed.
Lemma kp_rg r : keeps (rg r) (fun x => oG G (r_node x)).
Proof. apply kp_gets. intros s P. apply P. Qed.
Lemma kp_bd i : keeps (bd i) T. Proof. apply kp_gets. intros; exact I. Qed.
Lemma kp_upd_node i f : (forall n, linksG n -> linksG (f n) /\ npos (f n) = npos n) -> keeps (upd_node i f) T.
Proof.
  intros H. apply kp_modify. intros s [P1 P2 P3 P4 P5]. constructor; cbn; auto.
  - intros j. rewrite hget_hset. destruct (Pos.eqb i j); [apply H|]; apply P1.
  - intros j. rewrite <- P5. unfold place. cbn. rewrite hget_hset. destruct (Pos.eqb_spec i j) as [->|]; [|reflexivity].
    apply H, P1.
Qed.
Lemma kp_upd_ring r f : (forall x, oG G (r_node x) -> oG G (r_node (f x))) -> keeps (upd_ring r f) T.
Proof.
  intros H. apply kp_modify. intros s [P1 P2 P3 P4 P5]. constructor; cbn; auto.
  intros j. rewrite hget_hset. destruct (Pos.eqb r j); [apply H|]; apply P2.
Qed.
Lemma kp_conn_get r : keeps (conn_get r) (Forall pairG).
Proof. apply kp_gets. intros s P. apply P. Qed.
Lemma kp_conn_set r l : Forall pairG l -> keeps (conn_set r l) T.
Proof.
  intros F. apply kp_modify. intros s [P1 P2 P3 P4 P5]. constructor; cbn; auto.
  intros j. rewrite hget_hset. destruct (Pos.eqb r j); auto.
Qed.
Lemma kp_create_ring : keeps create_ring T.
Proof.
  unfold create_ring. apply kp_bindT; [apply kp_get; intros; exact I|]. intros s. cbv zeta.
  apply kp_bindT; [|intros; apply kp_ret; exact I]. apply kp_modify. intros s' [P1 P2 P3 P4 P5]. constructor; cbn; auto.
  intros j. rewrite hget_hset. destruct (Pos.eqb (s_rnext s) j); auto. cbn. apply oG_None.
Qed.
Lemma kp_children_of o : keeps (children_of o) T.
Proof. unfold children_of. destruct o; [apply kp_bindT; [eapply kp_T, kp_rg|intros; apply kp_ret; exact I]|apply kp_gets; intros; exact I]. Qed.
Lemma kp_set_children o l : keeps (set_children o l) T.
Proof. unfold set_children. destruct o; [apply kp_upd_ring; auto|]. apply kp_modify. intros s [P1 P2 P3 P4 P5]. constructor; cbn; auto. Qed.

Definition link_dir (d : node -> option nid) : Prop := forall n, linksG n -> oG G (d n).
Lemma link_next : link_dir n_next. Proof. intros n H. apply H. Qed.
Lemma link_prev : link_dir n_prev. Proof. intros n H. apply H. Qed.
Lemma links_dir d n a : link_dir d -> linksG n /\ npos n = W a -> forall j, d n = Some j -> G j.
Proof. intros D [H _] j E. exact (D n H j E). Qed.
Create HintDb kp.
#[local] Hint Resolve link_next link_prev : kp.
#[local] Hint Extern 1 (oG _ (n_next ?n)) => match goal with H : linksG n /\ _ |- _ => exact (proj1 (proj1 H)) end : kp.
#[local] Hint Extern 1 (oG _ (n_prev ?n)) => match goal with H : linksG n /\ _ |- _ => exact (proj2 (proj1 H)) end : kp.
#[local] Hint Resolve kp_nd kp_rg kp_bd kp_conn_get kp_conn_set kp_create_ring kp_children_of kp_set_children : kp.
#[local] Hint Resolve oG_None oG_Some : kp.

Ltac side :=
  intros; cbn [fst snd] in *; try solve [eauto using links_dir];
  repeat match goal with
         | H : _ /\ _ |- _ => destruct H
         | H : linksG _ |- _ => unfold linksG in H
         | H : pairG _ |- _ => unfold pairG in H
         | H : Forall _ (_ :: _) |- _ => inversion H; clear H; subst
         | |- _ /\ _ => split
         | |- T _ => exact I
         | |- True => exact I
         | |- linksG _ => unfold linksG
         | |- pairG _ => unfold pairG
         | |- Forall _ (_ :: _) => constructor
         | |- Forall _ [] => constructor
         | |- Forall _ (_ ++ _) => apply Forall_app
         end;
  cbn [fst snd n_next n_prev n_ring n_x n_y r_node set] in *; try reflexivity; try assumption;
  try solve [eauto with kp | match goal with H : oG _ ?o, E : ?o = Some _ |- _ => apply H, E end
            | match goal with H : oG _ (Some _) |- _ => apply H; reflexivity end].
Ltac named := first [solve [eauto with kp] | solve [eapply kp_T; eauto with kp] | solve [eapply kp_weak; [solve [eauto with kp]|side]]].
Ltac kp_step :=
  cbv beta;
  lazymatch goal with
  | |- keeps (let _ := _ in _) _ => cbv zeta
  | |- keeps (match ?x with _ => _ end) _ => destruct x eqn:?
  | |- keeps (bind (deref ?o) _) _ =>
      apply kp_bind with (p := fun a => o = Some a); [apply kp_deref; trivial|intros ? ?]
  | |- keeps (bind _ _) _ =>
      first [ eapply kp_bind; [solve [eauto with kp]|intros ? ?; cbv beta in *]
            | apply kp_bindT; [|intros ?] ]
  | |- keeps (ret _) _ => apply kp_ret; solve [side]
  | |- keeps (raise _) _ => apply kp_raise
  | |- keeps nofuel _ => apply kp_nofuel
  | |- keeps (lift _) T => apply kp_lift; intros; exact I
  | |- keeps (gets _) T => apply kp_gets; intros; exact I
  | |- keeps get T => apply kp_get; intros; exact I
  | |- keeps (deref _) _ => apply kp_deref; solve [side]
  | |- keeps (upd_node _ _) T => apply kp_upd_node; solve [side]
  | |- keeps (upd_ring _ _) T => apply kp_upd_ring; solve [side]
  | |- keeps (forM_acc _ _ _) T => apply kp_forM_acc; [exact I|intros ? ? _]
  | |- keeps (loopM _ _ _) T => apply kp_loopT; intros ?
  | |- keeps (forM _ _) T => apply kp_forT; intros ?
  | |- keeps (for_breakM _ _) T => apply kp_for_breakT; intros ?
  | |- keeps (filterM _ _) T => apply kp_filterM; intros ?
  | |- keeps _ _ => named
  end.
Ltac kp := repeat kp_step.
Ltac k f := intros; unfold f; kp.

(** ** point_node.py *)
Lemma kp_node_point i : keeps (node_point i) (fun p => p = W i). Proof. k node_point. Qed.
Lemma kp_next_of i : keeps (next_of i) G. Proof. k next_of. Qed.
Lemma kp_prev_of i : keeps (prev_of i) G. Proof. k prev_of. Qed.
Lemma kp_set_next i o : oG G o -> keeps (set_next i o) T. Proof. k set_next. Qed.
Lemma kp_set_prev i o : oG G o -> keeps (set_prev i o) T. Proof. k set_prev. Qed.
Lemma kp_set_nring i o : keeps (set_nring i o) T. Proof. k set_nring. Qed.
Lemma kp_node_eq i j : keeps (node_eq i j) T. Proof. k node_eq. Qed.
#[local] Hint Resolve kp_node_point kp_next_of kp_prev_of kp_set_next kp_set_prev kp_set_nring kp_node_eq : kp.
Lemma kp_node_eq_opt i j : keeps (node_eq_opt i j) T. Proof. k node_eq_opt. Qed.
#[local] Hint Resolve kp_node_eq_opt : kp.
Lemma kp_iter_nodes f i body : (forall n, keeps (body n) T) -> keeps (iter_nodes f i body) T.
Proof. intros H. unfold iter_nodes. kp. Qed.
Lemma kp_collect f (dir : node -> option nid) i : (forall n, linksG n -> oG G (dir n)) -> G i ->
  keeps (collect f dir i) (Forall G).
Proof.
  intros Hd Hi. unfold collect. apply kp_loop with (inv := fun x => oG G (fst x) /\ Forall G (snd x)); [|side].
  intros [c acc] [H1 H2]. eapply kp_bind with (p := G); [apply kp_deref; side|]. intros c' Hc.
  eapply kp_bind; [apply kp_nd|]. intros n [Hn _]. apply kp_ret. destruct (opt_is (dir n) (Some i)).
  - apply Forall_rev. constructor; assumption.
  - split; cbn; auto.
Qed.
Lemma kp_collectT f dir i : keeps (collect f dir i) T. Proof. k collect. Qed.
Lemma kp_nodes_list f i : G i -> keeps (nodes_list f i) (Forall G).
Proof. intros. apply kp_collect; [intros n H1; apply H1|assumption]. Qed.
Lemma kp_nodes_list_rev f i : G i -> keeps (nodes_list_rev f i) (Forall G).
Proof. intros. apply kp_collect; [intros n H1; apply H1|assumption]. Qed.
Lemma kp_reverse_nodes f i : keeps (reverse_nodes f i) T.
Proof. unfold reverse_nodes. apply kp_iter_nodes. intros n. kp. Qed.
Lemma kp_node_stats f i : keeps (node_stats f i) T. Proof. k node_stats. Qed.
Lemma kp_points_slope i j : keeps (points_slope i j) T. Proof. k points_slope. Qed.
Lemma kp_skip_equal f d i : keeps (skip_equal f d i) T. Proof. k skip_equal. Qed.
#[local] Hint Resolve kp_nodes_list kp_nodes_list_rev kp_reverse_nodes kp_node_stats kp_points_slope kp_skip_equal : kp.

Lemma kp_is_bottom_to f i j : keeps (is_bottom_to f i j) T. Proof. k is_bottom_to. Qed.
Lemma kp_bottom_scan f i : keeps (bottom_scan f i) T. Proof. k bottom_scan. Qed.
Lemma kp_skip_to_equal f i j : keeps (skip_to_equal f i j) T. Proof. k skip_to_equal. Qed.
#[local] Hint Resolve kp_is_bottom_to kp_bottom_scan kp_skip_to_equal : kp.
Lemma kp_bottom_node f i : keeps (bottom_node f i) T. Proof. k bottom_node. Qed.
Lemma kp_pip f p i : keeps (point_in_polygon f p i) T. Proof. k point_in_polygon. Qed.
Lemma kp_points_centroid i : keeps (points_centroid i) T. Proof. k points_centroid. Qed.
Lemma kp_node_eq_opts i j : keeps (node_eq_opts i j) T. Proof. k node_eq_opts. Qed.
#[local] Hint Resolve kp_bottom_node kp_pip kp_points_centroid kp_node_eq_opts : kp.
Lemma kp_has_collinear_edge i j : keeps (has_collinear_edge i j) T. Proof. k has_collinear_edge. Qed.
#[local] Hint Resolve kp_has_collinear_edge : kp.
Ltac loopG := apply kp_loop with (inv := G); [intros ? ?|assumption].
Lemma kp_slide f d a b c : link_dir d -> G a -> keeps (slide f d a b c) G.
Proof.
  intros D H. unfold slide. loopG. kp. apply kp_ret. destruct (Pos.eqb _ c); side.
Qed.
Lemma kp_skip_repeats f d s a b : link_dir d -> G a -> keeps (skip_repeats f d s a b) G.
Proof. intros D H. unfold skip_repeats. loopG. kp. Qed.
#[local] Hint Resolve kp_slide kp_skip_repeats : kp.
Lemma kp_collinear_search f a b : G a -> G b -> keeps (collinear_search f a b) pairG.
Proof.
  intros Ha Hb. unfold collinear_search. apply kp_loop with (inv := fun x => G (fst (fst x)) /\ G (snd (fst x))); [|side].
  intros [[bk fw] first] [H1 H2]. kp.
  apply kp_ret. destruct a4; side.
Qed.
#[local] Hint Resolve kp_collinear_search : kp.
Lemma kp_collinear_path f a b : G a -> G b -> keeps (collinear_path f a b)
  (fun p => let '(w, x, y, z) := p in (G w /\ G x) /\ (G y /\ G z)).
Proof. intros. unfold collinear_path. kp. Qed.
Lemma kp_detach i : keeps (detach i) (oG G). Proof. k detach. Qed.
#[local] Hint Resolve kp_collinear_path kp_detach : kp.
Lemma kp_detach_until f a b : keeps (detach_until f a b) T. Proof. k detach_until. Qed.
Lemma kp_detach_do f a b : keeps (detach_do f a b) T. Proof. k detach_do. Qed.
Lemma kp_link a b : G a -> G b -> keeps (link a b) T. Proof. k link. Qed.
#[local] Hint Resolve kp_detach_until kp_detach_do kp_link : kp.
Definition path_G (p : nid * nid * nid * nid) : Prop :=
  let '(w, x, y, z) := p in (G w /\ G x) /\ (G y /\ G z).
Lemma kp_fix_collinear_path f p : path_G p -> keeps (fix_collinear_path f p) (fun r => oG G (fst r) /\ oG G (snd r)).
Proof. destruct p as [[[w x] y] z]. intros [[H1 H2] [H3 H4]]. unfold fix_collinear_path. kp. Qed.
#[local] Hint Resolve kp_fix_collinear_path : kp.

(** ** ring.py and the ring tree *)
Lemma kp_remove_from_children r o : keeps (remove_from_children r o) T. Proof. k remove_from_children. Qed.
Lemma kp_set_to_children r o : keeps (set_to_children r o) T. Proof. k set_to_children. Qed.
Lemma kp_set_stats r x : keeps (set_stats r x) T. Proof. k set_stats. Qed.
Lemma kp_reset_stats r : keeps (reset_stats r) T. Proof. k reset_stats. Qed.
#[local] Hint Resolve kp_remove_from_children kp_set_to_children kp_set_stats kp_reset_stats : kp.
Lemma kp_iter_children f o body : (forall a b, keeps (body a b) T) -> keeps (iter_children f o body) T.
Proof. intros H. unfold iter_children. kp. Qed.
Lemma kp_clear_child_at o n : keeps (clear_child_at o n) T. Proof. k clear_child_at. Qed.
Lemma kp_recalculate_stats f r : keeps (recalculate_stats f r) T. Proof. k recalculate_stats. Qed.
#[local] Hint Resolve kp_clear_child_at kp_recalculate_stats : kp.
Lemma kp_ensure_stats f r : keeps (ensure_stats f r) T. Proof. k ensure_stats. Qed.
#[local] Hint Resolve kp_ensure_stats : kp.
Lemma kp_ring_area f r : keeps (ring_area f r) T. Proof. k ring_area. Qed.
Lemma kp_ring_is_hole f r : keeps (ring_is_hole f r) T. Proof. k ring_is_hole. Qed.
Lemma kp_ring_size f r : keeps (ring_size f r) T. Proof. k ring_size. Qed.
Lemma kp_ring_depth f r : keeps (ring_depth f r) T. Proof. k ring_depth. Qed.
Lemma kp_is_descendant_of f r o : keeps (is_descendant_of f r o) T. Proof. k is_descendant_of. Qed.
Lemma kp_update_points f r : keeps (update_points f r) T.
Proof. unfold update_points. kp. apply kp_iter_nodes. intros. kp. Qed.
#[local] Hint Resolve kp_ring_area kp_ring_is_hole kp_ring_size kp_ring_depth kp_is_descendant_of kp_update_points : kp.
Lemma kp_with_points l : Forall G l -> keeps (with_points l) (fun lp => Forall (fun x => G (fst x)) lp).
Proof.
  intros F. apply kp_gets. intros s P. apply Forall_forall. intros x I. apply in_map_iff in I as (i & <- & I).
  rewrite Forall_forall in F. cbn. auto.
Qed.
#[local] Hint Resolve kp_with_points : kp.

Lemma kp_sorted_nodes f r : keeps (sorted_nodes f r) (Forall G).
Proof.
  unfold sorted_nodes. kp; side. apply kp_ret. match goal with H : Forall _ ?l |- Forall G (map fst (pure_sort _ ?l)) =>
    rewrite Forall_forall in *; intros x I; apply in_map_iff in I as (y & <- & I);
    apply (Permutation_in _ (Permutation_sym (pure_sort_perm _ _))) in I; apply H, I end.
Qed.
Lemma kp_ensure_bottom f r : keeps (ensure_bottom f r) T. Proof. k ensure_bottom. Qed.
#[local] Hint Resolve kp_sorted_nodes kp_ensure_bottom : kp.
Lemma kp_lowermost_ring f r o : keeps (lowermost_ring f r o) T. Proof. k lowermost_ring. Qed.
Lemma kp_is_convex f i : keeps (is_convex f i) T. Proof. k is_convex. Qed.
#[local] Hint Resolve kp_lowermost_ring kp_is_convex : kp.
Lemma kp_special f i j : keeps (inside_or_outside_special f i j) T. Proof. k inside_or_outside_special. Qed.
#[local] Hint Resolve kp_special : kp.
Lemma kp_inside_of f r o : keeps (inside_of f r o) T. Proof. k inside_of. Qed.
Lemma kp_orientation_clash f r o : keeps (orientation_clash f r o) T. Proof. k orientation_clash. Qed.
#[local] Hint Resolve kp_inside_of kp_orientation_clash : kp.
Lemma kp_assign_as_child f r o : keeps (assign_as_child f r o) T. Proof. k assign_as_child. Qed.
Lemma kp_assign_as_sibling f r o : keeps (assign_as_sibling f r o) T. Proof. k assign_as_sibling. Qed.
Lemma kp_reassign_as_child f r o : keeps (reassign_as_child f r o) T. Proof. k reassign_as_child. Qed.
#[local] Hint Resolve kp_assign_as_child kp_assign_as_sibling kp_reassign_as_child : kp.
Lemma kp_reassign_children f r o l : keeps (reassign_children_if_necessary f r o l) T.
Proof. unfold reassign_children_if_necessary. apply kp_iter_children. intros. kp. Qed.
#[local] Hint Resolve kp_reassign_children : kp.
Lemma kp_remove_ring f d : forall r a b, keeps (remove_ring f d r a b) T.
Proof.
  induction d as [|d IH]; intros r a b; cbn [remove_ring]; [apply kp_nofuel|].
  apply kp_bindT; [apply kp_iter_children; intros; kp|]. intros _. kp.
Qed.
Lemma kp_clear_nodes f i : keeps (clear_nodes f i) T. Proof. k clear_nodes. Qed.
#[local] Hint Resolve kp_remove_ring kp_clear_nodes : kp.
Lemma kp_remove_ring_and_points f d : forall r a b, keeps (remove_ring_and_points f d r a b) T.
Proof.
  induction d as [|d IH]; intros r a b; cbn [remove_ring_and_points]; [apply kp_nofuel|].
  apply kp_bindT; [apply kp_iter_children; intros; kp|]. intros _. kp.
Qed.
Lemma kp_replace_ring f r o : keeps (replace_ring f r o) T.
Proof.
  unfold replace_ring. destruct (opt_is (Some r) o); [apply kp_raise|].
  apply kp_bindT; [apply kp_iter_children; intros; kp|]. intros _. kp.
Qed.
Lemma kp_find_parent_in_tree f d : forall r p, keeps (find_parent_in_tree f d r p) T.
Proof. induction d as [|d IH]; intros r p; cbn [find_parent_in_tree]; kp. Qed.
#[local] Hint Resolve kp_remove_ring_and_points kp_replace_ring kp_find_parent_in_tree : kp.

(** ** Topology correction *)
Lemma kp_for_repeats l f : (forall a b, keeps (f a b) T) -> keeps (for_repeats l f) T.
Proof. intros H. unfold for_repeats. kp. Qed.
Lemma kp_node_lt f i j : keeps (node_lt f i j) T. Proof. k node_lt. Qed.
#[local] Hint Resolve kp_node_lt : kp.
Lemma kp_sort_all_nodes f : keeps (sort_all_nodes f) T.
Proof.
  unfold sort_all_nodes. eapply kp_bind with (p := Forall G); [apply kp_gets; intros s P; apply P|]. intros l Hl.
  eapply kp_bind; [apply kp_py_sort; [intros; kp|exact Hl]|]. intros l' Hl'. apply kp_modify.
  intros s [P1 P2 P3 P4 P5]. constructor; cbn; auto.
Qed.
Lemma kp_ring_lt f i j : keeps (ring_lt f i j) T. Proof. k ring_lt. Qed.
#[local] Hint Resolve kp_sort_all_nodes kp_ring_lt : kp.
Lemma Forall_T {A} (l : list A) : Forall T l.
Proof. apply Forall_forall. intros; exact I. Qed.
Lemma kp_sorted_rings f : keeps (sorted_rings f) T.
Proof. unfold sorted_rings. kp. eapply kp_T. apply kp_py_sort; [intros; kp|apply Forall_T]. Qed.
Lemma kp_reversed_sorted_rings f : keeps (reversed_sorted_rings f) T.
Proof. unfold reversed_sorted_rings. kp. eapply kp_T. apply kp_py_sort_rev; [intros; kp|apply Forall_T]. Qed.
Lemma kp_correct_orientation f r : keeps (correct_orientation f r) T. Proof. k correct_orientation. Qed.
#[local] Hint Resolve kp_sorted_rings kp_reversed_sorted_rings kp_correct_orientation : kp.
Lemma kp_correct_orientations f : keeps (correct_orientations f) T. Proof. k correct_orientations. Qed.
Lemma kp_correct_self_intersection f i j : G i -> G j -> keeps (correct_self_intersection f i j) T.
Proof. k correct_self_intersection. Qed.
#[local] Hint Resolve kp_correct_orientations kp_correct_self_intersection : kp.
Lemma kp_nth l n : Forall G l -> keeps (lift (nth_res l n)) G.
Proof.
  intros F. apply kp_lift. intros a E. unfold nth_res in E. destruct (nth_error l n) eqn:En; [|discriminate].
  injection E as <-. rewrite Forall_forall in F. apply F. eapply nth_error_In, En.
Qed.
#[local] Hint Resolve kp_nth : kp.
Lemma kp_correct_repeated_points f l a b n : Forall G l -> keeps (correct_repeated_points f l a b n) T.
Proof. intros H. unfold correct_repeated_points. kp. Qed.
#[local] Hint Resolve kp_correct_repeated_points : kp.
Lemma kp_find_and_correct f r : keeps (find_and_correct_repeated_points f r) T.
Proof. unfold find_and_correct_repeated_points. kp. Qed.
Lemma kp_usable_ring f r : keeps (usable_ring f r) T. Proof. k usable_ring. Qed.
Lemma kp_positive_area f r : keeps (positive_area f r) T. Proof. k positive_area. Qed.
#[local] Hint Resolve kp_find_and_correct kp_usable_ring kp_positive_area : kp.
Lemma kp_try_prev_ring f a b c d e : keeps (try_prev_ring f a b c d e) T. Proof. k try_prev_ring. Qed.
#[local] Hint Resolve kp_try_prev_ring : kp.
Lemma kp_place_new_ring f a b c d e : keeps (place_new_ring f a b c d e) T. Proof. k place_new_ring. Qed.
#[local] Hint Resolve kp_place_new_ring : kp.
Lemma kp_place_new_rings f a b c l : forall d, keeps (place_new_rings f a b c d l) T.
Proof. induction l as [|r l IH]; intros d; cbn [place_new_rings]; kp. Qed.
#[local] Hint Resolve kp_place_new_rings : kp.
Lemma kp_assign_new_ring_parents f r l : keeps (assign_new_ring_parents f r l) T.
Proof.
  unfold assign_new_ring_parents. apply kp_bindT; [kp|]. intros nr.
  match goal with |- context [?g nr] =>
    match type of g with list rid -> prog (list (rid * float)) => assert (K : forall x, keeps (g x) T) end end.
  { intros x. induction x as [|x l' IH]; kp. }
  destruct nr as [|r0 [|r1 nr]]; [kp|kp|]. apply kp_bindT; [kp|]. intros op. apply kp_bindT; [apply (K (r0 :: r1 :: nr))|]. intros. kp.
Qed.
#[local] Hint Resolve kp_assign_new_ring_parents : kp.
Lemma kp_correct_ring_self f r b : keeps (correct_ring_self_intersections f r b) T.
Proof. k correct_ring_self_intersections. Qed.
#[local] Hint Resolve kp_correct_ring_self : kp.
Lemma kp_correct_self_intersections f b : keeps (correct_self_intersections f b) T.
Proof. k correct_self_intersections. Qed.
#[local] Hint Resolve kp_correct_self_intersections : kp.
Lemma kp_unlink i j : G i -> keeps (unlink i j) T. Proof. k unlink. Qed.
#[local] Hint Resolve kp_unlink : kp.
Lemma kp_drop_next i j : G i -> keeps (drop_next i j) T. Proof. k drop_next. Qed.
Lemma kp_drop_prev i j : G i -> keeps (drop_prev i j) T. Proof. k drop_prev. Qed.
#[local] Hint Resolve kp_drop_next kp_drop_prev : kp.
Lemma kp_drop_equal f d g i : (forall o, keeps (g i o) T) -> keeps (drop_equal f d g i) T.
Proof. intros H. unfold drop_equal. kp. Qed.
Lemma kp_remove_duplicate_points f i j : G i -> G j -> keeps (remove_duplicate_points f i j) T.
Proof.
  intros Hi Hj. unfold remove_duplicate_points.
  repeat first [progress kp_step|apply kp_drop_equal; intros; kp].
Qed.
#[local] Hint Resolve kp_remove_duplicate_points : kp.

Lemma kp_collinear_different f i j : G i -> G j -> keeps (collinear_different_rings f i j) T.
Proof.
  intros. unfold collinear_different_rings. kp; side.
Qed.
Lemma kp_collinear_same f i j : G i -> G j -> keeps (collinear_same_ring f i j) T.
Proof.
  intros. unfold collinear_same_ring. kp; side.
Qed.
#[local] Hint Resolve kp_collinear_different kp_collinear_same : kp.
Lemma kp_process_collinear_edges f i j : G i -> G j -> keeps (process_collinear_edges f i j) T.
Proof. intros. unfold process_collinear_edges. kp. Qed.
#[local] Hint Resolve kp_process_collinear_edges : kp.
Lemma kp_correct_collinear_repeats f l a b : Forall G l -> keeps (correct_collinear_repeats f l a b) T.
Proof. intros. unfold correct_collinear_repeats. kp. Qed.
#[local] Hint Resolve kp_correct_collinear_repeats : kp.
Lemma kp_all : keeps (gets s_all) (Forall G). Proof. apply kp_gets. intros s P. apply P. Qed.
#[local] Hint Resolve kp_all : kp.
Lemma kp_correct_collinear_edges f : keeps (correct_collinear_edges f) T.
Proof. unfold correct_collinear_edges. kp. apply kp_for_repeats. intros. kp. Qed.
Lemma kp_find_parent f r l : keeps (find_parent f r l) T.
Proof. induction l as [|q l IH]; cbn [find_parent]; kp. Qed.
#[local] Hint Resolve kp_correct_collinear_edges kp_find_parent : kp.
Lemma kp_correct_tree_ring f l r : keeps (correct_tree_ring f l r) T. Proof. k correct_tree_ring. Qed.
#[local] Hint Resolve kp_correct_tree_ring : kp.
Lemma kp_correct_tree_loop f l : forall b, keeps (correct_tree_loop f b l) T.
Proof. induction l as [|r l IH]; intros b; cbn [correct_tree_loop]; kp. Qed.
#[local] Hint Resolve kp_correct_tree_loop : kp.
Lemma kp_correct_tree f : keeps (correct_tree f) T. Proof. k correct_tree. Qed.
#[local] Hint Resolve kp_correct_tree : kp.

Lemma kp_conn_add r p : pairG p -> keeps (conn_add r p) T.
Proof. intros. unfold conn_add. kp; side. apply kp_conn_set. side. Qed.
#[local] Hint Resolve kp_conn_add : kp.
Definition interG (x : inter) : Prop := pairG (snd x).
Lemma kp_loop_scan f a b c d e l : Forall pairG l -> keeps (loop_scan f a b c d e l)
  (fun r => (forall p, fst r = Some p -> pairG p) /\ Forall pairG (snd r)).
Proof.
  intros F. induction F as [|[x y] l H F IH]; cbn [loop_scan].
  - apply kp_ret. split; [discriminate|constructor].
  - kp. apply kp_ret. cbn. split; [intros p [= <-]; exact H|constructor].
Qed.
#[local] Hint Resolve kp_loop_scan : kp.
Lemma kp_find_intersect_loop f dp : forall a b c v d e,
  keeps (find_intersect_loop f dp a b c v d e) (fun r => forall l, fst r = Some l -> Forall interG l).
Proof.
  induction dp as [|dp IH]; intros a b c v d e; cbn [find_intersect_loop]; [apply kp_nofuel|].
  eapply kp_bind; [apply kp_conn_get|]. intros prs Hp. eapply kp_bind; [apply kp_loop_scan, Hp|]. intros [o pr'] [H1 H2].
  cbn [fst snd] in *. destruct o as [p|].
  - apply kp_ret. cbn. intros l [= <-]. constructor; [apply H1; reflexivity|constructor].
  - apply kp_bindT; [apply kp_conn_set, H2|]. intros _.
    match goal with |- keeps (_ _ ?w) _ => generalize w end.
    induction H2 as [|[x y] l Hxy H2 IHl]; intros w.
    + apply kp_ret. cbn. discriminate.
    + eapply kp_bind; [apply kp_nd|]. intros n2 _. destruct (n_ring n2) as [r|]; [|apply IHl].
      destruct (existsb _ _); [apply IHl|]. apply kp_bindT; [kp|]. intros x0. destruct (_ && _); [apply IHl|].
      apply kp_bindT; [kp|]. intros ar. apply kp_bindT; [kp|]. intros z. destruct z; [apply IHl|].
      apply kp_bindT; [kp|]. intros eq. destruct eq; [apply IHl|].
      eapply kp_bind; [apply IH|]. intros [g w'] Hg. cbn [fst snd] in *. destruct g as [items|]; [|apply IHl].
      apply kp_ret. cbn. intros l0 [= <-]. constructor; [exact Hxy|]. apply Hg. reflexivity.
Qed.
#[local] Hint Resolve kp_find_intersect_loop : kp.
Lemma kp_direct_scan a b l : Forall pairG l -> keeps (direct_scan a b l)
  (fun r => (forall p, snd (fst r) = Some p -> pairG p) /\ Forall pairG (snd r)).
Proof.
  intros F. induction F as [|[x y] l H F IH]; cbn [direct_scan].
  - apply kp_ret. split; [discriminate|constructor].
  - eapply kp_bind; [apply kp_nd|]. intros n1 _. eapply kp_bind; [apply kp_nd|]. intros n2 _.
    destruct (_ || _); [exact IH|]. destruct (opt_is _ _).
    + apply kp_bindT; [kp|]. intros e. destruct e.
      * eapply kp_bind; [apply IH|]. intros [[g it] kept] [H1 H2]. apply kp_ret. cbn in *. split; [exact H1|]. constructor; assumption.
      * apply kp_ret. cbn. split; [intros p [= <-]; exact H|]. constructor; assumption.
    + eapply kp_bind; [apply IH|]. intros [[g it] kept] [H1 H2]. apply kp_ret. cbn in *. split; [exact H1|]. constructor; assumption.
Qed.
#[local] Hint Resolve kp_direct_scan : kp.
Lemma kp_chain_scan f a b c d l : Forall pairG l -> forall v, keeps (chain_scan f a b c d l v)
  (fun r => forall l, r = Some l -> Forall interG l).
Proof.
  intros F. induction F as [|[x y] l H F IH]; intros v; cbn [chain_scan].
  - apply kp_ret. discriminate.
  - eapply kp_bind; [apply kp_nd|]. intros n2 _. destruct (n_ring n2) as [r|]; [|apply IH].
    destruct (Pos.eqb r c); [apply IH|]. apply kp_bindT; [kp|]. intros e. apply kp_bindT; [kp|]. intros x0.
    destruct (_ || _); [apply IH|]. apply kp_bindT; [kp|]. intros ar. apply kp_bindT; [kp|]. intros z.
    destruct z; [apply IH|]. eapply kp_bind; [apply kp_find_intersect_loop|]. intros [g w'] Hg. cbn [fst snd] in *.
    destruct g as [items|]; [|apply IH]. apply kp_ret. intros l0 [= <-]. constructor; [exact H|]. apply Hg. reflexivity.
Qed.
#[local] Hint Resolve kp_chain_scan : kp.
Lemma kp_switch_nexts a b : G a -> G b -> keeps (switch_nexts a b) T. Proof. k switch_nexts. Qed.
#[local] Hint Resolve kp_switch_nexts : kp.
Lemma kp_origin_swap f a b c l : G b -> G c -> Forall interG l -> keeps (origin_swap f a b c l)
  (fun r => let '(l2, ro, p1, p2, ch) := r in Forall interG l2 /\ G p1 /\ G p2).
Proof.
  intros Hb Hc F. induction F as [|[r [x y]] l H F IH]; cbn [origin_swap].
  - apply kp_ret. auto.
  - apply kp_bindT; [kp|]. intros h. destruct h.
    + eapply kp_bind; [apply IH|]. intros [[[[l2 ro] p1] p2] ch] (H1 & H2 & H3). apply kp_ret.
      repeat split; auto.
    + apply kp_ret. repeat split; try apply H. constructor; [split; assumption|assumption].
Qed.
Lemma kp_give_children f a b : keeps (give_children f a b) T.
Proof. unfold give_children. apply kp_iter_children. intros. kp. Qed.
#[local] Hint Resolve kp_origin_swap kp_give_children : kp.
Lemma kp_moved_pairs f l : Forall pairG l -> keeps (moved_pairs f l) (Forall interG).
Proof.
  intros F. induction F as [|[x y] l H F IH]; cbn [moved_pairs]; [kp|].
  eapply kp_bind; [apply kp_nd|]. intros n1 _. eapply kp_bind; [apply kp_nd|]. intros n2 _.
  eapply kp_bind with (p := Forall interG).
  - destruct (n_ring n1) as [r1|]; [|kp]. destruct (n_ring n2) as [r2|]; [|kp].
    destruct (Pos.eqb r1 r2); [kp|]. apply kp_bindT; [kp|]. intros h1. apply kp_bindT; [kp|]. intros h2.
    apply kp_ret. destruct h2; constructor; [exact H|constructor].
  - intros here Hh. eapply kp_bind; [apply IH|]. intros rest Hr. apply kp_ret. apply Forall_app. auto.
Qed.
Lemma kp_origin_pairs f r l : Forall pairG l -> keeps (origin_pairs f r l)
  (fun x => Forall interG (fst x) /\ Forall pairG (snd x)).
Proof.
  intros F. induction F as [|[x y] l H F IH]; cbn [origin_pairs]; [kp|].
  eapply kp_bind; [apply kp_nd|]. intros n1 _. eapply kp_bind; [apply kp_nd|]. intros n2 _.
  eapply kp_bind with (p := fun x => Forall interG (fst x) /\ Forall pairG (snd x)).
  - destruct (n_ring n1) as [r1|]; [|kp]. destruct (n_ring n2) as [r2|]; [|kp].
    destruct (Pos.eqb r1 r2); [kp|]. apply kp_bindT; [kp|]. intros h1. apply kp_bindT; [kp|]. intros h2.
    apply kp_ret. destruct (negb _), h2; cbn; split; try constructor; try exact H; constructor.
  - intros here [Hh1 Hh2]. eapply kp_bind; [apply IH|]. intros rest [Hr1 Hr2]. apply kp_ret. cbn.
    split; apply Forall_app; auto.
Qed.
#[local] Hint Resolve kp_moved_pairs kp_origin_pairs : kp.
Lemma kp_reconnect f a b c d l : G c -> G d -> Forall interG l -> keeps (reconnect f a b c d l) T.
Proof.
  intros Hc Hd Hl. unfold reconnect. apply kp_bindT; [kp|]. intros h.
  eapply kp_bind with (p := fun r => let '(l2, ro, p1, p2, ch) := (r : list inter * rid * nid * nid * bool) in Forall interG l2 /\ G p1 /\ G p2).
  { destruct h; [apply kp_origin_swap; assumption|apply kp_ret; auto]. }
  intros [[[[l2 ro] p1] p2] ch] (H1 & H2 & H3). cbv zeta.
  apply kp_bindT; [kp|]. intros oh. apply kp_bindT; [kp|]. intros _.
  apply kp_bindT. { eapply kp_for; [exact H1|]. intros it Hit. apply kp_switch_nexts; apply Hit. }
  intros _. apply kp_bindT; [kp|]. intros nw. apply kp_bindT; [kp|]. intros _. apply kp_bindT; [kp|]. intros s1.
  apply kp_bindT; [kp|]. intros s2. apply kp_bindT; [kp|]. intros _. apply kp_bindT; [kp|]. intros _.
  apply kp_bindT; [kp|]. intros _. apply kp_bindT; [kp|]. intros _. apply kp_bindT; [kp|]. intros _.
  apply kp_bindT; [kp|]. intros _.
  eapply kp_bind with (p := Forall interG).
  { apply kp_forM_acc; [constructor|]. intros it acc Ha. kp. }
  intros m1 Hm1. eapply kp_bind; [apply kp_conn_get|]. intros l3 Hl3. eapply kp_bind; [apply kp_origin_pairs, Hl3|].
  intros op [Ho1 Ho2]. apply kp_bindT; [apply kp_conn_set, Ho2|]. intros _.
  apply kp_for with (p := interG); [apply Forall_app; auto|]. intros it Hit. apply kp_conn_add, Hit.
Qed.
#[local] Hint Resolve kp_reconnect : kp.
Lemma kp_process_single f i j : G i -> G j -> keeps (process_single_intersection f i j) T.
Proof.
  intros Hi Hj. unfold process_single_intersection.
  eapply kp_bind; [apply kp_nd|]. intros nj _. eapply kp_bind; [apply kp_nd|]. intros nk _.
  destruct (opt_is _ _); [kp|]. apply kp_bindT; [kp|]. intros rj. apply kp_bindT; [kp|]. intros rk.
  apply kp_bindT; [kp|]. intros hj. apply kp_bindT; [kp|]. intros hk. destruct (_ && _); [kp|].
  apply kp_bindT; [kp|]. intros xj.
  assert (K : forall origin parent search o1 o2, G o1 -> G o2 -> keeps (
         xs <- rg search ;;
         if negb (opt_is parent (r_parent xs)) then ret tt
         else
           (pairs <- conn_get search ;;
            ds <- direct_scan origin o1 pairs ;;
            let '(found, item, kept) :=
              (ds : bool * option (nid * nid) * list (nid * nid)) in
            conn_set search kept ;;
            fi <- match item with
                  | Some p => ret (true, [(search, p)])
                  | None =>
                      (c <- chain_scan f parent origin search o2 kept [search] ;;
                       match c with
                       | Some items => ret (true, items)
                       | None => ret (found, [])
                       end)
                  end ;;
            let '(found, ilist) := (fi : bool * list inter) in
            if negb found then
              (conn_add origin (o1, o2) ;; conn_add search (o2, o1))
            else
              match ilist with
              | [] =>
                  (l <- conn_get origin ;;
                   s <- get ;;
                   let missing := negb (existsb (fun p =>
                     opt_is (n_ring (hget dummy_node (s_nodes s) (snd p))) (Some search)) l) in
                   if missing then conn_add origin (o1, o2) else ret tt)
              | _ => reconnect f parent origin o1 o2 ilist
              end)) T).
  { intros origin parent search o1 o2 H1 H2.
  apply kp_bindT; [kp|]. intros xs. destruct (negb _); [kp|].
  eapply kp_bind; [apply kp_conn_get|]. intros prs Hp. eapply kp_bind; [apply kp_direct_scan, Hp|].
  intros [[found item] kept] [Hi1 Hi2]. cbn [fst snd] in *. apply kp_bindT; [apply kp_conn_set, Hi2|]. intros _.
  eapply kp_bind with (p := fun x => Forall interG (snd x)).
  { destruct item as [p|].
    - apply kp_ret. cbn. constructor; [apply Hi1; reflexivity|constructor].
    - eapply kp_bind; [apply kp_chain_scan, Hi2|]. intros c Hc. destruct c as [items|]; apply kp_ret; cbn; [auto|constructor]. }
  intros [found' il] Hil. cbn [fst snd] in *. destruct (negb found').
  - apply kp_bindT; [|intros _]; apply kp_conn_add; split; assumption.
  - destruct il as [|x il]; [|apply kp_reconnect; assumption].
    eapply kp_bind; [apply kp_conn_get|]. intros l3 _. apply kp_bindT; [kp|]. intros s. cbv zeta.
    destruct (negb _); [|kp]. apply kp_conn_add; split; assumption. }
  destruct (negb hj); [apply K; assumption|]. destruct (negb hk); apply K; assumption.
Qed.
#[local] Hint Resolve kp_process_single : kp.
Lemma kp_correct_chained_repeats f l a b : Forall G l -> keeps (correct_chained_repeats f l a b) T.
Proof. intros. unfold correct_chained_repeats. kp. Qed.
#[local] Hint Resolve kp_correct_chained_repeats : kp.
Lemma kp_correct_chained_rings f : keeps (correct_chained_rings f) T.
Proof.
  unfold correct_chained_rings. eapply kp_bind; [apply kp_all|]. intros l Hl. destruct (_ <? _)%nat; [kp|].
  apply kp_bindT.
  { apply kp_modify. intros s [P1 P2 P3 P4 P5]. constructor; cbn; auto. intros r. unfold hget. rewrite PositiveMap.gempty. constructor. }
  intros _. apply kp_for_repeats. intros. kp.
Qed.
#[local] Hint Resolve kp_correct_chained_rings : kp.
Theorem kp_correct_topology f : keeps (correct_topology f) T. Proof. k correct_topology. Qed.

(** ** The output *)
Lemma kp_points_of l : Forall G l -> keeps (points_of l) (Forall (fun p => exists i, G i /\ p = W i)).
Proof.
  intros F. apply kp_gets. intros s P. apply Forall_forall. intros x I. apply in_map_iff in I as (i & <- & I).
  rewrite Forall_forall in F. exists i. split; [auto|apply (pt_place _ P)].
Qed.
Lemma kp_ring_output f rv r : keeps (ring_output f rv r) (Forall (fun p => exists i, G i /\ p = W i)).
Proof.
  unfold ring_output. eapply kp_bind; [apply kp_rg|]. intros x Hx. destruct (r_node x) as [n|] eqn:En; [|kp].
  assert (Hn : G n) by (apply Hx; exact En).
  eapply kp_bind with (p := Forall G); [destruct rv; kp|]. intros l Hl.
  eapply kp_bind; [apply kp_points_of, Hl|]. intros pts Hp. eapply kp_bind; [apply kp_node_point|]. intros p Hpp.
  apply kp_ret. apply Forall_app. split; [exact Hp|]. constructor; [eauto|constructor].
Qed.
Definition output_of (q : point) : Prop := exists i, G i /\ q = W i.
Lemma kp_rings_to_polygons f rv d : forall l, keeps (rings_to_polygons f d rv l) (Forall (Forall (Forall output_of))).
Proof.
  induction d as [|d IH]; intros l; cbn [rings_to_polygons]; [apply kp_nofuel|].
  eapply kp_bind; [apply kp_mapM with (p := Forall (Forall (Forall output_of)))|].
  - intros r. apply kp_bindT; [eapply kp_T, kp_rg|]. intros x.
    eapply kp_bind; [apply kp_ring_output|]. intros o Ho. eapply kp_bind; [apply kp_mapM, kp_ring_output|]. intros hs Hh.
    eapply kp_bind; [apply kp_mapM with (p := Forall (Forall (Forall output_of)))|].
    + intros c. apply kp_bindT; [eapply kp_T, kp_rg|]. intros y. apply IH.
    + intros subs Hs. apply kp_ret. constructor; [constructor; assumption|]. apply Forall_concat, Hs.
  - intros pss Hp. apply kp_ret. apply Forall_concat, Hp.
Qed.
Theorem kp_build_result f rv : keeps (build_result f rv) (Forall (Forall (Forall output_of))).
Proof. unfold build_result. apply kp_bindT; [kp|]. intros c. apply kp_rings_to_polygons. Qed.
(** ** The output functions of the sweep that create no node *)
Lemma kp_upd_bound i f : keeps (upd_bound i f) T.
Proof. apply kp_modify. intros s [P1 P2 P3 P4 P5]. constructor; cbn; auto. Qed.
#[local] Hint Resolve kp_upd_bound : kp.
Lemma kp_set_hole_state i : keeps (set_hole_state i) T. Proof. k set_hole_state. Qed.
Lemma kp_join_chains f a b c d : G c -> G d -> keeps (join_chains f a b c d) (oG G).
Proof. k join_chains. Qed.
#[local] Hint Resolve kp_join_chains : kp.
Lemma kp_append_ring f i j : keeps (append_ring f i j) T.
Proof.
  unfold append_ring. repeat (apply kp_bindT; [kp|]; intros).
  match goal with |- keeps (match ?t with _ => _ end) _ => destruct t as [[[keep remove] kb] rb] end.
  eapply kp_bind; [apply kp_rg|]. intros kr Hk. eapply kp_bind; [apply kp_rg|]. intros rr Hr.
  eapply kp_bind; [apply kp_deref with (p := G); intros; apply Hk; assumption|]. intros p1 H1. cbv beta in *.
  eapply kp_bind; [apply kp_deref with (p := G); intros; apply Hr; assumption|]. intros p2 H2. cbv beta in *.
  apply kp_bindT; [kp|]. intros kbd. apply kp_bindT; [kp|]. intros rbd.
  eapply kp_bind; [apply kp_join_chains; assumption|]. intros hd Hh.
  apply kp_bindT; [destruct hd; kp|]. intros _. kp.
Qed.
End Keep.
