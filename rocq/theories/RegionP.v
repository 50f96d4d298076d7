(** * Corrections of two rings never reach the other rings *)
From Coq Require Import ZArith List Bool Lia FMapPositive Permutation.
From Coq Require Import Floats.SpecFloat.
From RecordUpdate Require Import RecordSet.
From Verif Require Import Py Monad Utils Geometry LinearRingM BoundM LocalMinimumM
     StateM PointNodeM RingM SweepM TopologyM WagyuM HoareP SpecRing SpecHeap SpecRings SpecTree SweepFrameP CalmP OrderP VatP FuelP PipP SortP
     CircleP HeapOpsP StatsP SplitP NodeFrameP RingedP RingedTopP NestP NestTreeP SpecNest.
Import ListNotations RecordSetNotations.
Open Scope Z_scope.

(** a set of vertices [Y] and a set of rings [A] that only lead to each other *)
Section Region.
  Context (s0 : st) (Y : nid -> Prop) (A : rid -> Prop).
  Definition okn (o : option nid) : Prop := match o with Some k => Y k | None => True end.
  Definition okr (o : option rid) : Prop := match o with Some r => A r | None => True end.
  Record region (s : st) : Prop := {
    rn_out : forall k, ~ Y k -> node_at s k = node_at s0 k;
    rn_in : forall k, Y k -> okn (n_next (node_at s k)) /\ okn (n_prev (node_at s k)) /\ okr (n_ring (node_at s k));
    rn_first : forall r, A r -> okn (first_of s r);
    rn_rings : forall r, ~ A r -> first_of s r = first_of s0 r /\ stats_same s0 s r /\ r_corrected (ring_at s r) = r_corrected (ring_at s0 r);
    rn_fresh : forall r, (s_rnext s <= r)%positive -> A r
  }.
  Definition rt {T} (m : prog T) (P : T -> Prop) : Prop := tri region m (fun a s => region s /\ P a).

  Lemma rt_ret {T} (a : T) (P : T -> Prop) : P a -> rt (ret a) P.
  Proof. intros H. apply tri_ret. auto. Qed.
  Lemma rt_raise {T} e (P : T -> Prop) : rt (raise e) P. Proof. apply tri_raise. Qed.
  Lemma rt_nofuel {T} (P : T -> Prop) : rt nofuel P. Proof. apply tri_nofuel. Qed.
  Lemma rt_bind {T U} (m : prog T) (k : T -> prog U) (P : T -> Prop) (Q : U -> Prop) : rt m P -> (forall a, P a -> rt (k a) Q) -> rt (bind m k) Q.
  Proof. intros H K. eapply tri_bind; [exact H|]. intros a s b s' (R & Pa) E. exact (K a Pa s b s' R E). Qed.
  Lemma rt_weak {T} (m : prog T) (P Q : T -> Prop) : rt m P -> (forall a, P a -> Q a) -> rt m Q.
  Proof. intros H K. eapply tri_post; [exact H|]. cbv beta. intros a s (R & Pa). auto. Qed.
  Lemma rt_deref {T} (o : option T) : rt (deref o) (fun a => o = Some a).
  Proof. apply tri_deref. intros a s -> R. auto. Qed.
  Lemma rt_lift {T} (x : res T) : rt (lift x) (fun a => x = Ok a).
  Proof. apply tri_lift. intros a s H R. auto. Qed.
  Lemma rt_gets {T} (g : st -> T) : rt (gets g) (fun _ => True).
  Proof. apply tri_gets. auto. Qed.
  Lemma rt_loop {T U} fuel (body : T -> prog (T + U)) (I : T -> Prop) (P : U -> Prop) x :
    (forall x, I x -> rt (body x) (fun r => match r with inl y => I y | inr b => P b end)) -> I x -> rt (loopM fuel body x) P.
  Proof.
    intros H. revert x. induction fuel as [|fuel IH]; intros x Hx; [apply rt_nofuel|].
    intros s a s' R E. rewrite loopM_S in E. destruct (body x s) as [[[y|b] t]| |] eqn:Eb; try discriminate.
    - destruct (H x Hx s (inl y) t R Eb) as (R' & Iy). exact (IH y Iy t a s' R' E).
    - injection E as <- <-. exact (H x Hx s (inr b) t R Eb).
  Qed.
  (** ** Single steps *)
  Lemma rt_nd i : Y i -> rt (nd i) (fun n => okn (n_next n) /\ okn (n_prev n) /\ okr (n_ring n)).
  Proof. intros H s n s' R E. rewrite nd_run in E. injection E as <- <-. split; [exact R|]. apply (rn_in s R i H). Qed.
  Lemma rt_any_nd i : rt (nd i) (fun _ => True).
  Proof. intros s n s' R E. rewrite nd_run in E. injection E as <- <-. auto. Qed.
  Lemma rt_rg r : A r -> rt (rg r) (fun x => okn (r_node x)).
  Proof. intros H s n s' R E. rewrite rg_run in E. injection E as <- <-. split; [exact R|]. apply (rn_first s R r H). Qed.
  Lemma rt_any_rg r : rt (rg r) (fun _ => True).
  Proof. intros s n s' R E. rewrite rg_run in E. injection E as <- <-. auto. Qed.
  Lemma rt_put i f : Y i -> (forall n, okn (n_next n) /\ okn (n_prev n) /\ okr (n_ring n) -> okn (n_next (f n)) /\ okn (n_prev (f n)) /\ okr (n_ring (f n))) ->
    rt (upd_node i f) (fun _ => True).
  Proof.
    intros H Hf s u s' R E. injection E as _ <-. fold (put s i f). split; [|trivial]. split.
    - intros k Hk. rewrite node_at_put_neq; [apply (rn_out s R k Hk)|]. intros ->. contradiction.
    - intros k Hk. rewrite node_at_put. destruct (Pos.eqb_spec i k) as [<-|_]; [apply Hf|]; apply (rn_in s R _ Hk).
    - exact (rn_first s R).
    - exact (rn_rings s R).
    - exact (rn_fresh s R).
  Qed.
  Lemma rt_set_next i o : Y i -> okn o -> rt (set_next i o) (fun _ => True).
  Proof. intros H K. apply rt_put; [exact H|]. intros n (_ & B & C). cbn. auto. Qed.
  Lemma rt_set_prev i o : Y i -> okn o -> rt (set_prev i o) (fun _ => True).
  Proof. intros H K. apply rt_put; [exact H|]. intros n (B & _ & C). cbn. auto. Qed.
  Lemma rt_set_nring i o : Y i -> okr o -> rt (set_nring i o) (fun _ => True).
  Proof. intros H K. apply rt_put; [exact H|]. intros n (B & C & _). cbn. auto. Qed.
  Lemma rt_upd_ring r f : A r -> (forall x, okn (r_node x) -> okn (r_node (f x))) -> rt (upd_ring r f) (fun _ => True).
  Proof.
    intros H Hf s u s' R E. rewrite upd_ring_rput in E. injection E as _ <-. split; [|trivial]. split; try apply R.
    - intros q Hq. rewrite first_rput. destruct (Pos.eqb_spec r q) as [<-|_]; [apply Hf|]; apply (rn_first s R _ Hq).
    - intros q Hq. pose proof (rn_rings s R q Hq) as K. unfold stats_same, first_of in *. rewrite ring_at_rput. destruct (Pos.eqb_spec r q) as [<-|_]; [contradiction|exact K].
  Qed.
  Lemma rt_shelf {T} (m : prog T) : pres shelf m -> rt m (fun _ => True).
  Proof.
    intros H s a s' R E. destruct (H s a s' E) as (S & K). split; [|trivial]. split.
    - intros k Hk. rewrite (proj1 S k). apply (rn_out s R k Hk).
    - intros k Hk. rewrite (proj1 S k). apply (rn_in s R k Hk).
    - intros r Hr. rewrite (same_first _ _ _ S). apply (rn_first s R r Hr).
    - intros r Hr. rewrite (same_first _ _ _ S). destruct (rn_rings s R r Hr) as (X & (Y1 & Y2 & Y3 & Y4) & Z). split; [exact X|]. split.
      + destruct (K r) as ((K1 & K2 & K3 & K4) & _). repeat split; congruence.
      + rewrite <- Z. apply S.
    - destruct S as (_ & _ & S3 & _). rewrite S3. exact (rn_fresh s R).
  Qed.
  Lemma rt_create_ring : rt create_ring (fun r => A r).
  Proof.
    intros s new s' R E. rewrite create_ring_run in E. injection E as <- <-.
    assert (F : A (s_rnext s)) by (apply (rn_fresh s R); lia).
    split; [|exact F]. split.
    - exact (rn_out s R).
    - exact (rn_in s R).
    - intros r Hr. unfold first_of. rewrite ring_at_alloc. destruct (Pos.eqb_spec (s_rnext s) r); [exact Logic.I|apply (rn_first s R r Hr)].
    - intros r Hr. pose proof (rn_rings s R r Hr) as K. unfold stats_same, first_of in *. rewrite ring_at_alloc. destruct (Pos.eqb_spec (s_rnext s) r) as [<-|_]; [contradiction|exact K].
    - intros r Hr. apply (rn_fresh s R). cbn in Hr. lia.
  Qed.
  Lemma rt_next_of i : Y i -> rt (next_of i) Y.
  Proof.
    intros H. unfold next_of. eapply rt_bind; [apply rt_nd, H|]. intros n (K & _). eapply rt_weak; [apply rt_deref|]. cbv beta. intros a E. rewrite E in K. exact K.
  Qed.
  Lemma rt_prev_of i : Y i -> rt (prev_of i) Y.
  Proof.
    intros H. unfold prev_of. eapply rt_bind; [apply rt_nd, H|]. intros n (_ & K & _). eapply rt_weak; [apply rt_deref|]. cbv beta. intros a E. rewrite E in K. exact K.
  Qed.

  (** ** Functions *)
  Lemma rt_node_eq i j : rt (node_eq i j) (fun _ => True).
  Proof. unfold node_eq. repeat (eapply rt_bind; [apply rt_any_nd|]; intros ? _). apply rt_ret. trivial. Qed.
  Lemma rt_node_eq_opt o i : rt (node_eq_opt o i) (fun _ => True).
  Proof. unfold node_eq_opt. destruct o; [apply rt_node_eq|apply rt_ret; trivial]. Qed.
  Lemma rt_node_eq_opts o i : rt (node_eq_opts o i) (fun _ => True).
  Proof. unfold node_eq_opts. destruct o, i; first [apply rt_node_eq|apply rt_ret; trivial]. Qed.
  Definition stays (dir : node -> option nid) : Prop := forall n, okn (n_next n) /\ okn (n_prev n) /\ okr (n_ring n) -> okn (dir n).
  Lemma stays_next : stays n_next. Proof. intros n H. apply H. Qed.
  Lemma stays_prev : stays n_prev. Proof. intros n H. apply H. Qed.
  Lemma okn_Some o k : okn o -> o = Some k -> Y k. Proof. intros H ->. exact H. Qed.
  Lemma okr_Some o k : okr o -> o = Some k -> A k. Proof. intros H ->. exact H. Qed.
  Lemma rt_iter_nodes fuel n body : Y n -> (forall i, Y i -> rt (body i) (fun _ => True)) -> rt (iter_nodes fuel n body) (fun _ => True).
  Proof.
    intros H B. unfold iter_nodes. apply (rt_loop fuel _ okn); [|exact H]. intros c Hc.
    eapply rt_bind; [apply rt_deref|]. intros i Hi. pose proof (okn_Some _ _ Hc Hi) as Yi.
    eapply rt_bind; [apply B, Yi|]. intros _ _. eapply rt_bind; [apply rt_nd, Yi|]. intros m (K & _). apply rt_ret. destruct (opt_is _ _); [trivial|exact K].
  Qed.
  Lemma rt_node_stats fuel n : Y n -> rt (node_stats fuel n) (fun _ => True).
  Proof.
    intros H. unfold node_stats. eapply rt_bind; [apply rt_any_nd|]. intros m _. eapply rt_bind.
    - apply (rt_loop fuel _ (fun p => Y (fst p)) (fun _ => True)); [|exact H]. intros (c & acc) Hc. cbn [fst] in Hc.
      eapply rt_bind; [apply rt_nd, Hc|]. intros x (K & _). eapply rt_bind; [apply rt_deref|]. intros p _.
      eapply rt_bind; [apply rt_any_nd|]. intros y _. cbv zeta. destruct (opt_is _ _); [apply rt_ret; trivial|].
      eapply rt_bind; [apply rt_deref|]. intros nx E. apply rt_ret. exact (okn_Some _ _ K E).
    - intros ((a & b) & c) _. eapply rt_bind; [apply rt_lift|]. intros f _. apply rt_ret. trivial.
  Qed.
  Lemma rt_set_stats r t : A r -> rt (set_stats r t) (fun _ => True).
  Proof. intros H. apply rt_upd_ring; [exact H|]. intros x K. exact K. Qed.
  Lemma rt_recalc fuel r : A r -> rt (recalculate_stats fuel r) (fun _ => True).
  Proof.
    intros H. unfold recalculate_stats. eapply rt_bind; [apply rt_rg, H|]. intros x K. cbv beta in K. destruct (r_node x) as [n|]; [|apply rt_ret; trivial].
    eapply rt_bind; [apply rt_node_stats, K|]. intros t _. apply rt_set_stats, H.
  Qed.
  Lemma rt_ensure fuel r : A r -> rt (ensure_stats fuel r) (fun _ => True).
  Proof. intros H. unfold ensure_stats. eapply rt_bind; [apply rt_any_rg|]. intros x _. destruct (f_is_nan _); [apply rt_recalc, H|apply rt_ret; trivial]. Qed.
  Lemma rt_area fuel r : A r -> rt (ring_area fuel r) (fun _ => True).
  Proof. intros H. unfold ring_area. eapply rt_bind; [apply rt_ensure, H|]. intros _ _. eapply rt_bind; [apply rt_any_rg|]. intros x _. apply rt_ret. trivial. Qed.
  Lemma rt_size fuel r : A r -> rt (ring_size fuel r) (fun _ => True).
  Proof. intros H. unfold ring_size. eapply rt_bind; [apply rt_ensure, H|]. intros _ _. eapply rt_bind; [apply rt_any_rg|]. intros x _. apply rt_ret. trivial. Qed.
  Lemma rt_update_points fuel r : A r -> rt (update_points fuel r) (fun _ => True).
  Proof.
    intros H. unfold update_points. eapply rt_bind; [apply rt_rg, H|]. intros x K. cbv beta in K. destruct (r_node x) as [n|]; [|apply rt_raise].
    apply rt_iter_nodes; [exact K|]. intros i Hi. apply rt_set_nring; [exact Hi|exact H].
  Qed.
  Lemma rt_clear fuel n : Y n -> rt (clear_nodes fuel n) (fun _ => True).
  Proof.
    intros H. unfold clear_nodes. eapply rt_bind; [apply rt_prev_of, H|]. intros p Hp. eapply rt_bind; [apply rt_set_next; [exact Hp|exact Logic.I]|]. intros _ _.
    apply (rt_loop fuel _ okn); [|exact H]. intros [i|] Hi; [|apply rt_ret; trivial].
    eapply rt_bind; [apply rt_nd, Hi|]. intros x (K & _). eapply rt_bind; [apply rt_put; [exact Hi|]; intros; cbn; auto|]. intros _ _. apply rt_ret. exact K.
  Qed.
  Lemma rt_gone r : A r -> rt (upd_ring r (fun x => x <| r_node := None |>)) (fun _ => True).
  Proof. intros H. apply rt_upd_ring; [exact H|]. intros x _. exact Logic.I. Qed.
  Lemma rt_first r n : A r -> Y n -> rt (upd_ring r (fun x => x <| r_node := Some n |>)) (fun _ => True).
  Proof. intros H K. apply rt_upd_ring; [exact H|]. intros x _. exact K. Qed.
  Lemma rt_reset r : A r -> rt (reset_stats r) (fun _ => True).
  Proof. intros H. apply rt_upd_ring; [exact H|]. intros x K. exact K. Qed.
  Lemma rt_unparent r (b : bool) : rt (if b then (bind (rg r) (fun x => remove_from_children r (r_parent x))) else ret tt) (fun _ => True).
  Proof. destruct b; [apply rt_shelf; pres_auto|apply rt_ret; trivial]. Qed.
  Lemma rt_remove_ring fuel d r b : A r -> rt (remove_ring fuel d r false b) (fun _ => True).
  Proof.
    intros H. destruct d as [|d]; cbn [remove_ring]; [apply rt_nofuel|].
    eapply rt_bind; [apply rt_shelf; apply shelf_iter; intros k c; pres_auto|]. intros _ _.
    eapply rt_bind; [apply rt_unparent|]. intros _ _. eapply rt_bind; [apply rt_gone, H|]. intros _ _. apply rt_reset, H.
  Qed.
  Lemma rt_remove_points fuel d r b : A r -> rt (remove_ring_and_points fuel d r false b) (fun _ => True).
  Proof.
    intros H. destruct d as [|d]; cbn [remove_ring_and_points]; [apply rt_nofuel|].
    eapply rt_bind; [apply rt_shelf; apply shelf_iter; intros k c; pres_auto|]. intros _ _.
    eapply rt_bind; [apply rt_unparent|]. intros _ _. eapply rt_bind; [apply rt_rg, H|]. intros x K. cbv beta in K.
    eapply rt_bind with (P := fun _ => True); [destruct (r_node x) as [n|]; [apply rt_clear, K|apply rt_ret; trivial]|]. intros _ _.
    eapply rt_bind; [apply rt_gone, H|]. intros _ _. apply rt_reset, H.
  Qed.
  (** paths *)
  Lemma rt_slide fuel dir x y z : stays dir -> Y x -> rt (slide fuel dir x y z) Y.
  Proof.
    intros D H. unfold slide. apply (rt_loop fuel _ Y); [|exact H]. intros c Hc. eapply rt_bind; [apply rt_nd, Hc|]. intros n K. apply D in K.
    eapply rt_bind; [apply rt_node_eq_opt|]. intros e _. destruct (e && _); [|apply rt_ret; exact Hc].
    eapply rt_bind; [apply rt_deref|]. intros b E. pose proof (okn_Some _ _ K E) as Yb. apply rt_ret. destruct (Pos.eqb _ _); exact Yb.
  Qed.
  Lemma rt_skip fuel dir b x z : stays dir -> Y x -> rt (skip_repeats fuel dir b x z) Y.
  Proof.
    intros D H. unfold skip_repeats. apply (rt_loop fuel _ Y); [|exact H]. intros c Hc. eapply rt_bind; [apply rt_nd, Hc|]. intros n K. apply D in K.
    eapply rt_bind; [apply rt_node_eq_opt|]. intros e _. destruct (_ && _ && _); [|apply rt_ret; exact Hc].
    eapply rt_bind; [apply rt_deref|]. intros y E. apply rt_ret. exact (okn_Some _ _ K E).
  Qed.
  Lemma rt_search fuel a b : Y a -> Y b -> rt (collinear_search fuel a b) (fun p => Y (fst p) /\ Y (snd p)).
  Proof.
    intros Ha Hb. unfold collinear_search. apply (rt_loop fuel _ (fun p => Y (fst (fst p)) /\ Y (snd (fst p)))); [|cbn; auto].
    intros ((bk & fw) & first) (Hbk & Hfw). cbn [fst snd] in *.
    eapply rt_bind; [apply rt_slide; [apply stays_prev|exact Hbk]|]. intros bk' Hbk'.
    assert (ENDS : forall x y, Y x -> Y y -> rt (bind (prev_of x) (fun p => bind (next_of y) (fun n => ret (@inr (nid * nid * bool) (nid * nid) (p, n)))))
       (fun r => match r with inl z => Y (fst (fst z)) /\ Y (snd (fst z)) | inr p => Y (fst p) /\ Y (snd p) end)).
    { intros x y X Z. eapply rt_bind; [apply rt_prev_of, X|]. intros p Hp. eapply rt_bind; [apply rt_next_of, Z|]. intros n Hn. apply rt_ret. cbn. auto. }
    destruct (Pos.eqb bk' fw); [apply ENDS; assumption|].
    eapply rt_bind; [apply rt_slide; [apply stays_next|exact Hfw]|]. intros fw' Hfw'.
    destruct (_ && _); [apply rt_ret; cbn; auto|].
    eapply rt_bind; [apply rt_prev_of, Hbk'|]. intros p Hp. eapply rt_bind; [apply rt_next_of, Hfw'|]. intros n Hn.
    destruct (Pos.eqb _ _); [apply rt_ret; cbn; auto|]. eapply rt_bind; [apply rt_node_eq|]. intros e _. apply rt_ret. destruct e; cbn; auto.
  Qed.
  Lemma rt_path fuel a b : Y a -> Y b -> rt (collinear_path fuel a b) (fun '(p, q, r, s) => Y p /\ Y q /\ Y r /\ Y s).
  Proof.
    intros Ha Hb. unfold collinear_path. eapply rt_bind; [apply rt_any_nd|]. intros x _. eapply rt_bind; [apply rt_any_nd|]. intros y _. cbv zeta.
    eapply rt_bind; [apply rt_search; assumption|]. intros f1 (A1 & A2).
    eapply rt_bind; [apply rt_next_of, A1|]. intros sa Hsa. eapply rt_bind; [apply rt_skip; [apply stays_next|exact Hsa]|]. intros sa' Hsa'.
    eapply rt_bind; [apply rt_prev_of, A2|]. intros eb Heb. eapply rt_bind; [apply rt_skip; [apply stays_prev|exact Heb]|]. intros eb' Heb'.
    eapply rt_bind; [apply rt_search; assumption|]. intros f2 (B1 & B2).
    eapply rt_bind; [apply rt_next_of, B1|]. intros sb Hsb. eapply rt_bind; [apply rt_skip; [apply stays_next|exact Hsb]|]. intros sb' Hsb'.
    eapply rt_bind; [apply rt_prev_of, B2|]. intros ea Hea. eapply rt_bind; [apply rt_skip; [apply stays_prev|exact Hea]|]. intros ea' Hea'.
    apply rt_ret. auto.
  Qed.
  Lemma rt_detach i : Y i -> rt (detach i) okn.
  Proof.
    intros H. unfold detach. eapply rt_bind; [apply rt_prev_of, H|]. intros p Hp. eapply rt_bind; [apply rt_set_next; [exact Hp|exact Logic.I]|]. intros _ _.
    eapply rt_bind; [apply rt_set_prev; [exact H|exact Logic.I]|]. intros _ _. eapply rt_bind; [apply rt_set_nring; [exact H|exact Logic.I]|]. intros _ _.
    eapply rt_bind; [apply rt_nd, H|]. intros n (K & _). apply rt_ret. exact K.
  Qed.
  Lemma rt_detach_until fuel x y : okn x -> rt (detach_until fuel x y) (fun _ => True).
  Proof.
    intros H. unfold detach_until. apply (rt_loop fuel _ okn); [|exact H]. intros c Hc. destruct (opt_is _ _); [apply rt_ret; trivial|].
    eapply rt_bind; [apply rt_deref|]. intros i E. eapply rt_bind; [apply rt_detach; exact (okn_Some _ _ Hc E)|]. intros n Hn. apply rt_ret. exact Hn.
  Qed.
  Lemma rt_detach_do fuel x y : Y x -> rt (detach_do fuel x y) (fun _ => True).
  Proof.
    intros H. unfold detach_do. apply (rt_loop fuel _ Y); [|exact H]. intros c Hc.
    eapply rt_bind; [apply rt_detach, Hc|]. intros [n|] Hn; apply rt_ret; [destruct (Pos.eqb _ _); [trivial|exact Hn]|trivial].
  Qed.
  Lemma rt_link p e : Y p -> Y e -> rt (link p e) (fun _ => True).
  Proof. intros H K. unfold link. eapply rt_bind; [apply rt_set_next; [exact H|exact K]|]. intros _ _. apply rt_set_prev; [exact K|exact H]. Qed.
  Lemma rt_fix fuel p q r t : Y p -> Y q -> Y r -> Y t -> rt (fix_collinear_path fuel (p, q, r, t)) (fun f => okn (fst f) /\ okn (snd f)).
  Proof.
    intros Hp Hq Hr Ht. unfold fix_collinear_path.
    destruct (_ && _); [|destruct (Pos.eqb p t); [|destruct (Pos.eqb r q)]].
    - eapply rt_bind; [apply rt_detach_until, Hp|]. intros _ _. apply rt_ret. cbn. auto.
    - eapply rt_bind; [apply rt_prev_of, Hr|]. intros v Hv. eapply rt_bind; [apply rt_detach_until, Hr|]. intros _ _.
      eapply rt_bind; [apply rt_link; [exact Hv|exact Hq]|]. intros _ _. apply rt_ret. cbn. auto.
    - eapply rt_bind; [apply rt_prev_of, Hp|]. intros v Hv. eapply rt_bind; [apply rt_detach_until, Hp|]. intros _ _.
      eapply rt_bind; [apply rt_link; [exact Hv|exact Ht]|]. intros _ _. apply rt_ret. cbn. auto.
    - eapply rt_bind; [apply rt_prev_of, Hp|]. intros v Hv. eapply rt_bind; [apply rt_prev_of, Hr|]. intros w Hw.
      eapply rt_bind; [apply rt_detach_do, Hp|]. intros _ _. eapply rt_bind; [apply rt_detach_do, Hr|]. intros _ _.
      destruct (_ && _); [apply rt_ret; cbn; auto|]. destruct (Pos.eqb p q); [|destruct (Pos.eqb r t)].
      + eapply rt_bind; [apply rt_link; [exact Hw|exact Ht]|]. intros _ _. apply rt_ret. cbn. auto.
      + eapply rt_bind; [apply rt_link; [exact Hv|exact Hq]|]. intros _ _. apply rt_ret. cbn. auto.
      + eapply rt_bind; [apply rt_link; [exact Hv|exact Ht]|]. intros _ _. eapply rt_bind; [apply rt_link; [exact Hw|exact Hq]|]. intros _ _. apply rt_ret. cbn. auto.
  Qed.
  (** corrections *)
  Lemma rt_cut fuel i j : Y i -> Y j -> rt (correct_self_intersection fuel i j) okr.
  Proof.
    intros Hi Hj. unfold correct_self_intersection. eapply rt_bind; [apply rt_nd, Hi|]. intros a (_ & _ & Ra). eapply rt_bind; [apply rt_nd, Hj|]. intros b _.
    destruct (negb _); [apply rt_ret; exact Logic.I|]. eapply rt_bind; [apply rt_deref|]. intros r E. pose proof (okr_Some _ _ Ra E) as Ar.
    eapply rt_bind; [apply rt_prev_of, Hi|]. intros p Hp. eapply rt_bind; [apply rt_prev_of, Hj|]. intros q Hq.
    eapply rt_bind; [apply rt_set_prev; [exact Hi|exact Hq]|]. intros _ _. eapply rt_bind; [apply rt_set_next; [exact Hq|exact Hi]|]. intros _ _.
    eapply rt_bind; [apply rt_set_prev; [exact Hj|exact Hp]|]. intros _ _. eapply rt_bind; [apply rt_set_next; [exact Hp|exact Hj]|]. intros _ _.
    eapply rt_bind; [apply rt_create_ring|]. intros new An. eapply rt_bind; [apply rt_node_stats, Hi|]. intros t1 _. eapply rt_bind; [apply rt_node_stats, Hj|]. intros t2 _.
    eapply rt_bind with (P := fun _ => True).
    - destruct (num_gtb _ _); (eapply rt_bind; [apply rt_first; eassumption|]); intros _ _; (eapply rt_bind; [apply rt_set_stats; assumption|]); intros _ _;
        (eapply rt_bind; [apply rt_first; eassumption|]); intros _ _; apply rt_set_stats; assumption.
    - intros _ _. eapply rt_bind; [apply rt_update_points, An|]. intros _ _. apply rt_ret. exact An.
  Qed.
  Lemma rt_unlink i o : Y i -> Y o -> rt (unlink i o) (fun _ => True).
  Proof.
    intros Hi Ho. unfold unlink. eapply rt_bind; [apply rt_put; [exact Ho|]; intros; cbn; auto|]. intros _ _.
    eapply rt_bind; [apply rt_nd, Hi|]. intros n (_ & _ & K). eapply rt_bind; [apply rt_deref|]. intros r E. pose proof (okr_Some _ _ K E) as Ar.
    eapply rt_bind; [apply rt_any_rg|]. intros x _. destruct (opt_is _ _); [apply rt_first; assumption|apply rt_ret; trivial].
  Qed.
  Lemma rt_drop_next i o : Y i -> Y o -> rt (drop_next i o) (fun _ => True).
  Proof.
    intros Hi Ho. unfold drop_next. eapply rt_bind; [apply rt_nd, Ho|]. intros x (K & _). eapply rt_bind; [apply rt_set_next; [exact Hi|exact K]|]. intros _ _.
    eapply rt_bind; [apply rt_next_of, Hi|]. intros nx Hn. eapply rt_bind; [apply rt_set_prev; [exact Hn|exact Hi]|]. intros _ _. apply rt_unlink; assumption.
  Qed.
  Lemma rt_drop_prev i o : Y i -> Y o -> rt (drop_prev i o) (fun _ => True).
  Proof.
    intros Hi Ho. unfold drop_prev. eapply rt_bind; [apply rt_nd, Ho|]. intros x (_ & K & _). eapply rt_bind; [apply rt_set_prev; [exact Hi|exact K]|]. intros _ _.
    eapply rt_bind; [apply rt_prev_of, Hi|]. intros nx Hn. eapply rt_bind; [apply rt_set_next; [exact Hn|exact Hi]|]. intros _ _. apply rt_unlink; assumption.
  Qed.
  Lemma rt_drop_equal fuel dir drop i : stays dir -> Y i -> (forall o, Y o -> rt (drop i o) (fun _ => True)) -> rt (drop_equal fuel dir drop i) (fun _ => True).
  Proof.
    intros D H DR. unfold drop_equal. apply (rt_loop fuel _ (fun _ => True)); [|trivial]. intros [] _. eapply rt_bind; [apply rt_nd, H|]. intros n K. apply D in K.
    eapply rt_bind; [apply rt_node_eq_opt|]. intros e _. destruct (e && _); [|apply rt_ret; trivial].
    eapply rt_bind; [apply rt_deref|]. intros o E. eapply rt_bind; [apply DR; exact (okn_Some _ _ K E)|]. intros _ _. apply rt_ret. trivial.
  Qed.
  Lemma rt_remove_duplicates fuel i j : Y i -> Y j -> rt (remove_duplicate_points fuel i j) (fun _ => True).
  Proof.
    intros Hi Hj. unfold remove_duplicate_points. eapply rt_bind; [apply rt_any_nd|]. intros a _. eapply rt_bind; [apply rt_any_nd|]. intros b _. cbv zeta.
    destruct (_ && _); [eapply rt_bind; [apply rt_drop_next; assumption|]; intros _ _; apply rt_ret; trivial|].
    destruct (_ && _); [eapply rt_bind; [apply rt_drop_prev; assumption|]; intros _ _; apply rt_ret; trivial|].
    assert (DD : forall x (k : unit -> prog bool), Y x -> rt (k tt) (fun _ => True) ->
       rt (bind (drop_equal fuel n_next drop_next x) (fun _ => bind (drop_equal fuel n_prev drop_prev x) k)) (fun _ => True)).
    { intros x k Hx K. eapply rt_bind; [apply rt_drop_equal; [apply stays_next|exact Hx|intros o Ho; apply rt_drop_next; assumption]|]. intros _ _.
      eapply rt_bind; [apply rt_drop_equal; [apply stays_prev|exact Hx|intros o Ho; apply rt_drop_prev; assumption]|]. intros [] _. exact K. }
    apply DD; [exact Hi|]. eapply rt_bind; [apply rt_nd, Hi|]. intros a' (_ & _ & Ka). destruct (opt_is _ _).
    { eapply rt_bind; [apply rt_deref|]. intros r E. eapply rt_bind; [apply rt_remove_points; exact (okr_Some _ _ Ka E)|]. intros _ _. apply rt_ret. trivial. }
    eapply rt_bind; [apply rt_any_nd|]. intros b' _. destruct (is_none _); [apply rt_ret; trivial|].
    apply DD; [exact Hj|]. eapply rt_bind; [apply rt_nd, Hj|]. intros c (_ & _ & Kc). destruct (opt_is _ _).
    { eapply rt_bind; [apply rt_deref|]. intros r E. eapply rt_bind; [apply rt_remove_points; exact (okr_Some _ _ Kc E)|]. intros _ _. apply rt_ret. trivial. }
    eapply rt_bind; [apply rt_any_nd|]. intros d _. apply rt_ret. trivial.
  Qed.
  Lemma rt_same_ring fuel i j : Y i -> Y j -> rt (collinear_same_ring fuel i j) (fun _ => True).
  Proof.
    intros Hi Hj. unfold collinear_same_ring. eapply rt_bind; [apply rt_nd, Hi|]. intros a (_ & _ & Ka). eapply rt_bind; [apply rt_deref|]. intros r E. pose proof (okr_Some _ _ Ka E) as Ar.
    eapply rt_bind; [apply rt_path; assumption|]. intros (((p & q) & u) & v) (H1 & H2 & H3 & H4).
    eapply rt_bind; [apply rt_fix; assumption|]. intros ([x|] & [y|]) (K1 & K2); cbn [fst snd okn] in *; try (apply rt_remove_ring; exact Ar).
    - eapply rt_bind; [apply rt_create_ring|]. intros new An. eapply rt_bind; [apply rt_first; assumption|]. intros _ _. eapply rt_bind; [apply rt_recalc, An|]. intros _ _.
      eapply rt_bind; [apply rt_update_points, An|]. intros _ _. eapply rt_bind; [apply rt_first; assumption|]. intros _ _. apply rt_recalc, Ar.
    - eapply rt_bind; [apply rt_first; assumption|]. intros _ _. apply rt_recalc, Ar.
  Qed.
  Lemma rt_different_rings fuel i j : Y i -> Y j -> rt (collinear_different_rings fuel i j) (fun _ => True).
  Proof.
    intros Hi Hj. unfold collinear_different_rings. eapply rt_bind; [apply rt_nd, Hi|]. intros a (_ & _ & Ka). eapply rt_bind; [apply rt_nd, Hj|]. intros b (_ & _ & Kb).
    eapply rt_bind; [apply rt_deref|]. intros r1 Ea. pose proof (okr_Some _ _ Ka Ea) as A1. eapply rt_bind; [apply rt_deref|]. intros r2 Eb. pose proof (okr_Some _ _ Kb Eb) as A2.
    eapply rt_bind; [apply rt_area, A1|]. intros x1 _. eapply rt_bind; [apply rt_area, A2|]. intros x2 _. cbv zeta.
    eapply rt_bind; [apply rt_path; assumption|]. intros (((p & q) & u) & v) (H1 & H2 & H3 & H4).
    eapply rt_bind; [apply rt_fix; assumption|]. intros (x & y) (K1 & K2). cbn [fst snd okn] in *. destruct x as [x|].
    - assert (G : forall un ot, A un -> A ot -> rt
        (bind (upd_ring un (fun z => z <| r_node := Some x |>)) (fun _ => bind (update_points fuel un) (fun _ => bind (recalculate_stats fuel un) (fun _ =>
         bind (ring_size fuel un) (fun size => bind (if (size <? 3)%nat then remove_ring_and_points fuel fuel un false true else ret tt) (fun _ => remove_ring fuel fuel ot false true)))))) (fun _ => True)).
      { intros un ot Au Ao. eapply rt_bind; [apply rt_first; assumption|]. intros _ _. eapply rt_bind; [apply rt_update_points, Au|]. intros _ _.
        eapply rt_bind; [apply rt_recalc, Au|]. intros _ _. eapply rt_bind; [apply rt_size, Au|]. intros size _.
        eapply rt_bind with (P := fun _ => True); [destruct (_ <? _)%nat; [apply rt_remove_points, Au|apply rt_ret; trivial]|]. intros _ _. apply rt_remove_ring, Ao. }
      destruct (num_gtb _ _); apply G; assumption.
    - eapply rt_bind; [apply rt_remove_ring, A1|]. intros _ _. apply rt_remove_ring, A2.
  Qed.
  Lemma rt_process fuel i j : Y i -> Y j -> rt (process_collinear_edges fuel i j) (fun _ => True).
  Proof.
    intros Hi Hj. unfold process_collinear_edges. eapply rt_bind; [apply rt_any_nd|]. intros a _. eapply rt_bind; [apply rt_any_nd|]. intros b _.
    destruct (_ || _); [apply rt_ret; trivial|]. eapply rt_bind; [apply rt_remove_duplicates; assumption|]. intros d _. destruct d; [apply rt_ret; trivial|].
    eapply rt_bind with (P := fun _ => True).
    { unfold has_collinear_edge. eapply rt_bind; [apply rt_any_nd|]. intros x _. eapply rt_bind; [apply rt_any_nd|]. intros y _.
      eapply rt_bind; [apply rt_node_eq_opts|]. intros e _. destruct e; [apply rt_ret; trivial|apply rt_node_eq_opts]. }
    intros c _. eapply rt_bind; [apply rt_any_nd|]. intros x _. eapply rt_bind; [apply rt_any_nd|]. intros y _. cbv zeta.
    destruct (negb c).
    - destruct (opt_is _ _); [|apply rt_ret; trivial]. eapply rt_bind; [apply rt_cut; assumption|]. intros o _. apply rt_ret. trivial.
    - eapply rt_bind with (P := fun _ => True); [|intros _ _; apply rt_ret; trivial].
      destruct (opt_is _ _); [apply rt_same_ring|apply rt_different_rings]; assumption.
  Qed.
End Region.
