(** * What [reverse_output] changes *)
From Coq Require Import ZArith List Bool Lia FMapPositive Permutation.
From Coq Require Import Floats.SpecFloat.
From RecordUpdate Require Import RecordSet.
From Verif Require Import Py Monad Utils Geometry LinearRingM BoundM LocalMinimumM
     StateM PointNodeM RingM SweepM TopologyM WagyuM HoareP SpecRing SpecHeap SpecRings SpecTree SpecHistory SweepFrameP VatP OutputP TreeP
     CircleP SplitP NodeFrameP RingedP RingedTopP RingedTreeP LiveP.
Import ListNotations RecordSetNotations.
Open Scope Z_scope.

(** the same outcome with another value *)
Definition outcome {A B S} (f : A -> B) (x : res (A * S)) : res (B * S) :=
  match x with Ok (a, s) => Ok (f a, s) | Raise e => Raise e | NoFuel => NoFuel end.
Definition all_closed (s : st) : Prop := forall r n, first_of s r = Some n -> exists l, circle s (n :: l).

Lemma collect_short dir s start fuel : forall rest c acc,
  dpath dir s c rest start -> ~ In start rest -> (fuel <= length rest)%nat ->
  loopM fuel (collect_body dir start) (Some c, acc) s = NoFuel.
Proof.
  induction fuel as [|fuel IH]; intros rest c acc H N L; [reflexivity|]. cbn [loopM]. unfold bind at 1.
  replace (collect_body dir start (Some c, acc) s) with
    (Ok (if opt_is (dir (node_at s c)) (Some start) then inr (rev (c :: acc)) else inl (dir (node_at s c), c :: acc), s)) by reflexivity.
  destruct rest as [|d rest]; [cbn in L; lia|]. destruct H as (E & H). rewrite E. cbn [opt_is].
  destruct (Pos.eqb_spec d start) as [->|Nd]; [destruct N; left; reflexivity|]. apply (IH rest); auto.
  - intros J. apply N. right. exact J.
  - cbn in L. lia.
Qed.
Lemma lists_flip s a l fuel : circle s (a :: l) ->
  nodes_list fuel a s = Ok (a :: l, s) /\ nodes_list_rev fuel a s = Ok (a :: rev l, s) \/
  nodes_list fuel a s = NoFuel /\ nodes_list_rev fuel a s = NoFuel.
Proof.
  intros C. destruct (le_lt_dec (length (a :: l)) fuel) as [L|L].
  - left. split; [apply nodes_list_circle|apply nodes_list_rev_circle]; assumption.
  - right. pose proof C as (N & CH). inversion N as [|? ? Na _]; subst. cbn in L. split.
    + change (nodes_list fuel a) with (loopM fuel (collect_body n_next a) (Some a, [])). apply (collect_short _ _ _ _ l); auto; [apply dpath_next; exact CH|lia].
    + change (nodes_list_rev fuel a) with (loopM fuel (collect_body n_prev a) (Some a, [])). apply (collect_short _ _ _ _ (rev l)).
      * apply dpath_prev. exact CH.
      * rewrite <- in_rev. exact Na.
      * rewrite rev_length. lia.
Qed.
Definition still {A} (m : prog A) (s : st) : Prop := forall a t, m s = Ok (a, t) -> t = s.
Lemma bind_outcome {A A' B B'} (m : prog A) (m' : prog A') (k : A -> prog B) (k' : A' -> prog B') (h : A -> A') (g : B -> B') s :
  m' s = outcome h (m s) -> still m s -> (forall a, k' (h a) s = outcome g (k a s)) -> bind m' k' s = outcome g (bind m k s).
Proof.
  intros H1 H2 H3. unfold bind. rewrite H1. destruct (m s) as [[a t]|e|] eqn:E; cbn [outcome]; try reflexivity.
  rewrite (H2 _ _ E). apply H3.
Qed.
Lemma bind_still {A B} (m : prog A) (k : A -> prog B) s : still m s -> (forall a, still (k a) s) -> still (bind m k) s.
Proof. intros H1 H2 b t E. unfold bind in E. destruct (m s) as [[a u]|e|] eqn:E1; try discriminate. rewrite (H1 _ _ E1) in E. exact (H2 _ _ _ E). Qed.
Lemma still_ret {A} (a : A) s : still (ret a) s. Proof. intros b t E. injection E. auto. Qed.
Lemma still_rg r s : still (rg r) s. Proof. intros b t E. injection E. auto. Qed.
Lemma ring_output_flip fuel s r : all_closed s ->
  ring_output fuel true r s = outcome (@rev point) (ring_output fuel false r s).
Proof.
  intros AC. unfold ring_output. rewrite !(bind_run _ _ _ _ _ (rg_run s r)). destruct (r_node (ring_at s r)) as [n|] eqn:F; [|reflexivity].
  destruct (AC r n F) as (l & C). unfold bind. destruct (lists_flip s n l fuel C) as [(-> & ->)|(-> & ->)]; [|reflexivity].
  cbn [outcome]. unfold points_of, node_point, gets, ret, bind, nd, gets. cbn [outcome]. f_equal. f_equal. cbn [map app rev].
  rewrite rev_app_distr. cbn [rev app]. rewrite map_rev, rev_involutive. reflexivity.
Qed.
Lemma ring_output_still fuel rv r s : still (ring_output fuel rv r) s.
Proof. intros x s' E. apply (ring_output_spec fuel rv r s x s' E). Qed.
Lemma mapM_flip {A B C} (f : A -> prog B) (g : A -> prog C) (h : B -> C) s :
  (forall a, g a s = outcome h (f a s)) -> (forall a, still (f a) s) ->
  forall l, mapM g l s = outcome (map h) (mapM f l s) /\ still (mapM f l) s.
Proof.
  intros H K. induction l as [|a l (IH1 & IH2)]; [split; [reflexivity|apply still_ret]|]. cbn [mapM]. split.
  - apply bind_outcome with (h := h); auto. intros b. apply bind_outcome with (h := map h); auto.
  - apply bind_still; [auto|]. intros b. apply bind_still; [auto|]. intros r. apply still_ret.
Qed.
Lemma rings_flip fuel s : all_closed s -> forall d l,
  rings_to_polygons fuel d true l s = outcome (map (map (@rev point))) (rings_to_polygons fuel d false l s) /\
  still (rings_to_polygons fuel d false l) s.
Proof.
  intros AC. induction d as [|d IH]; intros l; cbn [rings_to_polygons]; [split; [reflexivity|discriminate]|].
  set (kids := fun rv c => bind (rg c) (fun y => rings_to_polygons fuel d rv (r_children y))).
  assert (K : forall l, mapM (kids true) l s = outcome (map (map (map (@rev point)))) (mapM (kids false) l s) /\ still (mapM (kids false) l) s).
  { apply mapM_flip; intros c; unfold kids.
    - apply bind_outcome with (h := fun x => x); [reflexivity|apply still_rg|]. intros y. apply IH.
    - apply bind_still; [apply still_rg|]. intros y. apply IH. }
  pose proof (mapM_flip (ring_output fuel false) (ring_output fuel true) (@rev point) s (fun a => ring_output_flip fuel s a AC)
      (fun a => ring_output_still fuel false a s)) as R.
  match goal with |- bind (mapM ?g _) _ _ = outcome _ (bind (mapM ?f _) _ _) /\ _ =>
    destruct (mapM_flip f g (map (map (@rev point))) s) with (l := somes l) as (H1 & H2) end.
  - intros r. apply bind_outcome with (h := fun x => x); [reflexivity|apply still_rg|]. intros x.
    apply bind_outcome with (h := @rev point); [apply ring_output_flip; exact AC|apply ring_output_still|]. intros o.
    apply bind_outcome with (h := map (@rev point)); [apply R|apply R|]. intros hs.
    apply bind_outcome with (h := map (map (map (@rev point)))); [apply K|apply K|]. intros subs.
    unfold ret. cbn [outcome]. f_equal. f_equal. cbn [map]. f_equal. rewrite concat_map. reflexivity.
  - intros r. apply bind_still; [apply still_rg|]. intros x. apply bind_still; [apply ring_output_still|]. intros o.
    apply bind_still; [apply R|]. intros hs. apply bind_still; [apply K|]. intros subs. apply still_ret.
  - split.
    + apply bind_outcome with (h := map (map (map (@rev point)))); [exact H1|exact H2|]. intros pss. unfold ret. cbn [outcome]. f_equal. f_equal. symmetry. apply concat_map.
    + apply bind_still; [exact H2|]. intros pss. apply still_ret.
Qed.
Lemma build_result_flip fuel s : all_closed s ->
  build_result fuel true s = outcome (map (map (@rev point))) (build_result fuel false s).
Proof. intros AC. unfold build_result, bind, gets. apply (rings_flip fuel s AC). Qed.

(** ** The stages of a run *)
(** the heap after the sweep, and after the ring tree is built *)
Definition swept_out (fuel : nat) (op : operation_kind) (sfk cfk : fill_kind) (ms : list local_minimum) : prog unit :=
  (build_hot_pixels fuel ms ;; execute_vatti fuel op sfk cfk ms)%M.
Lemma well_swept fuel op a b ms bs u s : swept_out fuel op a b ms (init_st bs) = Ok (u, s) -> well_ringed s.
Proof.
  intros E. assert (T : tri well_ringed (swept_out fuel op a b ms) (fun _ => well_ringed)); [|exact (T _ _ _ (well_init bs) E)].
  unfold swept_out. eapply tri_bind; [apply kw_tri; apply kw_build_hot_pixels|]. intros ?. apply kw_tri. apply kw_execute_vatti.
Qed.
Definition to_result (fuel : nat) (op : operation_kind) (sfk cfk : fill_kind) (ms : list local_minimum) : prog unit :=
  (swept_out fuel op sfk cfk ms ;; correct_topology fuel)%M.
Lemma run_to_result fuel op a b rv ms s : run fuel op a b rv ms s = bind (to_result fuel op a b ms) (fun _ => build_result fuel rv) s.
Proof.
  unfold run, to_result, swept_out, bind. destruct (build_hot_pixels fuel ms s) as [[u t]|e|]; try reflexivity.
  destruct (execute_vatti fuel op a b ms t) as [[u' t']|e|]; reflexivity.
Qed.
Lemma closed_result fuel op a b ms bs u s : to_result fuel op a b ms (init_st bs) = Ok (u, s) -> all_closed s.
Proof.
  intros E. unfold to_result, bind in E. destruct (swept_out fuel op a b ms (init_st bs)) as [[u' t]|e|] eqn:E1; try discriminate.
  destruct (topology_circles fuel t u s (well_swept _ _ _ _ _ _ _ _ E1) E) as (H & _). intros r n F. destruct (H r n F) as (l & C & _). eauto.
Qed.
Lemma run_flip fuel op a b ms bs : run fuel op a b true ms (init_st bs) = outcome (map (map (@rev point))) (run fuel op a b false ms (init_st bs)).
Proof.
  rewrite !run_to_result. unfold bind. destruct (to_result fuel op a b ms (init_st bs)) as [[u t]|e|] eqn:E; try reflexivity.
  apply build_result_flip. apply (closed_result _ _ _ _ _ _ _ _ E).
Qed.
Definition with_flag (rv : bool) (w : wagyu) : wagyu := Wagyu (w_minimums w) rv.
Lemma execute_flip fuel L op a b :
  execute fuel (Wagyu L true) op a b =
  match execute fuel (Wagyu L false) op a b with
  | Ok (mp, w) => Ok (map (map (@rev point)) mp, with_flag true w)
  | Raise e => Raise e
  | NoFuel => NoFuel
  end.
Proof.
  unfold execute. cbn [w_minimums w_reverse]. destruct (lml_values L) as [|m ms] eqn:EL; [reflexivity|]. unfold rbind. rewrite run_flip.
  destruct (run fuel op a b false (m :: ms) (init_st (lml_bounds L))) as [[mp s]|e|]; reflexivity.
Qed.
Lemma execute_flag fuel w op a b rv r w' : execute fuel w op a b = Ok (r, w') ->
  exists r', execute fuel (with_flag rv w) op a b = Ok (r', with_flag rv w').
Proof.
  destruct w as [L q]. unfold with_flag. cbn [w_minimums]. intros E. pose proof (execute_flip fuel L op a b) as X.
  destruct q, rv.
  - exists r. rewrite E. f_equal. f_equal. destruct w' as [L' q']. cbn. unfold execute in E. cbn in E. destruct (lml_values L); [congruence|].
    unfold rbind in E. destruct (run _ _ _ _ _ _ _) as [[? ?]| |]; try discriminate. injection E as _ <- <-. reflexivity.
  - rewrite E in X. destruct (execute fuel (Wagyu L false) op a b) as [[mp w]|e|] eqn:Y; try discriminate. injection X as -> ->. exists mp. f_equal. f_equal.
    destruct w as [L' q']. cbn. unfold execute in Y. cbn in Y. destruct (lml_values L); [congruence|].
    unfold rbind in Y. destruct (run _ _ _ _ _ _ _) as [[? ?]| |]; try discriminate. injection Y as _ <- <-. reflexivity.
  - rewrite E in X. exists (map (map (@rev point)) r). exact X.
  - exists r. rewrite E. f_equal. f_equal. destruct w' as [L' q']. cbn. unfold execute in E. cbn in E. destruct (lml_values L); [congruence|].
    unfold rbind in E. destruct (run _ _ _ _ _ _ _) as [[? ?]| |]; try discriminate. injection E as _ <- <-. reflexivity.
Qed.
Lemma add_flag w pts k rv b w' : w_add_linear_ring w pts k = Ok (b, w') -> w_add_linear_ring (with_flag rv w) pts k = Ok (b, with_flag rv w').
Proof.
  unfold w_add_linear_ring, with_flag, rbind. cbn [w_minimums w_reverse]. destruct (add_linear_ring (w_minimums w) pts k) as [[x L]|e|]; try discriminate.
  intros E. injection E as <- <-. reflexivity.
Qed.
Lemma polygon_flag rv k p : forall res w b w', add_polygon_go res w p k = Ok (b, w') -> add_polygon_go res (with_flag rv w) p k = Ok (b, with_flag rv w').
Proof.
  induction p as [|lr p IH]; intros res w b w' E; cbn [add_polygon_go] in *; [injection E as <- <-; reflexivity|].
  unfold rbind in *. destruct (w_add_linear_ring w lr k) as [[x w1]|e|] eqn:E1; try discriminate. rewrite (add_flag _ _ _ rv _ _ E1). apply IH. exact E.
Qed.
Lemma built_flag rv rv' w rs : built rv w rs -> built rv' (with_flag rv' w) rs.
Proof.
  intros B. induction B as [|w rs pts k b w' B IH E|w rs p k b w' B IH E|w rs B IH|w rs fuel op a b r w' B IH E].
  - apply built_new.
  - eapply built_ring; [exact IH|]. apply add_flag. exact E.
  - eapply built_polygon; [exact IH|]. apply polygon_flag. exact E.
  - apply (built_clear rv' _ _ IH).
  - destruct (execute_flag fuel w op a b rv' r w' E) as (r' & E'). eapply built_execute; eauto.
Qed.
