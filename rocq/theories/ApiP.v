(** * Histories of a [Wagyu] object: C01, C02, C13, C14 *)
From Coq Require Import ZArith List Bool Lia FMapPositive.
From Coq Require Import Floats.SpecFloat.
From RecordUpdate Require Import RecordSet.
From Verif Require Import Py Monad Utils Geometry LinearRingM BoundM LocalMinimumM
     StateM PointNodeM RingM SweepM TopologyM WagyuM HoareP SweepFrameP.
Import ListNotations RecordSetNotations.
Open Scope Z_scope.

(** [history rv w c]: [w] is an object that some sequence of completed calls
    produces from [Wagyu(reverse_output=rv)]; [c] tells whether any
    [add_linear_ring]/[add_polygon] since the creation or the last [clear]
    returned True. *)
Inductive history (rv : bool) : wagyu -> bool -> Prop :=
| h_new : history rv (new_wagyu rv) false
| h_ring : forall w c pts kind b w',
    history rv w c -> w_add_linear_ring w pts kind = Ok (b, w') -> history rv w' (c || b)
| h_polygon : forall w c p kind b w',
    history rv w c -> add_polygon w p kind = Ok (b, w') -> history rv w' (c || b)
| h_clear : forall w c, history rv w c -> history rv (clear w) false
| h_execute : forall w c fuel op sfk cfk r w',
    history rv w c -> execute fuel w op sfk cfk = Ok (r, w') -> history rv w' c.

(** the results of adding the rings of a polygon one after the other *)
Fixpoint add_rings (w : wagyu) (p : polygon) (kind : polygon_kind) : res (list bool * wagyu) :=
  match p with
  | [] => Ok ([], w)
  | lr :: p' =>
      match w_add_linear_ring w lr kind with
      | Ok (b, w') => match add_rings w' p' kind with
                      | Ok (bs, w'') => Ok (b :: bs, w'')
                      | Raise e => Raise e
                      | NoFuel => NoFuel
                      end
      | Raise e => Raise e
      | NoFuel => NoFuel
      end
  end.

Lemma loopR_inv {X T} (P : X -> Prop) (Q : T -> Prop) fuel body :
  (forall x x', P x -> body x = Ok (inl x') -> P x') ->
  (forall x v, P x -> body x = Ok (inr v) -> Q v) ->
  forall x v, P x -> loopR fuel body x = Ok v -> Q v.
Proof.
  intros Hs Hf. induction fuel as [|fuel IH]; intros x v Px E; cbn [loopR] in E; [discriminate|].
  destruct (body x) as [[x'|u]| |] eqn:Eb; try discriminate.
  - eapply IH; [|exact E]. eapply Hs; eassumption.
  - injection E as <-. eapply Hf; eassumption.
Qed.


(** every iteration appends one minimum *)
Lemma add_minima_body_inl kind edges first last L x' :
  add_minima_body kind (edges, first, last, L) = Ok (inl x') ->
  exists rest f' l' L' lm, x' = (rest, f', Some l', L') /\
    lml_values L' = lml_values L ++ [lm] /\
    (forall v, first = Some v -> last <> None -> f' = Some v) /\ (last = None -> f' <> None).
Proof.
  unfold add_minima_body. destruct edges as [|e edges]; [discriminate|].
  unfold rbind. destruct (one_minimum (e :: edges)) as [[m rest]| |]; try discriminate.
  intros E. injection E as <-. do 5 eexists. split; [reflexivity|]. split; [reflexivity|].
  destruct last; split; try congruence; intros; congruence.
Qed.

Lemma add_linear_ring_values L pts kind b L' :
  add_linear_ring L pts kind = Ok (b, L') ->
  (b = false /\ L' = L /\ linear_ring_edges pts = Ok []) \/
  (b = true /\ (exists e es, linear_ring_edges pts = Ok (e :: es)) /\
   exists new, new <> [] /\ lml_values L' = lml_values L ++ new).
Proof.
  unfold add_linear_ring, rbind. destruct (linear_ring_edges pts) as [[|e es]| |] eqn:El; try discriminate.
  { intros E. injection E as <- <-. left. auto. }
  destruct (loopR _ _ _) as [[[f l] L1]| |] eqn:Ew; try discriminate.
  intros E. right.
  assert (P : exists new, lml_values L1 = lml_values L ++ new /\ (new = [] -> l = None)).
  { refine (loopR_inv
      (fun x => let '(es, f, l, L1) := x in
                exists new, lml_values L1 = lml_values L ++ new /\ (new = [] -> l = None))
      (fun v => let '(f, l, L1) := v in
                exists new, lml_values L1 = lml_values L ++ new /\ (new = [] -> l = None))
      _ _ _ _ _ (f, l, L1) _ Ew).
    - intros [[[es1 f1] l1] L2] x' (new & Hn & Hl) Eb.
      apply add_minima_body_inl in Eb. destruct Eb as (rest & f' & l' & L3 & lm & -> & Hv & _).
      exists (new ++ [lm]). rewrite Hv, Hn, app_assoc. split; [reflexivity|].
      intros C. apply app_eq_nil in C. destruct C; discriminate.
    - intros [[[es1 f1] l1] L2] [[f2 l2] L3] (new & Hn & Hl) Eb.
      unfold add_minima_body in Eb. destruct es1.
      + injection Eb as <- <- <-. eauto.
      + unfold rbind in Eb. destruct (one_minimum _) as [[? ?]| |]; discriminate.
    - exists []. rewrite app_nil_r. auto. }
  destruct P as (new & Hv & Hl).
  destruct f as [f|]; [|discriminate]. destruct l as [l|]; [|discriminate].
  injection E as <- <-. split; [reflexivity|]. split; [eauto|]. exists new. split; [|exact Hv].
  intros C. specialize (Hl C). discriminate.
Qed.

Lemma w_add_values w pts kind b w' :
  w_add_linear_ring w pts kind = Ok (b, w') ->
  (b = false /\ w' = w) \/
  (b = true /\ w_reverse w' = w_reverse w /\
   exists new, new <> [] /\ lml_values (w_minimums w') = lml_values (w_minimums w) ++ new).
Proof.
  unfold w_add_linear_ring, rbind. destruct (add_linear_ring _ _ _) as [[b1 L1]| |] eqn:E; try discriminate.
  intros H. injection H as <- <-. apply add_linear_ring_values in E.
  destruct E as [(-> & -> & _)|(-> & _ & new & Hn & Hv)]; [left|right].
  - destruct w. auto.
  - cbn. eauto.
Qed.

Lemma add_polygon_go_rings p kind : forall r w,
  add_polygon_go r w p kind =
  match add_rings w p kind with
  | Ok (bs, w') => Ok (r || existsb (fun b => b) bs, w')
  | Raise e => Raise e
  | NoFuel => NoFuel
  end.
Proof.
  induction p as [|lr p IH]; intros r w; cbn [add_polygon_go add_rings].
  { cbn. rewrite orb_false_r. reflexivity. }
  unfold rbind. destruct (w_add_linear_ring w lr kind) as [[b w']| |]; [|reflexivity|reflexivity].
  rewrite IH. destruct (add_rings w' p kind) as [[bs w'']| |]; [|reflexivity|reflexivity].
  cbn [existsb]. destruct b, r; reflexivity.
Qed.
Lemma add_polygon_rings w p kind :
  add_polygon w p kind =
  match add_rings w p kind with
  | Ok (bs, w') => Ok (existsb (fun b => b) bs, w')
  | Raise e => Raise e
  | NoFuel => NoFuel
  end.
Proof. apply add_polygon_go_rings. Qed.

Lemma add_rings_values p kind : forall w bs w',
  add_rings w p kind = Ok (bs, w') ->
  w_reverse w' = w_reverse w /\
  (existsb (fun b => b) bs = false -> w' = w) /\
  exists new, lml_values (w_minimums w') = lml_values (w_minimums w) ++ new /\
              (existsb (fun b => b) bs = true -> new <> []).
Proof.
  induction p as [|lr p IH]; intros w bs w'; cbn [add_rings].
  { intros E. injection E as <- <-. split; [reflexivity|]. split; [reflexivity|].
    exists []. rewrite app_nil_r. split; [reflexivity|discriminate]. }
  destruct (w_add_linear_ring w lr kind) as [[b w1]| |] eqn:E1; try discriminate.
  destruct (add_rings w1 p kind) as [[bs1 w2]| |] eqn:E2; try discriminate.
  intros E. injection E as <- <-. apply IH in E2. destruct E2 as (R & F & new & Hv & Hn).
  apply w_add_values in E1. destruct E1 as [(-> & ->)|(-> & Rv & new1 & Hn1 & Hv1)].
  - cbn. eauto.
  - split; [congruence|]. split; [discriminate|]. exists (new1 ++ new).
    rewrite Hv, Hv1, app_assoc. split; [reflexivity|]. intros _ C. apply app_eq_nil in C. tauto.
Qed.

(** [execute] keeps the minima and the static part of the bounds *)
Lemma execute_frame fuel w op sfk cfk r w' :
  execute fuel w op sfk cfk = Ok (r, w') ->
  w_reverse w' = w_reverse w /\
  lml_values (w_minimums w') = lml_values (w_minimums w) /\
  lml_next (w_minimums w') = lml_next (w_minimums w) /\
  forall i, static_of (bget (lml_bounds (w_minimums w')) i)
            = static_of (bget (lml_bounds (w_minimums w)) i).
Proof.
  unfold execute. destruct (lml_values (w_minimums w)) as [|m ms] eqn:Ev.
  { intros E. injection E as <- <-. rewrite Ev. auto. }
  unfold rbind. destruct (run _ _ _ _ _ _ _) as [[r1 s1]| |] eqn:Er; try discriminate.
  intros E. injection E as <- <-. cbn [w_minimums w_reverse lml_values lml_bounds lml_next].
  rewrite <- Ev. repeat split; try reflexivity.
  intros i. exact (st_run _ _ _ _ _ _ _ _ _ Er i).
Qed.

Lemma history_spec rv w c : history rv w c ->
  w_reverse w = rv /\ (c = false <-> lml_values (w_minimums w) = []).
Proof.
  induction 1 as [| w c pts kind b w' H IH E | w c p kind b w' H IH E | w c H IH
                  | w c fuel op sfk cfk r w' H IH E].
  - split; [reflexivity|]. cbn. tauto.
  - destruct IH as (R & I). apply w_add_values in E.
    destruct E as [(-> & ->)|(-> & Rv & new & Hn & Hv)].
    + rewrite orb_false_r. auto.
    + split; [congruence|]. rewrite orb_true_r, Hv. split; [discriminate|].
      intros C. apply app_eq_nil in C. tauto.
  - destruct IH as (R & I). rewrite add_polygon_rings in E.
    destruct (add_rings w p kind) as [[bs w1]| |] eqn:Ea; try discriminate.
    injection E as <- <-. apply add_rings_values in Ea. destruct Ea as (Rv & F & new & Hv & Hn).
    split; [congruence|]. destruct (existsb _ bs).
    + rewrite orb_true_r, Hv. split; [discriminate|]. intros C. apply app_eq_nil in C.
      destruct C as (_ & C). exfalso. exact (Hn eq_refl C).
    + rewrite F, orb_false_r by reflexivity. exact I.
  - split; [apply IH|]. cbn. tauto.
  - apply execute_frame in E. destruct E as (R & V & _). destruct IH as (R0 & I).
    rewrite R, V. auto.
Qed.

Lemma execute_nothing rv w : history rv w false ->
  forall fuel op sfk cfk, execute fuel w op sfk cfk = Ok ([], w).
Proof.
  intros H fuel op sfk cfk. apply history_spec in H. destruct H as (_ & I).
  unfold execute. rewrite (proj1 I eq_refl). reflexivity.
Qed.
Lemma execute_something rv w : history rv w true ->
  forall fuel op sfk cfk,
  execute fuel w op sfk cfk =
  match run fuel op sfk cfk rv (lml_values (w_minimums w))
            (init_st (lml_bounds (w_minimums w))) with
  | Ok (r, s) => Ok (r, Wagyu (LML (lml_values (w_minimums w)) (s_bounds s)
                                   (lml_next (w_minimums w))) rv)
  | Raise e => Raise e
  | NoFuel => NoFuel
  end.
Proof.
  intros H fuel op sfk cfk. apply history_spec in H. destruct H as (R & I).
  unfold execute. rewrite R. destruct (lml_values (w_minimums w)) as [|m ms] eqn:Ev.
  - destruct I as (_ & I). specialize (I eq_refl). discriminate.
  - unfold rbind. destruct (run _ _ _ _ _ _ _) as [[r s]| |]; reflexivity.
Qed.
Lemma add_polygon_false w p kind w' : add_polygon w p kind = Ok (false, w') -> w' = w.
Proof.
  rewrite add_polygon_rings. destruct (add_rings w p kind) as [[bs w1]| |] eqn:E; try discriminate.
  intros H. injection H as H <-. apply add_rings_values in E. apply E. exact H.
Qed.
Lemma execute_keeps_input fuel w op sfk cfk r w' :
  execute fuel w op sfk cfk = Ok (r, w') ->
  w_reverse w' = w_reverse w /\
  lml_values (w_minimums w') = lml_values (w_minimums w) /\
  forall i,
  let old := bget (lml_bounds (w_minimums w)) i in
  let new := bget (lml_bounds (w_minimums w')) i in
  b_edges new = b_edges old /\ b_wd new = b_wd old /\
  b_kind new = b_kind old /\ b_max new = b_max old.
Proof.
  intros E. apply execute_frame in E. destruct E as (R & V & _ & S). split; [exact R|].
  split; [exact V|]. intros i. specialize (S i). unfold static_of in S. cbv zeta.
  injection S as ? ? ? ?. auto.
Qed.
