(** * The walks around a ring of vertices stop *)
From Coq Require Import ZArith List Bool Lia FMapPositive.
From Coq Require Import Floats.SpecFloat.
From RecordUpdate Require Import RecordSet.
From Verif Require Import Py Monad Utils Spec Geometry LinearRingM BoundM LocalMinimumM
     StateM PointNodeM RingM SweepM SpecHeap SpecRings HoareP FuelP CircleP CalmP IntersectP VatP MiscP HaltP.
Import ListNotations RecordSetNotations.
Open Scope Z_scope.
Local Open Scope m_scope.

(** ** Programs that grow with their fuel *)
Lemma mono_loop {S X R} (b : nat -> X -> M S (X + R)) x : (forall x, mono (fun f => b f x)) -> mono (fun f => loopM f (b f) x).
Proof. intros H f f' L. apply lem_loop; [exact L|]. intros y. apply (H y), L. Qed.
Create HintDb mono.
Ltac mo_step :=
  match goal with
  | |- mono (fun _ => ?m) => apply mono_const
  | |- mono (fun f => bind _ _) => apply mono_bind; [|intros ?]
  | |- mono (fun f => loopM f _ _) => apply mono_loop; intros ?
  | |- _ => solve [auto 2 with mono nocore]
  | |- mono (fun f => match ?x with _ => _ end) => destruct x
  end.
Ltac mo := cbv beta zeta; repeat (mo_step; cbv beta zeta).
Ltac mof L := let f := fresh in let f' := fresh in let H := fresh in intros f f' H; apply L; exact H.
Lemma mo_stats i : mono (fun f => node_stats f i). Proof. mof fuel_node_stats. Qed.
Lemma mo_skip d i : mono (fun f => skip_equal f d i). Proof. mof fuel_skip_equal. Qed.
Lemma mo_bottom_to i j : mono (fun f => is_bottom_to f i j). Proof. mof fuel_is_bottom_to. Qed.
Lemma mo_scan i : mono (fun f => bottom_scan f i). Proof. mof fuel_bottom_scan. Qed.
Lemma mo_skip_to i j : mono (fun f => skip_to_equal f i j). Proof. mof fuel_skip_to_equal. Qed.
Lemma mo_bottom i : mono (fun f => bottom_node f i). Proof. mof fuel_bottom_node. Qed.
#[export] Hint Resolve mo_stats mo_skip mo_bottom_to mo_scan mo_skip_to mo_bottom : mono.

(** ** Programs that stop and whose answers are as described *)
Definition tot {A} (P : st -> Prop) (m : nat -> prog A) (Q : A -> st -> Prop) : Prop :=
  forall s, P s -> halt m s /\ forall f a s', m f s = Ok (a, s') -> Q a s'.
Lemma tot_fin {A} (P : st -> Prop) (m : prog A) Q : fin m -> tri P m Q -> tot P (fun _ => m) Q.
Proof. intros F T s Ps. split; [apply halt_fin, F|]. intros _ a s' E. eapply T; eassumption. Qed.
Lemma tot_bind {A B} (P : st -> Prop) (m : nat -> prog A) (k : nat -> A -> prog B) (Q : A -> st -> Prop) R :
  mono m -> (forall a, mono (fun f => k f a)) -> tot P m Q -> (forall a, tot (Q a) (fun f => k f a) R) -> tot P (fun f => bind (m f) (k f)) R.
Proof.
  intros Mm Mk Hm Hk s Ps. destruct (Hm s Ps) as (Hh & Hr). split.
  - apply (halt_bind m k); [exact Mm|exact Mk|exact Hh|]. intros f a s' E. apply (Hk a s' (Hr _ _ _ E)).
  - intros f b s' E. apply bind_Ok in E. destruct E as (a & s1 & E1 & E). apply (Hk a s1 (Hr _ _ _ E1)) in E. exact E.
Qed.
Lemma tot_weak {A} (P P' : st -> Prop) (m : nat -> prog A) (Q Q' : A -> st -> Prop) : (forall s, P' s -> P s) -> (forall a s, Q a s -> Q' a s) ->
  tot P m Q -> tot P' m Q'.
Proof. intros HP HQ T s Ps. destruct (T s (HP s Ps)) as (H1 & H2). split; [exact H1|]. intros f a s' E. apply HQ. eapply H2, E. Qed.
Lemma tot_loop {X R} (b : nat -> X -> prog (X + R)) (P : nat -> X -> st -> Prop) (Q : R -> st -> Prop) :
  (forall x, mono (fun f => b f x)) ->
  (forall n x, tot (P n x) (fun f => b f x) (fun r s => match r with inl x' => exists n', (n' < n)%nat /\ P n' x' s | inr r => Q r s end)) ->
  forall n x, tot (P n x) (fun f => loopM f (b f) x) Q.
Proof.
  intros Mb Hb n. induction n as [n IH] using lt_wf_ind. intros x s Ps. destruct (Hb n x s Ps) as ((f & N) & Hr). split.
  - destruct (b f x s) as [[[x'|r] s']|e|] eqn:E; [| | |congruence].
    + destruct (Hr _ _ _ E) as (n' & L & P'). destruct (IH n' L x' s' P') as ((g & Ng) & _).
      exists (Datatypes.S (Nat.max f g)). cbn [loopM]. unfold bind at 1.
      assert (Eq : b (Datatypes.S (Nat.max f g)) x s = Ok (inl x', s')).
      { rewrite (mono_up (fun f => b f x) s f (Datatypes.S (Nat.max f g)) (Mb x)) by (try lia; congruence). exact E. }
      rewrite Eq.
      destruct (lem_loop g (Nat.max f g) (b g) (b (Datatypes.S (Nat.max f g))) x' ltac:(lia) ltac:(intros z; apply (Mb z); lia) s') as [C|C]; congruence.
    + exists (Datatypes.S f). cbn [loopM]. unfold bind at 1.
      rewrite (mono_up (fun f => b f x) s f (Datatypes.S f) (Mb x)) by (try lia; congruence). rewrite E. discriminate.
    + exists (Datatypes.S f). cbn [loopM]. unfold bind at 1.
      rewrite (mono_up (fun f => b f x) s f (Datatypes.S f) (Mb x)) by (try lia; congruence). rewrite E. discriminate.
  - clear N f. intros f. revert Hr.
    assert (K : forall g n x s r s', P n x s -> loopM g (b f) x s = Ok (r, s') -> Q r s').
    { clear - Hb. induction g as [|g IHg]; intros n x s r s' Ps E; [discriminate|]. cbn [loopM] in E. apply bind_Ok in E. destruct E as (y & s1 & E1 & E).
      apply (Hb n x s Ps) in E1. destruct y as [x'|r'].
      - destruct E1 as (n' & _ & P'). eapply IHg; eassumption.
      - apply ret_Ok in E. destruct E as (-> & ->). exact E1. }
    intros _ r s' E. eapply K; eassumption.
Qed.

(** ** Reading only *)
Definition at_ (s0 : st) (X : Prop) : st -> Prop := fun s => s = s0 /\ X.
Section Read.
Context (s0 : st).
Notation ro m Q := (tot (fun s => s = s0) m (fun a s => s = s0 /\ Q a)).
Lemma ro_bind {A B} (m : nat -> prog A) (k : nat -> A -> prog B) (Q : A -> Prop) (R : B -> Prop) :
  mono m -> (forall a, mono (fun f => k f a)) -> ro m Q -> (forall a, Q a -> ro (fun f => k f a) R) -> ro (fun f => bind (m f) (k f)) R.
Proof.
  intros Mm Mk Hm Hk. eapply tot_bind; [exact Mm|exact Mk|exact Hm|]. intros a s (-> & Qa). apply (Hk a Qa). reflexivity.
Qed.
Lemma ro_ret {A} (a : A) (Q : A -> Prop) : Q a -> ro (fun _ => ret a) Q.
Proof. intros H. apply tot_fin; [apply fin_ret|]. intros s b s' -> E. apply ret_Ok in E. destruct E as (-> & ->). auto. Qed.
Lemma ro_raise {A} e (Q : A -> Prop) : ro (fun _ => raise e) Q.
Proof. apply tot_fin; [apply fin_raise|]. intros s b s' _ E. discriminate. Qed.
Lemma ro_nd i : ro (fun _ => nd i) (fun n => n = node_at s0 i).
Proof. apply tot_fin; [apply fin_nd|]. intros s b s' -> E. injection E as <- <-. auto. Qed.
Lemma ro_deref {A} (o : option A) : ro (fun _ => deref o) (fun a => o = Some a).
Proof. apply tot_fin; [apply fin_deref|]. intros s b s' -> E. apply deref_Ok in E. destruct E as (-> & ->). auto. Qed.
Lemma ro_next i : ro (fun _ => next_of i) (fun j => n_next (node_at s0 i) = Some j).
Proof.
  apply tot_fin; [apply fin_next_of|]. intros s b s' -> E. unfold next_of in E. inv_bind E n s1 E1. injection E1 as <- <-.
  apply deref_Ok in E. destruct E as (E & ->). auto.
Qed.
Lemma ro_eq i j : ro (fun _ => node_eq i j) (fun b => b = point_eqb (npos (node_at s0 i)) (npos (node_at s0 j))).
Proof.
  apply tot_fin; [apply fin_node_eq|]. intros s b s' -> E. unfold node_eq in E. inv_bind E n s1 E1. injection E1 as <- <-.
  inv_bind E n s1 E1. injection E1 as <- <-. apply ret_Ok in E. destruct E as (-> & ->). auto.
Qed.
Lemma ro_fin {A} (m : prog A) : fin m -> pres unchanged m -> ro (fun _ => m) (fun _ => True).
Proof. intros F U. apply tot_fin; [exact F|]. intros s b s' -> E. apply U in E. unfold unchanged in E. auto. Qed.
Lemma ro_weak {A} (m : nat -> prog A) (Q Q' : A -> Prop) : (forall a, Q a -> Q' a) -> ro m Q -> ro m Q'.
Proof. intros H. apply tot_weak; [auto|]. intros a s (-> & Qa). auto. Qed.
Lemma ro_loop {X R} (b : nat -> X -> prog (X + R)) (P : nat -> X -> Prop) (Q : R -> Prop) :
  (forall x, mono (fun f => b f x)) ->
  (forall n x, P n x -> ro (fun f => b f x) (fun r => match r with inl x' => exists n', (n' < n)%nat /\ P n' x' | inr r => Q r end)) ->
  forall n x, P n x -> ro (fun f => loopM f (b f) x) Q.
Proof.
  intros Mb Hb n x Px. eapply tot_weak; [| |apply (tot_loop b (fun n x s => s = s0 /\ P n x) (fun r s => s = s0 /\ Q r) Mb) with (n := n)].
  - intros s ->. auto.
  - auto.
  - clear - Hb. intros n x s (-> & Px). destruct (Hb n x Px s0 eq_refl) as (H1 & H2). split; [exact H1|]. intros f a s' E. destruct (H2 f a s' E) as (-> & Qa).
    destruct a as [x'|r]; [|auto]. destruct Qa as (n' & L & P'). eauto.
Qed.


(** [j] is [n] steps of [dir] away from [t], among the vertices [L] *)
Definition toward (dir : node -> option nid) (L : list nid) (t : nid) (n : nat) (j : nid) : Prop :=
  In j L /\ In t L /\ match n with O => j = t | S m => exists l, dpath dir s0 j l t /\ length l = m /\ incl l L end.
Lemma toward_step dir L t n j j' : j <> t -> toward dir L t n j -> dir (node_at s0 j) = Some j' -> exists n', n = S n' /\ toward dir L t n' j'.
Proof.
  intros N (Ij & It & H) E. destruct n as [|n]; [contradiction|]. destruct H as (l & D & <- & I). exists (length l). split; [reflexivity|].
  destruct l as [|d l]; cbn [dpath] in D.
  - assert (j' = t) by congruence. subst j'. repeat split; assumption.
  - destruct D as (D1 & D2). assert (j' = d) by congruence. subst j'. split; [apply I; left; reflexivity|]. split; [exact It|].
    exists l. split; [exact D2|]. split; [reflexivity|]. intros x Hx. apply I. right. exact Hx.
Qed.
Lemma toward_round dir L t l j : dpath dir s0 t l t -> incl (t :: l) L -> dir (node_at s0 t) = Some j -> toward dir L t (length l) j.
Proof.
  intros D I E. assert (It : In t L) by (apply I; left; reflexivity). destruct l as [|d l]; cbn [dpath] in D.
  - assert (j = t) by congruence. subst j. repeat split; assumption.
  - destruct D as (D1 & D2). assert (j = d) by congruence. subst j. split; [apply I; right; left; reflexivity|]. split; [exact It|].
    exists l. split; [exact D2|]. split; [reflexivity|]. intros x Hx. apply I. right. right. exact Hx.
Qed.
Lemma ro_skip dir i rest : dpath dir s0 i rest i -> ro (fun f => skip_equal f dir i) (fun _ => True).
Proof.
  intros D. unfold skip_equal. eapply ro_bind; [mo|intros; mo|apply ro_nd|]. intros n ->. eapply ro_bind; [mo|intros; mo|apply ro_deref|]. intros j0 E0.
  eapply ro_loop with (P := toward dir (i :: rest) i); [intros; mo| |eapply toward_round; [exact D|apply incl_refl|exact E0]].
  clear. intros n j Pj. eapply ro_bind; [mo|intros; mo|apply ro_eq|]. intros b _. destruct (b && negb (Pos.eqb j i)) eqn:E.
  - apply andb_prop in E. destruct E as (_ & E). apply negb_true_iff, Pos.eqb_neq in E. eapply ro_bind; [mo|intros; mo|apply ro_nd|]. intros m ->.
    eapply ro_bind; [mo|intros; mo|apply ro_deref|]. intros j' Ej. apply ro_ret. destruct (toward_step _ _ _ _ _ _ E Pj Ej) as (n' & -> & H). eauto.
  - apply ro_ret. exact I.
Qed.
Lemma ro_stats i rest : dpath n_next s0 i rest i -> ro (fun f => node_stats f i) (fun _ => True).
Proof.
  intros D. unfold node_stats. eapply ro_bind; [mo|intros; mo|apply ro_nd|]. intros n ->. eapply ro_bind with (Q := fun _ => True); [| | |].
  - apply mono_loop. intros [c a]. mo.
  - intros [[a b] c]. mo.
  - eapply ro_loop with (P := fun n x => exists l, dpath n_next s0 (fst x) l i /\ length l = n); [|intros k [c a]|exists rest; split; [exact D|reflexivity]].
    + intros [c a]. mo.
    + intros (l & Dl & Ll). cbn [fst] in Dl. eapply ro_bind; [mo|intros; mo|apply ro_nd|]. intros n' ->. eapply ro_bind; [mo|intros; mo|apply ro_deref|]. intros p Ep.
      eapply ro_bind; [mo|intros; mo|apply ro_nd|]. intros n' ->. cbv zeta. destruct (opt_is (n_next (node_at s0 c)) (Some i)) eqn:Eo; [apply ro_ret; exact I|].
      eapply ro_bind; [mo|intros; mo|apply ro_deref|]. intros j Ej. apply ro_ret. destruct l as [|d l]; cbn [dpath] in Dl.
      * exfalso. rewrite Dl in Eo. cbn in Eo. rewrite Pos.eqb_refl in Eo. discriminate.
      * destruct Dl as (D1 & D2). assert (j = d) by congruence. subst j. exists (length l). cbn [length] in Ll. split; [lia|]. exists l. auto.
  - intros [[a b] c] _. eapply ro_bind; [mo|intros; mo|apply ro_fin; [fi|pres_auto]|]. intros; apply ro_ret; exact I.
Qed.
Lemma circle_paths l i : circle s0 l -> In i l -> exists m, dpath n_next s0 i m i /\ dpath n_prev s0 i (rev m) i /\ (forall x, In x (i :: m) <-> In x l) /\ length (i :: m) = length l.
Proof.
  intros C H. apply in_split in H. destruct H as (l1 & l2 & ->). apply circle_rotate in C. cbn [app] in C. exists (l2 ++ l1). destruct C as (_ & C).
  split; [apply dpath_next, C|]. split; [apply dpath_prev, C|]. split.
  - intros x. cbn. rewrite !in_app_iff. cbn. tauto.
  - cbn [length]. rewrite !app_length. cbn. lia.
Qed.
Definition on_circle (i : nid) : Prop := exists l, circle s0 l /\ In i l.
Lemma ro_bottom_to i j : on_circle i -> on_circle j -> ro (fun f => is_bottom_to f i j) (fun _ => True).
Proof.
  intros (l & C & H) (l' & C' & H'). destruct (circle_paths l i C H) as (m & Dn & Dp & _). destruct (circle_paths l' j C' H') as (m' & Dn' & Dp' & _).
  assert (PS : forall a b, ro (fun _ => points_slope a b) (fun _ => True)) by (intros; apply ro_fin; [fi|unfold points_slope, node_point, StateM.nd; pres_auto]).
  unfold is_bottom_to.
  eapply ro_bind; [mo|intros; mo|eapply ro_skip; exact Dp|]. intros p _. eapply ro_bind; [mo|intros; mo|apply PS|]. intros ? _.
  eapply ro_bind; [mo|intros; mo|eapply ro_skip; exact Dn|]. intros n _. eapply ro_bind; [mo|intros; mo|apply PS|]. intros ? _.
  eapply ro_bind; [mo|intros; mo|eapply ro_skip; exact Dp'|]. intros ? _. eapply ro_bind; [mo|intros; mo|apply PS|]. intros ? _.
  eapply ro_bind; [mo|intros; mo|eapply ro_skip; exact Dn'|]. intros ? _. eapply ro_bind; [mo|intros; mo|apply PS|]. intros ? _.
  cbv zeta. match goal with |- context [if ?b then _ else _] => destruct b end.
  - eapply ro_bind; [mo|intros; mo|eapply ro_stats; exact Dn|]. intros; apply ro_ret; exact I.
  - apply ro_ret. exact I.
Qed.

(** ** The lowest leftmost vertex *)
Definition lower (c n : node) : bool := (n_y c >? n_y n) || ((n_y c =? n_y n) && (n_x c <? n_x n)).
Lemma lower_trans a b c : lower a b = true -> lower b c = true -> lower a c = true.
Proof. unfold lower. rewrite !orb_true_iff, !andb_true_iff, !Z.gtb_lt, !Z.eqb_eq, !Z.ltb_lt. lia. Qed.
Lemma lower_irr a : lower a a = false.
Proof. unfold lower. rewrite Z.gtb_ltb, !Z.ltb_irrefl. destruct (_ =? _); reflexivity. Qed.
Definition lowers (L : list nid) (i : nid) : nat := length (filter (fun c => lower (node_at s0 c) (node_at s0 i)) L).
Lemma filter_le {A} (p q : A -> bool) l : (forall x, p x = true -> q x = true) -> (length (filter p l) <= length (filter q l))%nat.
Proof.
  intros H. induction l as [|x l IH]; [apply le_n|]. cbn. destruct (p x) eqn:E.
  - rewrite (H x E). cbn. lia.
  - destruct (q x); cbn; lia.
Qed.
Lemma filter_lt {A} (p q : A -> bool) l a : (forall x, p x = true -> q x = true) -> In a l -> p a = false -> q a = true ->
  (length (filter p l) < length (filter q l))%nat.
Proof.
  intros H I Pa Qa. apply in_split in I. destruct I as (l1 & l2 & ->). rewrite !filter_app, !app_length. cbn [filter]. rewrite Pa, Qa. cbn [length].
  pose proof (filter_le p q l1 H). pose proof (filter_le p q l2 H). lia.
Qed.
Lemma lowers_lt L c n : In c L -> lower (node_at s0 c) (node_at s0 n) = true -> (lowers L c < lowers L n)%nat.
Proof.
  intros I H. apply filter_lt with (a := c); [|exact I|apply lower_irr|exact H]. intros x Hx. eapply lower_trans; eassumption.
Qed.
Definition spot (i : nid) : point := npos (node_at s0 i).
Definition dups_ok (L : list nid) (node : nid) (d : option nid) : Prop := match d with Some d => In d L /\ spot d = spot node | None => True end.
Lemma next_round L c j : circle s0 L -> In c L -> n_next (node_at s0 c) = Some j -> exists n, (n < length L)%nat /\ toward n_next L c n j.
Proof.
  intros C H E. destruct (circle_paths L c C H) as (m & D & _ & Im & Lm). exists (length m). split; [cbn in Lm; lia|]. eapply toward_round; [exact D| |exact E].
  intros x Hx. apply Im, Hx.
Qed.
Lemma ro_scan L i : circle s0 L -> In i L -> ro (fun f => bottom_scan f i) (fun '(node, dups, cursor) => cursor = node /\ In node L /\ dups_ok L node dups).
Proof.
  intros C H. unfold bottom_scan. eapply ro_bind; [mo|intros; apply mono_loop; intros [[c n] d]; mo|apply ro_next|]. intros c0 E0.
  destruct (next_round L i c0 C H E0) as (n0 & L0 & T0).
  eapply ro_loop with (P := fun N '(c, n, d) => exists k, (k < length L)%nat /\ toward n_next L n k c /\ dups_ok L n d /\ N = (lowers L n * length L + k)%nat).
  - intros [[c n] d]. mo.
  - intros N [[c n] d] (k & Lk & T & Dd & ->). destruct (Pos.eqb_spec c n) as [->|Ncn].
    + apply ro_ret. split; [reflexivity|]. split; [apply T|exact Dd].
    + eapply ro_bind; [mo|intros; mo|apply ro_nd|]. intros cn ->. eapply ro_bind; [mo|intros; mo|apply ro_nd|]. intros nn ->.
      match goal with |- context [let '(_, _) := ?e in _] => assert (K : (fst e = c /\ snd e = None /\ lower (node_at s0 c) (node_at s0 n) = true) \/ (fst e = n /\ dups_ok L n (snd e))); [|destruct e as [n' d']] end.
      { unfold lower. destruct (n_y (node_at s0 c) >? n_y (node_at s0 n)); [auto|]. cbn [orb]. destruct (n_y (node_at s0 c) =? n_y (node_at s0 n)) eqn:Ey; [|auto]. cbn [andb].
        destruct (n_x (node_at s0 c) <=? n_x (node_at s0 n)) eqn:El; [|auto]. destruct (n_x (node_at s0 c) <? n_x (node_at s0 n)) eqn:Ex; [auto|].
        destruct (_ && _); [|auto]. right. split; [reflexivity|]. cbn. split; [apply T|]. apply Z.eqb_eq in Ey. apply Z.leb_le in El. apply Z.ltb_ge in Ex.
        unfold spot, npos. f_equal; [lia|exact Ey]. }
      cbn [fst snd] in K. eapply ro_bind; [mo|intros; mo|apply ro_deref|]. intros j Ej. apply ro_ret. destruct K as [(-> & -> & Lo)|(-> & Dn)].
      * assert (Ic : In c L) by apply T. destruct (next_round L c j C Ic Ej) as (k' & Lk' & T'). exists (lowers L c * length L + k')%nat. split.
        -- pose proof (lowers_lt L c n Ic Lo). nia.
        -- exists k'. split; [exact Lk'|]. split; [exact T'|]. split; [exact I|reflexivity].
      * destruct (toward_step _ _ _ _ _ _ Ncn T Ej) as (k' & -> & T'). exists (lowers L n * length L + k')%nat. split; [lia|]. exists k'. split; [lia|]. split; [exact T'|]. auto.
  - exists n0. split; [exact L0|]. split; [exact T0|]. split; [exact I|reflexivity].
Qed.
Lemma ro_skip_to L t node d n : toward n_next L t n d -> spot node = spot t ->
  ro (fun f => skip_to_equal f d node) (fun d' => spot d' = spot node /\ exists n', (n' <= n)%nat /\ toward n_next L t n' d').
Proof.
  intros T E. unfold skip_to_equal. eapply ro_loop with (P := fun k d => (k <= n)%nat /\ toward n_next L t k d) (n := n); [intros; mo| |split; [apply le_n|exact T]].
  clear d T. intros k d (Lk & T). eapply ro_bind; [mo|intros; mo|apply ro_eq|]. intros b ->. destruct (point_eqb _ _) eqn:Eb.
  - apply ro_ret. split; [|eauto]. apply point_eqb_eq in Eb. exact Eb.
  - eapply ro_bind; [mo|intros; mo|apply ro_next|]. intros d' Ed. apply ro_ret.
    assert (Nd : d <> t). { intros ->. fold (spot t) in Eb. fold (spot node) in Eb. rewrite E in Eb. rewrite (proj2 (point_eqb_eq _ _) eq_refl) in Eb. discriminate. }
    destruct (toward_step _ _ _ _ _ _ Nd T Ed) as (k' & -> & T'). exists k'. split; [lia|]. split; [lia|exact T'].
Qed.
Lemma toward_any L t d : circle s0 L -> In t L -> In d L -> exists n, toward n_next L t n d.
Proof.
  intros C Ht Hd. destruct (Pos.eq_dec d t) as [->|N]; [exists O; repeat split; assumption|].
  apply in_split in Ht. destruct Ht as (l1 & l2 & ->). pose proof (circle_rotate _ _ _ C) as C1. cbn [app] in C1. destruct C1 as (_ & C1).
  assert (H1 : In d (l2 ++ l1)) by (apply in_app_or in Hd; apply in_or_app; destruct Hd as [Hd|[Hd|Hd]]; [auto|congruence|auto]).
  apply in_split in H1. destruct H1 as (m1 & m2 & Em). rewrite Em in C1. rewrite <- app_assoc in C1. cbn [app] in C1. apply chained_app in C1. destruct C1 as (_ & C1).
  exists (S (length m2)). split; [exact Hd|]. split; [apply in_or_app; right; left; reflexivity|]. exists m2. split; [apply dpath_next, C1|]. split; [reflexivity|].
  intros x Hx. assert (X : In x (l2 ++ l1)) by (rewrite Em; apply in_or_app; right; right; exact Hx). apply in_app_or in X. apply in_or_app. destruct X; [right; right|left]; assumption.
Qed.
Lemma ro_bottom L i : circle s0 L -> In i L -> ro (fun f => bottom_node f i) (fun b => In b L).
Proof.
  intros C H. unfold bottom_node. eapply ro_bind; [mo| |apply ro_scan; eassumption|].
  - intros [[n d] c]. destruct d; [|mo]. apply mono_loop. intros [a b]. mo.
  - intros [[n d] c] (-> & In_ & Dd). destruct d as [d|]; [|apply ro_ret; exact In_]. destruct Dd as (Id & Sd).
    destruct (toward_any L n d C In_ Id) as (k & T).
    eapply ro_loop with (P := fun k '(d, m) => toward n_next L n k d /\ spot d = spot n /\ In m L /\ spot m = spot n); [intros [a b]; mo| |split; [exact T|auto]].
    clear k d Id Sd T. intros k [d m] (T & Sd & Im & Sm). destruct (Pos.eqb_spec d n) as [->|Nd]; [apply ro_ret; exact Im|].
    eapply ro_bind; [mo|intros; mo|apply ro_bottom_to; [exists L; split; [exact C|exact In_]|exists L; split; [exact C|apply T]]|]. intros b _. cbv beta zeta.
    assert (K : forall m', In m' L -> spot m' = spot n -> tot (fun s => s = s0) (fun f => (d1 <- next_of d ;; d2 <- skip_to_equal f d1 m' ;; ret (inl (d2, m'))))
      (fun (r : (nid * nid) + nid) s => s = s0 /\ match r with inl x' => exists n', (n' < k)%nat /\ (let '(d, m) := x' in toward n_next L n n' d /\ spot d = spot n /\ In m L /\ spot m = spot n) | inr r => In r L end)).
    { intros m' Im' Sm'. eapply ro_bind; [mo|intros; mo|apply ro_next|]. intros d1 E1. destruct (toward_step _ _ _ _ _ _ Nd T E1) as (k1 & -> & T1).
      eapply ro_bind; [mo|intros; mo|eapply ro_skip_to; [exact T1|exact Sm']|]. intros d2 (S2 & k2 & L2 & T2). apply ro_ret. exists k2. split; [lia|]. split; [exact T2|]. split; [congruence|auto]. }
    destruct b; apply K; [exact Im|exact Sm|apply T|exact Sd].
Qed.
End Read.
