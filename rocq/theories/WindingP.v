(** * Winding counts, contribution and crossings (pure part of C24-C26) *)
From Coq Require Import ZArith List Bool Lia.
From Coq Require Import Floats.SpecFloat.
From RecordUpdate Require Import RecordSet.
From Verif Require Import Py Monad Utils Geometry LinearRingM BoundM LocalMinimumM StateM SweepM SpecSweep SpecActive.
Import ListNotations.
Open Scope Z_scope.


Lemma winding_cons k b l : winding k (b :: l) = (if kind_eqb (fst b) k then snd b else 0) + winding k l.
Proof. reflexivity. Qed.
Lemma winding_app k l1 l2 : winding k (l1 ++ l2) = winding k l1 + winding k l2.
Proof.
  induction l1 as [|b l1 IH]; cbn [app]; [reflexivity|]. rewrite !winding_cons, IH. lia.
Qed.
Lemma winding_one k b : winding k [b] = if kind_eqb (fst b) k then snd b else 0.
Proof. cbn. lia. Qed.
Lemma kind_eqb_refl k : kind_eqb k k = true. Proof. destruct k; reflexivity. Qed.
Lemma kind_eqb_eq a b : kind_eqb a b = true <-> a = b.
Proof. destruct a, b; cbn; split; congruence. Qed.
Lemma kind_eqb_other a b : kind_eqb a b = false <-> a = other b.
Proof. destruct a, b; cbn; split; congruence. Qed.
Lemma winding_same k d : winding k [(k, d)] = d.
Proof. rewrite winding_one. cbn. rewrite kind_eqb_refl. reflexivity. Qed.
Lemma winding_other k d : winding (other k) [(k, d)] = 0.
Proof. destruct k; reflexivity. Qed.
Lemma winding_none k l : forallb (fun b => kind_eqb (fst b) (other k)) l = true -> winding k l = 0.
Proof.
  induction l as [|b l IH]; intros H; [reflexivity|]. cbn in H. apply andb_prop in H.
  destruct H as (H1 & H2). apply kind_eqb_eq in H1. rewrite winding_cons, (IH H2), H1.
  destruct k; reflexivity.
Qed.

Lemma fill_rule sfk cfk k : fill_of sfk cfk k = rule_of sfk cfk k. Proof. destruct k; reflexivity. Qed.
Lemma alt_fill_rule sfk cfk k : alt_fill_of sfk cfk k = rule_of sfk cfk (other k).
Proof. destruct k; reflexivity. Qed.

Lemma split_same_kind_spec k rb : forall after p between,
  split_same_kind k rb after = (p, between) ->
  match p with
  | None => between = rev rb ++ after /\ forallb (fun b => kind_eqb (b_kind b) (other k)) rb = true
  | Some p => b_kind p = k /\ exists l1 mid, rev rb = l1 ++ p :: mid /\ between = mid ++ after /\
                forallb (fun b => kind_eqb (b_kind b) (other k)) mid = true
  end.
Proof.
  induction rb as [|b rb IH]; intros after p between E; cbn [split_same_kind] in E.
  { injection E as <- <-. auto. }
  destruct (kind_eqb (b_kind b) k) eqn:Ek.
  - injection E as <- <-. split; [apply kind_eqb_eq; exact Ek|].
    exists (rev rb), []. cbn. auto.
  - specialize (IH _ _ _ E). destruct p as [p|].
    + destruct IH as (Kp & l1 & mid & R & -> & F). split; [exact Kp|].
      exists l1, (mid ++ [b]). cbn [rev]. rewrite R, <- !app_assoc. cbn. repeat split; auto.
      rewrite forallb_app. cbn [forallb]. rewrite F. apply kind_eqb_other in Ek. rewrite Ek, kind_eqb_refl. reflexivity.
    + destruct IH as (-> & F). cbn [rev forallb]. rewrite F, <- app_assoc. cbn.
      apply kind_eqb_other in Ek. rewrite Ek, kind_eqb_refl. auto.
Qed.

Lemma fold_sum l : forall z, fold_left (fun z b => z + b_wd b) l z
  = z + fold_right (fun b w => b_wd b + w) 0 l.
Proof. induction l as [|b l IH]; intros z; cbn; [lia|]. rewrite IH. lia. Qed.
Lemma winding_all k l : forallb (fun b => kind_eqb (b_kind b) k) l = true ->
  winding k (map sig l) = fold_right (fun b w => b_wd b + w) 0 l.
Proof.
  induction l as [|b l IH]; intros H; [reflexivity|]. cbn in H. apply andb_prop in H.
  destruct H as (H1 & H2). cbn [map fold_right]. rewrite winding_cons, (IH H2). cbn [sig fst snd]. rewrite H1. reflexivity.
Qed.
Lemma fold_toggle l : forall w, (forall b, In b l -> unit_delta (b_wd b)) ->
  fold_left (fun z _ => toggle z) l (w mod 2)
  = (w + fold_right (fun b w => b_wd b + w) 0 l) mod 2.
Proof.
  induction l as [|b l IH]; intros w H; cbn [fold_left fold_right]; [f_equal; lia|].
  replace (toggle (w mod 2)) with ((w + b_wd b) mod 2).
  - rewrite IH by (intros; apply H; right; assumption). f_equal. lia.
  - destruct (H b (or_introl eq_refl)) as [-> | ->]; unfold toggle;
      destruct (Z.eqb_spec (w mod 2) 0); Z.div_mod_to_equations; lia.
Qed.

(** the other kind's count *)
Definition other_count (sfk cfk : fill_kind) (k : polygon_kind) (w : Z) : Z :=
  match rule_of sfk cfk (other k) with EVEN_ODD => w mod 2 | _ => w end.
Lemma counts_right_alt sfk cfk l k d wc owc :
  counts_right sfk cfk l (k, d) wc owc <->
  (match rule_of sfk cfk k with
   | EVEN_ODD => wc = 1 \/ wc = -1
   | _ => wc = farther (winding k l) (winding k l + d)
   end) /\ owc = other_count sfk cfk k (winding (other k) l).
Proof. unfold counts_right, other_count. cbn [fst snd]. destruct (rule_of sfk cfk (other k)); tauto. Qed.

Lemma next_winding_count_spec L dp wd : unit_delta dp -> unit_delta wd ->
  next_winding_count (farther L (L + dp)) dp wd = farther (L + dp) (L + dp + wd).
Proof.
  unfold next_winding_count, farther. intros [-> | ->] [-> | ->];
  repeat match goal with
  | |- context [?a <? ?b] => destruct (Z.ltb_spec a b)
  | |- context [?a >? ?b] => destruct (Z.gtb_spec a b)
  end; lia.
Qed.

(** [winding_counts] computes the right counts (C24) *)
Lemma winding_counts_right sfk cfk before kind wd :
  unit_delta wd ->
  (forall b, In b before -> unit_delta (b_wd b)) ->
  (forall l1 p l2, before = l1 ++ p :: l2 ->
     counts_right sfk cfk (map sig l1) (sig p) (b_wc p) (b_owc p)) ->
  let '(wc, owc) := winding_counts sfk cfk before kind wd in
  counts_right sfk cfk (map sig before) (kind, wd) wc owc.
Proof.
  intros Hwd Hu Hc. unfold winding_counts.
  assert (Hp0 : winding kind (map sig []) = 0 /\ winding (other kind) (map sig []) = 0) by (split; reflexivity).
  destruct before as [|b0 before0] eqn:Eb.
  { rewrite counts_right_alt. destruct Hp0 as (-> & ->). unfold other_count.
    split; [|destruct (rule_of _ _ _); reflexivity].
    unfold farther. destruct Hwd as [-> | ->]; destruct (rule_of _ _ _); cbn; auto. }
  rewrite <- Eb in *. clear Hp0 b0 before0 Eb.
  destruct (split_same_kind kind (rev before) []) as [prev between] eqn:Es.
  apply split_same_kind_spec in Es.
  unfold even_odd_fill, even_odd_alt_fill. rewrite fill_rule, alt_fill_rule.
  destruct prev as [p|].
  - destruct Es as (Kp & l1 & mid & Hb & -> & F). rewrite rev_involutive in Hb. rewrite app_nil_r.
    pose proof (Hc _ _ _ Hb) as Cp. unfold sig in Cp. rewrite Kp in Cp.
    apply counts_right_alt in Cp. destruct Cp as (Cw & Co).
    assert (Hup : unit_delta (b_wd p)) by (apply Hu; rewrite Hb; apply in_elt).
    assert (Hum : forall b, In b mid -> unit_delta (b_wd b)).
    { intros b Hin. apply Hu. rewrite Hb. apply in_or_app. right. right. exact Hin. }
    assert (W1 : winding kind (map sig before) = winding kind (map sig l1) + b_wd p).
    { rewrite Hb, map_app. cbn [map]. rewrite winding_app. change (sig p :: map sig mid) with ([sig p] ++ map sig mid).
      rewrite winding_app. rewrite (winding_none kind (map sig mid)).
      - unfold sig at 2. rewrite Kp, winding_same. lia.
      - rewrite forallb_forall in *. intros x Hx. apply in_map_iff in Hx. destruct Hx as (b & <- & Hx).
        apply (F b Hx). }
    assert (W2 : winding (other kind) (map sig before)
                 = winding (other kind) (map sig l1) + fold_right (fun b w => b_wd b + w) 0 mid).
    { rewrite Hb, map_app. cbn [map]. rewrite winding_app. change (sig p :: map sig mid) with ([sig p] ++ map sig mid).
      rewrite winding_app. rewrite (winding_all (other kind) mid F). unfold sig at 2. rewrite Kp, winding_other. lia. }
    assert (Owc : (if fill_eqb (rule_of sfk cfk (other kind)) EVEN_ODD
                   then fold_left (fun z _ => toggle z) mid (b_owc p)
                   else fold_left (fun z b => z + b_wd b) mid (b_owc p))
                  = other_count sfk cfk kind (winding (other kind) (map sig before))).
    { rewrite W2, Co. unfold other_count. destruct (rule_of sfk cfk (other kind)); cbn [fill_eqb];
        rewrite ?fold_toggle, ?fold_sum by exact Hum; reflexivity. }
    destruct (fill_eqb (rule_of sfk cfk kind) EVEN_ODD) eqn:Ef;
      apply counts_right_alt; (split; [|exact Owc]).
    + destruct (rule_of sfk cfk kind); try discriminate. exact Hwd.
    + rewrite W1. destruct (rule_of sfk cfk kind); try discriminate;
        rewrite Cw, next_winding_count_spec by assumption; f_equal; lia.
  - destruct Es as (-> & F). rewrite rev_involutive, app_nil_r.
    assert (F' : forallb (fun b => kind_eqb (b_kind b) (other kind)) before = true).
    { rewrite forallb_forall in *. intros b Hb. apply F. apply -> in_rev. exact Hb. }
    assert (W1 : winding kind (map sig before) = 0).
    { apply winding_none. rewrite forallb_forall in *. intros x Hx. apply in_map_iff in Hx.
      destruct Hx as (b & <- & Hx). apply (F' b Hx). }
    pose proof (winding_all (other kind) before F') as W2.
    assert (Owc : (if fill_eqb (rule_of sfk cfk (other kind)) EVEN_ODD
                   then fold_left (fun z _ => toggle z) before 0
                   else fold_left (fun z b => z + b_wd b) before 0)
                  = other_count sfk cfk kind (winding (other kind) (map sig before))).
    { rewrite W2. unfold other_count. pose proof (fold_toggle before 0 Hu) as T.
      change (0 mod 2) with 0 in T. rewrite Z.add_0_l in T.
      destruct (rule_of sfk cfk (other kind)); cbn [fill_eqb];
        rewrite ?T, ?fold_sum; reflexivity. }
    apply counts_right_alt. split; [|exact Owc]. rewrite W1. unfold farther.
    destruct Hwd as [-> | ->]; destruct (rule_of sfk cfk kind); cbn; auto.
Qed.

(** ** Membership *)
Lemma farther_inside f L d : unit_delta d -> f <> EVEN_ODD ->
  (match f with
   | NON_ZERO => Z.abs (farther L (L + d)) =? 1
   | POSITIVE => farther L (L + d) =? 1
   | NEGATIVE => farther L (L + d) =? -1
   | EVEN_ODD => true
   end) = xorb (inside f L) (inside f (L + d)).
Proof.
  unfold farther. intros [-> | ->] Hf; destruct f; try congruence; cbn [inside];
  repeat match goal with
  | |- context [?a <? ?b] => destruct (Z.ltb_spec a b)
  | |- context [?a =? ?b] => destruct (Z.eqb_spec a b)
  end; cbn; try reflexivity; lia.
Qed.
Lemma odd_step w d : unit_delta d -> Z.odd (w + d) = negb (Z.odd w).
Proof. intros [-> | ->]; rewrite Z.odd_add; cbn; rewrite ?xorb_true_r; reflexivity. Qed.
Lemma mod2_odd w : (w mod 2 =? 0) = negb (Z.odd w).
Proof. rewrite Zmod_odd. destruct (Z.odd w); reflexivity. Qed.

(** crossing a bound changes membership iff its own fill state changes and the
    operation is sensitive to it *)
Definition sens (op : operation_kind) (k : polygon_kind) (o : bool) : bool :=
  match op with
  | INTERSECTION => o
  | UNION => negb o
  | DIFFERENCE => match k with SUBJECT => negb o | CLIP => o end
  | XOR => true
  end.
Lemma member_own op sfk cfk k l :
  member op sfk cfk l
  = match k with
    | SUBJECT => in_result op (inside (rule_of sfk cfk k) (winding k l))
                              (inside (rule_of sfk cfk (other k)) (winding (other k) l))
    | CLIP => in_result op (inside (rule_of sfk cfk (other k)) (winding (other k) l))
                           (inside (rule_of sfk cfk k) (winding k l))
    end.
Proof. destruct k; reflexivity. Qed.
Lemma changes_sens op sfk cfk l k d : 
  changes op sfk cfk l (k, d)
  = sens op k (inside (rule_of sfk cfk (other k)) (winding (other k) l))
    && xorb (inside (rule_of sfk cfk k) (winding k l))
            (inside (rule_of sfk cfk k) (winding k l + d)).
Proof.
  unfold changes. rewrite !(member_own op sfk cfk k), !winding_app, winding_same, winding_other, Z.add_0_r.
  generalize (inside (rule_of sfk cfk k) (winding k l)) as a.
  generalize (inside (rule_of sfk cfk k) (winding k l + d)) as b.
  generalize (inside (rule_of sfk cfk (other k)) (winding (other k) l)) as o.
  intros o b a. destruct op, k, a, b, o; reflexivity.
Qed.

Lemma other_inside sfk cfk k w :
  let owc := other_count sfk cfk k w in
  let f := rule_of sfk cfk (other k) in
  (match f with EVEN_ODD | NON_ZERO => negb (owc =? 0) | POSITIVE => owc >? 0 | NEGATIVE => owc <? 0 end
   = inside f w) /\
  (match f with EVEN_ODD | NON_ZERO => owc =? 0 | POSITIVE => owc <=? 0 | NEGATIVE => owc >=? 0 end
   = negb (inside f w)).
Proof.
  unfold other_count. cbv zeta. destruct (rule_of sfk cfk (other k)); cbn [inside].
  - rewrite mod2_odd, negb_involutive. auto.
  - rewrite negb_involutive. auto.
  - rewrite Z.gtb_ltb, <- Z.leb_antisym. auto.
  - rewrite Z.geb_leb, <- Z.leb_antisym. auto.
Qed.

Lemma is_contributing_changes op sfk cfk l k d wc owc :
  unit_delta d -> counts_right sfk cfk l (k, d) wc owc ->
  is_contributing op sfk cfk k wc owc = changes op sfk cfk l (k, d).
Proof.
  intros Hd C. apply counts_right_alt in C. destruct C as (Cw & ->).
  rewrite changes_sens. unfold is_contributing. rewrite fill_rule, alt_fill_rule.
  destruct (other_inside sfk cfk k (winding (other k) l)) as (-> & ->).
  assert (Own : (match rule_of sfk cfk k with
                 | NON_ZERO => Z.abs wc =? 1 | POSITIVE => wc =? 1 | NEGATIVE => wc =? -1
                 | EVEN_ODD => true end)
                = xorb (inside (rule_of sfk cfk k) (winding k l))
                       (inside (rule_of sfk cfk k) (winding k l + d))).
  { destruct (rule_of sfk cfk k) eqn:Er.
    - cbn [inside]. rewrite odd_step by exact Hd. destruct (Z.odd _); reflexivity.
    - rewrite Cw. apply (farther_inside NON_ZERO); [exact Hd|discriminate].
    - rewrite Cw. apply (farther_inside POSITIVE); [exact Hd|discriminate].
    - rewrite Cw. apply (farther_inside NEGATIVE); [exact Hd|discriminate]. }
  rewrite Own. clear Own. destruct (xorb _ _); cbn [negb]; [|rewrite andb_false_r; reflexivity].
  rewrite andb_true_r. destruct op, k; reflexivity.
Qed.

(** ** Crossing *)
Lemma farther_shift_up L d1 d2 : unit_delta d1 -> unit_delta d2 ->
  (if farther L (L + d1) + d2 =? 0 then - farther L (L + d1) else farther L (L + d1) + d2)
  = farther (L + d2) (L + d2 + d1).
Proof.
  unfold farther. intros [-> | ->] [-> | ->];
  repeat match goal with
  | |- context [?a <? ?b] => destruct (Z.ltb_spec a b)
  | |- context [?a =? ?b] => destruct (Z.eqb_spec a b)
  end; lia.
Qed.
Lemma farther_shift_down L d1 d2 : unit_delta d1 -> unit_delta d2 ->
  (if farther (L + d1) (L + d1 + d2) - d1 =? 0 then - farther (L + d1) (L + d1 + d2)
   else farther (L + d1) (L + d1 + d2) - d1)
  = farther L (L + d2).
Proof.
  unfold farther. intros [-> | ->] [-> | ->];
  repeat match goal with
  | |- context [?a <? ?b] => destruct (Z.ltb_spec a b)
  | |- context [?a =? ?b] => destruct (Z.eqb_spec a b)
  end; lia.
Qed.
Lemma toggle_mod w d : unit_delta d -> toggle (w mod 2) = (w + d) mod 2.
Proof.
  intros [-> | ->]; unfold toggle; destruct (Z.eqb_spec (w mod 2) 0); Z.div_mod_to_equations; lia.
Qed.

Lemma crossed_windings_right sfk cfk l b1 b2 wc1 owc1 wc2 owc2 :
  unit_delta (b_wd b1) -> unit_delta (b_wd b2) ->
  counts_right sfk cfk l (sig b1) (b_wc b1) (b_owc b1) ->
  counts_right sfk cfk (l ++ [sig b1]) (sig b2) (b_wc b2) (b_owc b2) ->
  crossed_windings sfk cfk b1 b2 = ((wc1, owc1), (wc2, owc2)) ->
  counts_right sfk cfk l (sig b2) wc2 owc2 /\
  counts_right sfk cfk (l ++ [sig b2]) (sig b1) wc1 owc1.
Proof.
  intros U1 U2 C1 C2 E. unfold sig in *. apply counts_right_alt in C1, C2.
  rewrite !counts_right_alt. destruct C1 as (W1 & O1), C2 as (W2 & O2).
  rewrite winding_app in W2, O2. rewrite !winding_app.
  unfold crossed_windings, even_odd_fill in E. rewrite !fill_rule in E.
  destruct (kind_eqb (b_kind b1) (b_kind b2)) eqn:K.
  - apply kind_eqb_eq in K. rewrite <- K in *.
    rewrite winding_same in W2. rewrite winding_other in O2. rewrite !winding_same, !winding_other.
    destruct (fill_eqb (rule_of sfk cfk (b_kind b1)) EVEN_ODD) eqn:Ef.
    + injection E as <- <- <- <-. destruct (rule_of sfk cfk (b_kind b1)); try discriminate.
      rewrite O1, O2, !Z.add_0_r. auto.
    + cbv zeta in E. injection E as <- <- <- <-.
      rewrite O1, O2, !Z.add_0_r. 
      destruct (rule_of sfk cfk (b_kind b1)); try discriminate;
        rewrite W1, W2, farther_shift_up, farther_shift_down by assumption; auto.
  - apply kind_eqb_other in K. 
    assert (K' : b_kind b2 = other (b_kind b1)) by (destruct (b_kind b1), (b_kind b2); cbn in *; congruence).
    assert (Oo : other (other (b_kind b1)) = b_kind b1) by (destruct (b_kind b1); reflexivity).
    rewrite K' in *. rewrite ?Oo in *. 
    assert (Wz : winding (b_kind b1) [(other (b_kind b1), b_wd b2)] = 0) by (destruct (b_kind b1); reflexivity).
    rewrite winding_other in W2. rewrite winding_same in O2. rewrite winding_same, Wz.
    injection E as <- <- <- <-. rewrite !Z.add_0_r in *. 
    split; (split; [assumption|]); unfold other_count in *; rewrite ?Oo, ?fill_rule in *.
    + destruct (rule_of sfk cfk (b_kind b1)); cbn [fill_eqb negb]; rewrite O2; try lia.
      rewrite (toggle_mod _ (b_wd b1)) by exact U1.
      replace (winding (b_kind b1) l + b_wd b1 + b_wd b1) with (winding (b_kind b1) l + b_wd b1 * 2) by lia.
      apply Z_mod_plus_full.
    + destruct (rule_of sfk cfk (other (b_kind b1))); cbn [fill_eqb negb]; rewrite O1; try lia.
      apply toggle_mod. exact U2.
Qed.

Definition act_change (a : crossing_action) : chain_change :=
  match a with
  | ActMaximum => BothEnd
  | ActSwap => BothContinue
  | ActSwapFirst => FirstToSecond
  | ActSwapSecond => SecondToFirst
  | ActMinimum => BothStart
  | ActSwapSides | ActNothing => Unchanged
  end.

Definition flips (f : fill_kind) (w d : Z) : bool := xorb (inside f w) (inside f (w + d)).
Lemma farther_nz L d : unit_delta d -> farther L (L + d) <> 0.
Proof.
  unfold farther. intros Hd. destruct (Z.ltb_spec (Z.abs L) (Z.abs (L + d))), Hd as [-> | ->]; lia.
Qed.
Lemma norm_flips sfk cfk l k d wc owc : unit_delta d -> counts_right sfk cfk l (k, d) wc owc ->
  let n := norm_winding (fill_of sfk cfk k) wc in
  let a := flips (rule_of sfk cfk k) (winding k l) d in
  zero_or_one n = a /\ (n =? 1) = a /\ negb (n =? 0) && negb (n =? 1) = negb a.
Proof.
  intros Hd C. apply counts_right_alt in C. destruct C as (Cw & _).
  rewrite fill_rule. cbv zeta. set (n := norm_winding _ wc). set (a := flips _ _ d).
  assert (N : n <> 0 /\ (n =? 1) = a).
  { unfold n, a, flips, norm_winding. destruct (rule_of sfk cfk k); cbn [inside].
    - rewrite odd_step by exact Hd. split; [lia|]. destruct (Z.odd _); cbn; lia.
    - rewrite Cw. split; [pose proof (farther_nz (winding k l) d Hd); lia|].
      apply (farther_inside NON_ZERO); [exact Hd|discriminate].
    - rewrite Cw. split; [pose proof (farther_nz (winding k l) d Hd); lia|].
      apply (farther_inside POSITIVE); [exact Hd|discriminate].
    - rewrite Cw. split; [pose proof (farther_nz (winding k l) d Hd); lia|].
      etransitivity; [|apply (farther_inside NEGATIVE); [exact Hd|discriminate]].
      apply eq_true_iff_eq. rewrite !Z.eqb_eq. lia. }
  destruct N as (N0 & N1). unfold zero_or_one. apply Z.eqb_neq in N0. rewrite N0, N1.
  cbn. auto.
Qed.
Lemma norm_other sfk cfk k w :
  let o := norm_winding (alt_fill_of sfk cfk k) (other_count sfk cfk k w) in
  (o >? 0) = inside (rule_of sfk cfk (other k)) w /\
  (o <=? 0) = negb (inside (rule_of sfk cfk (other k)) w).
Proof.
  rewrite alt_fill_rule. unfold other_count, norm_winding. cbv zeta.
  rewrite Z.gtb_ltb.
  assert (X : forall z, (z <=? 0) = negb (0 <? z)) by (intros; rewrite Z.leb_antisym; reflexivity).
  rewrite X.
  match goal with |- (?a = ?b) /\ _ => assert (E : a = b); [|rewrite E; auto] end.
  destruct (rule_of sfk cfk (other k)); cbn [inside].
  - rewrite Zmod_odd. destruct (Z.odd w); reflexivity.
  - destruct (Z.ltb_spec 0 (Z.abs w)), (Z.eqb_spec w 0); cbn; lia.
  - reflexivity.
  - apply eq_true_iff_eq. rewrite !Z.ltb_lt. lia.
Qed.

Lemma crossing_right op sfk cfk l b1 b2 wc1 owc1 wc2 owc2 :
  unit_delta (b_wd b1) -> unit_delta (b_wd b2) ->
  counts_right sfk cfk (l ++ [sig b2]) (sig b1) wc1 owc1 ->
  counts_right sfk cfk l (sig b2) wc2 owc2 ->
  let c1 := changes op sfk cfk l (sig b1) in
  let c2 := changes op sfk cfk (l ++ [sig b1]) (sig b2) in
  let c1' := changes op sfk cfk (l ++ [sig b2]) (sig b1) in
  let c2' := changes op sfk cfk l (sig b2) in
  required_change c1 c2 c1' c2'
  = Some (act_change (crossing op sfk cfk c1 c2 (b_kind b1) (b_kind b2) wc1 owc1 wc2 owc2)).
Proof.
  intros U1 U2 C1 C2. cbv zeta. unfold sig in *. rewrite !changes_sens. unfold crossing.
  destruct (norm_flips _ _ _ _ _ _ _ U1 C1) as (Z1 & E1 & F1).
  destruct (norm_flips _ _ _ _ _ _ _ U2 C2) as (Z2 & E2 & F2).
  cbv zeta in *. rewrite Z1, Z2, F1, F2, E1, E2. clear Z1 Z2 E1 E2 F1 F2.
  apply counts_right_alt in C1, C2. destruct C1 as (_ & ->), C2 as (_ & ->).
  destruct (norm_other sfk cfk (b_kind b1) (winding (other (b_kind b1)) (l ++ [(b_kind b2, b_wd b2)]))) as (G1 & L1).
  destruct (norm_other sfk cfk (b_kind b2) (winding (other (b_kind b2)) l)) as (G2 & L2).
  cbv zeta in *. rewrite G1, G2, L1, L2. clear G1 G2 L1 L2.
  rewrite !winding_app.
  destruct (kind_eqb (b_kind b1) (b_kind b2)) eqn:K.
  - apply kind_eqb_eq in K. rewrite <- K in *. rewrite !winding_same, !winding_other, !Z.add_0_r.
    generalize (inside (rule_of sfk cfk (other (b_kind b1))) (winding (other (b_kind b1)) l)) as o.
    unfold flips. intros o.
    set (f := rule_of sfk cfk (b_kind b1)). set (w := winding (b_kind b1) l).
    assert (Q : inside f (w + b_wd b1) = inside f (w + b_wd b2) \/
                (inside f (w + b_wd b1 + b_wd b2) = inside f w)).
    { destruct U1 as [-> | ->], U2 as [-> | ->]; auto; right; f_equal; lia. }
    assert (Q2 : inside f (w + b_wd b2 + b_wd b1) = inside f (w + b_wd b1 + b_wd b2)) by (f_equal; lia).
    rewrite Q2. clear Q2 U1 U2 K.
    generalize dependent (inside f (w + b_wd b1 + b_wd b2)).
    generalize dependent (inside f (w + b_wd b1)). generalize dependent (inside f (w + b_wd b2)).
    generalize (inside f w). clear.
    intros i0 i2 i1 i12 Q. destruct op, (b_kind b1), o, i0, i1, i2, i12; destruct Q; try discriminate; reflexivity.
  - apply kind_eqb_other in K.
    assert (K' : b_kind b2 = other (b_kind b1)) by (destruct (b_kind b1), (b_kind b2); cbn in *; congruence).
    assert (Oo : other (other (b_kind b1)) = b_kind b1) by (destruct (b_kind b1); reflexivity).
    assert (Wz : winding (b_kind b1) [(other (b_kind b1), b_wd b2)] = 0) by (destruct (b_kind b1); reflexivity).
    rewrite K' in *. rewrite ?Oo in *. rewrite !winding_same, winding_other, Wz, !Z.add_0_r.
    unfold flips.
    generalize (inside (rule_of sfk cfk (b_kind b1)) (winding (b_kind b1) l)) as i0.
    generalize (inside (rule_of sfk cfk (b_kind b1)) (winding (b_kind b1) l + b_wd b1)) as i1.
    generalize (inside (rule_of sfk cfk (other (b_kind b1))) (winding (other (b_kind b1)) l)) as j0.
    generalize (inside (rule_of sfk cfk (other (b_kind b1))) (winding (other (b_kind b1)) l + b_wd b2)) as j1.
    clear. intros j1 j0 i1 i0. destruct op, (b_kind b1), i0, i1, j0, j1; reflexivity.
Qed.
