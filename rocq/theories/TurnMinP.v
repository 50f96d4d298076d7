(** * The local minima of a ring do not depend on where its edges begin *)
From Coq Require Import ZArith List Bool Lia FMapPositive.
From RecordUpdate Require Import RecordSet.
From Verif Require Import Py Monad Utils Geometry LinearRingM BoundM LocalMinimumM SpecRing SpecBounds
     MiscP ListP ScanP SweepFrameP LinearRingP LinearRing2P RingEdgesP MinimaP AddRingP.
Import ListNotations RecordSetNotations.
Open Scope Z_scope.

(** ** Cutting the edges into minima *)
Inductive cut : list edge -> list minimum_spec -> Prop :=
| cut_nil : cut [] []
| cut_cons : forall es m rest ms, one_minimum es = Ok (m, rest) -> cut rest ms -> cut es (m :: ms).
Lemma cut_det es ms : cut es ms -> forall ms', cut es ms' -> ms = ms'.
Proof.
  induction 1 as [|es m rest ms E _ IH]; intros ms' C.
  - inversion C as [|? m rest ms E]; [reflexivity|]. subst. discriminate.
  - inversion C as [|? m' rest' ms1 E' C']; subst; [discriminate|]. rewrite E in E'. injection E' as <- <-. f_equal. apply IH, C'.
Qed.

(** ** What is recorded for a minimum *)
Definition no_max (b : bound) : bound := b <| b_max := None |>.
Definition look (bs : heap bound) (lm : local_minimum) : Z * bool * bound * bound :=
  (lm_y lm, lm_hor lm, no_max (bget bs (lm_left lm)), no_max (bget bs (lm_right lm))).
Definition spec_look (kind : polygon_kind) (m : minimum_spec) : Z * bool * bound * bound :=
  let mn := min_bound m kind None in
  let mx := max_bound m kind in
  if ms_min_left m then (ms_y m, ms_hor m, mn, mx) else (ms_y m, ms_hor m, mx, mn).
Definition keeps (L L' : lm_list) : Prop :=
  (lml_next L <= lml_next L')%positive /\
  forall i, (i < lml_next L)%positive -> no_max (bget (lml_bounds L') i) = no_max (bget (lml_bounds L) i).
Definition within (L : lm_list) (lm : local_minimum) : Prop := (lm_left lm < lml_next L)%positive /\ (lm_right lm < lml_next L)%positive.
Lemma no_max_set b x : no_max (b <| b_max := x |>) = no_max b.
Proof. reflexivity. Qed.
Lemma no_max_no_max b : no_max (no_max b) = no_max b.
Proof. reflexivity. Qed.
Lemma loop_cut kind : forall fuel edges first last L f l L', (forall j, last = Some j -> (j < lml_next L)%positive) ->
  loopR fuel (add_minima_body kind) (edges, first, last, L) = Ok (f, l, L') ->
  keeps L L' /\ exists ms new, cut edges ms /\ lml_values L' = lml_values L ++ new /\
    map (look (lml_bounds L')) new = map (spec_look kind) ms /\ Forall (within L') new.
Proof.
  induction fuel as [|fuel IH]; intros edges first last L f l L' Hl H; [discriminate|]. cbn [loopR] in H.
  unfold add_minima_body at 1 in H. destruct edges as [|e edges].
  - injection H as <- <- <-. split; [split; [lia|reflexivity]|]. exists [], []. rewrite app_nil_r. split; [constructor|]. repeat split; auto.
  - destruct (one_minimum (e :: edges)) as [[m rest]| |] eqn:E1; cbn [rbind] in H; [|discriminate|discriminate].
    set (n := lml_next L) in *.
    change (match last with
            | Some j => hset (hset (hset (lml_bounds L) n (min_bound m kind last)) (Pos.succ n) (max_bound m kind)) j
                        (bget (hset (hset (lml_bounds L) n (min_bound m kind last)) (Pos.succ n) (max_bound m kind)) j
                           <| b_max := Some n |>)
            | None => hset (hset (lml_bounds L) n (min_bound m kind last)) (Pos.succ n) (max_bound m kind)
            end) with (heap_step (lml_bounds L) n last m kind) in H.
    destruct (heap_step_get (lml_bounds L) n last m kind Hl) as (G1 & G2 & G3 & G4).
    set (bs := heap_step (lml_bounds L) n last m kind) in *. clearbody bs.
    set (lm := if ms_min_left m then LM n (Pos.succ n) (ms_y m) (ms_hor m) else LM (Pos.succ n) n (ms_y m) (ms_hor m)) in *.
    refine ((fun Q => _) (IH _ _ _ _ _ _ _ _ H)); [|cbn [lml_next]; intros j Ej; injection Ej as <-; lia].
    destruct Q as ((K1 & K2) & ms & new & C & V & M & Wi). cbn [lml_next lml_bounds lml_values] in *.
    split.
    + split; [lia|]. fold n. intros i Hi. rewrite K2 by lia. destruct last as [j|]; [|rewrite G3 by (assumption || discriminate); reflexivity].
      destruct (Pos.eq_dec j i) as [->|N]; [rewrite (G4 i eq_refl); reflexivity|]. rewrite G3 by (assumption || congruence). reflexivity.
    + exists (m :: ms), (lm :: new). split; [econstructor; eassumption|]. split; [rewrite V, <- app_assoc; reflexivity|].
      split; [|constructor; [|exact Wi]; unfold lm, within; destruct (ms_min_left m); cbn [lm_left lm_right]; lia].
      cbn [map]. f_equal; [|exact M]. unfold look, spec_look, lm.
      destruct (ms_min_left m) eqn:Le; cbn [lm_y lm_hor lm_left lm_right]; rewrite !K2 by lia; rewrite G1, G2; reflexivity.
Qed.
Lemma look_keeps L L' lms : keeps L L' -> Forall (within L) lms -> map (look (lml_bounds L')) lms = map (look (lml_bounds L)) lms.
Proof.
  intros (_ & K). induction 1 as [|lm lms (H1 & H2) _ IH]; [reflexivity|]. cbn [map]. rewrite IH. f_equal. unfold look. rewrite !K by assumption. reflexivity.
Qed.
Lemma add_cut L pts kind b L' es : linear_ring_edges pts = Ok es -> add_linear_ring L pts kind = Ok (b, L') ->
  keeps L L' /\ exists ms new, cut (start_on_local_maximum es) ms /\ lml_values L' = lml_values L ++ new /\
    map (look (lml_bounds L')) new = map (spec_look kind) ms /\ Forall (within L') new.
Proof.
  intros E. unfold add_linear_ring. rewrite E. cbn [rbind]. destruct es as [|e es].
  - intros [= <- <-]. split; [split; [lia|reflexivity]|]. exists [], []. rewrite app_nil_r. split; [constructor|]. repeat split; auto.
  - set (es' := start_on_local_maximum (e :: es)). clearbody es'. intros H.
    destruct (loopR _ _ _) as [[[f l] L1]| |] eqn:Lp; cbn [rbind] in H; [|discriminate|discriminate].
    destruct f as [f|], l as [l|]; try discriminate. injection H as _ <-.
    refine ((fun Q => _) (loop_cut kind _ _ _ _ _ _ _ _ _ Lp)); [|discriminate].
    destruct Q as ((K1 & K2) & ms & new & C & V & M & Wi).
    assert (Q : forall i, no_max (bget (hset (hset (lml_bounds L1) l (bget (lml_bounds L1) l <| b_max := Some f |>)) f
        (bget (hset (lml_bounds L1) l (bget (lml_bounds L1) l <| b_max := Some f |>)) f <| b_max := Some l |>)) i) = no_max (bget (lml_bounds L1) i)).
    { intros i. rewrite bget_hset. destruct (Pos.eqb_spec f i) as [<-|N].
      - rewrite no_max_set, bget_hset. destruct (Pos.eqb_spec l f) as [->|N]; [rewrite no_max_set|]; reflexivity.
      - rewrite bget_hset. destruct (Pos.eqb_spec l i) as [->|N2]; [rewrite no_max_set|]; reflexivity. }
    split; [split; [exact K1|intros i Hi; cbn [lml_bounds]; rewrite Q; apply K2, Hi]|].
    exists ms, new. split; [exact C|]. split; [exact V|]. split; [|exact Wi]. rewrite <- M. apply map_ext. intros lm. unfold look. cbn [lml_bounds].
    rewrite !Q. reflexivity.
Qed.

(** ** Chunks: down, then up *)
Definition chunk (C : list dpair) : Prop :=
  exists p D q U, C = p :: D ++ q :: U /\ is_down p = true /\ (forall x, In x D -> is_up x = false) /\
    is_up q = true /\ (forall x, In x U -> is_down x = false).
Definition fresh (X : list dpair) : Prop := X = [] \/ exists p t, X = p :: t /\ is_down p = true.
Lemma find_if_app {A} (f : A -> bool) l x t : (forall y, In y l -> f y = false) -> f x = true -> find_if f (l ++ x :: t) = length l.
Proof.
  intros H Hx. induction l as [|a l IH]; cbn [app find_if]; [rewrite Hx; reflexivity|]. rewrite (H a (or_introl eq_refl)). cbn [length]. f_equal.
  apply IH. intros y I. apply H. right. exact I.
Qed.
Lemma find_if_none {A} (f : A -> bool) l : (forall y, In y l -> f y = false) -> find_if f l = length l.
Proof.
  intros H. induction l as [|a l IH]; [reflexivity|]. cbn [find_if]. rewrite (H a (or_introl eq_refl)). cbn [length]. f_equal. apply IH. intros y I. apply H. right. exact I.
Qed.
Lemma firstn_exact {A} (a b : list A) k : k = length a -> firstn k (a ++ b) = a /\ skipn k (a ++ b) = b.
Proof.
  intros ->. rewrite firstn_app, skipn_app, Nat.sub_diag, firstn_all, skipn_all. cbn. rewrite app_nil_r. auto.
Qed.
Lemma chunk_one C c : chunk C -> Forall2 made C c -> exists r, forall X x a z, fresh X -> Forall2 made X x -> walk a (C ++ X) z ->
  one_minimum (c ++ x) = (m <- r ;; Ok (m, x))%res.
Proof.
  intros (p & D & q & U & -> & Dp & HD & Uq & HU) F.
  inversion F as [|? e ? c1 Mp F1]; subst. destruct (Forall2_app_inv_l _ _ F1) as (d & c2 & FD & F2 & ->).
  inversion F2 as [|? eq ? u Mq FU]; subst. clear F F1 F2.
  set (finish := fun mn mx : list edge =>
     (let mn := fix_horizontals mn in
      let mx := fix_horizontals mx in
      match first_non_horizontal mx, first_non_horizontal mn with
      | Some kx, Some kn =>
         emx <- nth_res mx kx ;;
         emn <- nth_res mn kn ;;
         let hor := (0 <? kx)%nat || (0 <? kn)%nat in
         let '(mn', mx', min_left) :=
             if hor then
               if px (ebot emx) >? px (ebot emn) then
                 let '(mn', mx') := move_horizontals mn mx in (mn', mx', true)
               else
                 let '(mx', mn') := move_horizontals mx mn in (mn', mx', false)
             else (mn, mx, num_leb (NF (eslope emx)) (NF (eslope emn))) in
         front <- nth_res mn' 0 ;;
         Ok (MS mn' mx' min_left hor (py (ebot front)))
      | _, _ => Raise (RuntimeError HorizontalOnlyBound)
      end)%res).
  exists (finish (rev (map reverse_if_horizontal (e :: d))) (eq :: u)). intros X x a z Fr FX W.
  assert (Up : is_up p = false) by (dirs; apply Z.ltb_ge; lia).
  assert (Hp : is_hor p = false) by (dirs; apply Z.eqb_neq; lia).
  assert (Dq : is_down q = false) by (dirs; apply Z.ltb_ge; lia).
  assert (Hq : is_hor q = false) by (dirs; apply Z.eqb_neq; lia).
  cbn [app walk] in W. destruct W as (_ & W). rewrite <- app_assoc in W. cbn [app] in W.
  pose proof W as W0. apply walk_app in W0. destruct W0 as (c & _ & W0). cbn [walk] in W0. destruct W0 as (_ & W0).
  assert (FA : Forall2 made (D ++ q :: U ++ X) (d ++ eq :: u ++ x)).
  { apply Forall2_app; [exact FD|]. constructor; [exact Mq|]. apply Forall2_app; assumption. }
  assert (Tmin : towards_minimum (e :: d ++ eq :: u ++ x) = Ok (rev (map reverse_if_horizontal (e :: d)), eq :: u ++ x)).
  { unfold towards_minimum. rewrite (min_scan_spec _ _ p e false 1 z FA Mp W Up) by congruence.
    rewrite (find_if_app is_up D q) by assumption. rewrite (Forall2_len _ _ _ FD).
    change (e :: d ++ eq :: u ++ x) with ((e :: d) ++ eq :: u ++ x).
    destruct (firstn_exact (e :: d) (eq :: u ++ x) (1 + length d) eq_refl) as (-> & ->). reflexivity. }
  assert (Tmax : towards_maximum (eq :: u ++ x) = Ok (eq :: u, x)).
  { unfold towards_maximum. rewrite (max_scan_spec (U ++ X) (u ++ x) q eq false 1 z ltac:(apply Forall2_app; assumption) Mq W0 Dq) by congruence.
    assert (Fi : find_if is_down (U ++ X) = length U).
    { destruct Fr as [->|(y & t & -> & Dy)]; [rewrite app_nil_r; apply find_if_none, HU|apply find_if_app; assumption]. }
    rewrite Fi, (Forall2_len _ _ _ FU). change (eq :: u ++ x) with ((eq :: u) ++ x).
    destruct (firstn_exact (eq :: u) x (1 + length u) eq_refl) as (-> & ->). reflexivity. }
  unfold one_minimum. cbn [app]. rewrite <- app_assoc. cbn [app]. rewrite Tmin. cbn [rbind]. rewrite Tmax. cbn [rbind]. clear. unfold finish.
  cbv zeta. destruct (first_non_horizontal (fix_horizontals (eq :: u))) as [kx|]; [|reflexivity].
  destruct (first_non_horizontal (fix_horizontals _)) as [kn|]; [|reflexivity].
  destruct (nth_res (fix_horizontals (eq :: u)) kx) as [emx| |]; cbn [rbind]; [|reflexivity|reflexivity].
  destruct (nth_res (fix_horizontals _) kn) as [emn| |]; cbn [rbind]; [|reflexivity|reflexivity].
  destruct ((0 <? kx)%nat || (0 <? kn)%nat); [destruct (px (ebot emx) >? px (ebot emn)); destruct (move_horizontals _ _) as [? ?]|];
    destruct (nth_res _ 0) as [fr| |]; reflexivity.
Qed.
Lemma fresh_concat CS : Forall chunk CS -> fresh (concat CS).
Proof.
  intros F. destruct CS as [|C CS]; [left; reflexivity|]. right. pose proof (Forall_inv F) as (p & D & q & U & -> & Dp & _).
  cbn [concat app]. eauto.
Qed.
Lemma fresh_app X Y : fresh X -> fresh Y -> fresh (X ++ Y).
Proof. intros [->|(p & t & -> & D)] H; [exact H|]. right. cbn [app]. eauto. Qed.
Lemma cut_split CS : Forall chunk CS -> forall ea X x a z ms, Forall2 made (concat CS) ea -> fresh X -> Forall2 made X x -> walk a (concat CS ++ X) z ->
  cut (ea ++ x) ms -> exists ma mb, ms = ma ++ mb /\ cut ea ma /\ cut x mb.
Proof.
  induction 1 as [|C CS HC HCS IH]; intros ea X x a z ms F Fr FX W H.
  - inversion F; subst. exists [], ms. split; [reflexivity|]. split; [constructor|exact H].
  - cbn [concat] in F, W. destruct (Forall2_app_inv_l _ _ F) as (c & ea' & F1 & F2 & ->). rewrite <- app_assoc in H, W.
    destruct (chunk_one C c HC F1) as (r & Hr).
    pose proof (Hr (concat CS ++ X) (ea' ++ x) a z ltac:(apply fresh_app; [apply fresh_concat, HCS|exact Fr]) ltac:(apply Forall2_app; assumption) W) as E1.
    inversion H as [Q|es m rest ms1 E C1]; subst.
    { exfalso. destruct HC as (p & D & q & U & -> & _). inversion F1; subst. discriminate. }
    rewrite E1 in E. destruct r as [m'| |]; cbn [rbind] in E; try discriminate. injection E as -> <-.
    pose proof W as W1. apply walk_app in W1. destruct W1 as (b & Wc & W2).
    destruct (IH ea' X x b z ms1 F2 Fr FX W2 C1) as (ma & mb & -> & Ca & Cb). exists (m :: ma), mb. split; [reflexivity|]. split; [|exact Cb].
    apply walk_app in W2. destruct W2 as (b2 & W3 & _).
    econstructor; [|exact Ca]. rewrite (Hr (concat CS) ea' a b2 (fresh_concat _ HCS) F2 ltac:(apply walk_app; eauto)). reflexivity.
Qed.
Lemma cut_join CS : Forall chunk CS -> forall ea X x a z ma mb, Forall2 made (concat CS) ea -> fresh X -> Forall2 made X x -> walk a (concat CS ++ X) z ->
  cut ea ma -> cut x mb -> cut (ea ++ x) (ma ++ mb).
Proof.
  induction 1 as [|C CS HC HCS IH]; intros ea X x a z ma mb F Fr FX W Ca Cb.
  - inversion F; subst. inversion Ca as [|? ? ? ? E]; subst; [exact Cb|discriminate].
  - cbn [concat] in F, W. destruct (Forall2_app_inv_l _ _ F) as (c & ea' & F1 & F2 & ->). rewrite <- app_assoc in W |- *.
    destruct (chunk_one C c HC F1) as (r & Hr). pose proof W as W1. apply walk_app in W1. destruct W1 as (b & Wc & W2).
    pose proof W2 as W3. apply walk_app in W3. destruct W3 as (b2 & W3 & _).
    pose proof (Hr (concat CS) ea' a b2 (fresh_concat _ HCS) F2 ltac:(apply walk_app; eauto)) as E1.
    inversion Ca as [Q|es m rest ms1 E C1]; subst.
    { exfalso. destruct HC as (p & D & q & U & -> & _). inversion F1; subst. discriminate. }
    rewrite E1 in E. destruct r as [m'| |]; cbn [rbind] in E; try discriminate. injection E as -> <-. cbn [app].
    econstructor; [|exact (IH ea' X x b z ms1 mb F2 Fr FX W2 C1 Cb)].
    rewrite (Hr (concat CS ++ X) (ea' ++ x) a z ltac:(apply fresh_app; [apply fresh_concat, HCS|exact Fr]) ltac:(apply Forall2_app; assumption) W). reflexivity.
Qed.

(** ** Every ring that starts going down and ends going up consists of chunks *)
Lemma after_down u p t : is_down p = true -> after u (p :: t) = after false (p :: t).
Proof.
  intros D. unfold after. cbn [fold_left]. unfold step at 2 4. assert (is_up p = false) as -> by (dirs; apply Z.ltb_ge; lia). rewrite D. reflexivity.
Qed.
Lemma split_chunks : forall n ps, (length ps <= n)%nat -> down_first ps -> exists CS, Forall chunk CS /\ ps = concat CS.
Proof.
  induction n as [|n IH]; intros ps Ln (p & t & E & Dp & Aft).
  - subst ps. cbn in Ln. lia.
  - subst ps. destruct (find_if_split is_up t) as (Dn & Sk). set (k := find_if is_up t) in *.
    assert (Up : is_up p = false) by (dirs; apply Z.ltb_ge; lia).
    destruct Sk as [(_ & NoUp)|(q & t2 & Sk & Uq)].
    { exfalso. rewrite after_no_up in Aft; [discriminate|]. intros x [<-|I]; auto. }
    destruct (find_if_split is_down t2) as (Un & Sk2). set (k2 := find_if is_down t2) in *.
    assert (Et : p :: t = (p :: firstn k t ++ q :: firstn k2 t2) ++ skipn k2 t2).
    { cbn [app]. rewrite <- app_assoc. cbn [app]. rewrite firstn_skipn, <- Sk, firstn_skipn. reflexivity. }
    assert (Ch : chunk (p :: firstn k t ++ q :: firstn k2 t2)) by (exists p, (firstn k t), q, (firstn k2 t2); auto).
    destruct Sk2 as [(Z & _)|(x & t3 & E3 & Dx)].
    + exists [p :: firstn k t ++ q :: firstn k2 t2]. split; [constructor; [exact Ch|constructor]|]. rewrite Et at 1. rewrite Z. cbn [concat]. reflexivity.
    + rewrite Et, after_app, E3, (after_down _ x t3 Dx) in Aft.
      destruct (IH (skipn k2 t2)) as (CS & HC & EC).
      * rewrite Et, app_length in Ln. cbn [length] in Ln. lia.
      * exists x, t3. rewrite E3. auto.
      * exists ((p :: firstn k t ++ q :: firstn k2 t2) :: CS). split; [constructor; assumption|]. rewrite Et at 1. rewrite EC. reflexivity.
Qed.

(** ** Turning a closed walk *)
Definition zturn (z z' : list (dpair * edge)) : Prop := exists a b, z = a ++ b /\ z' = b ++ a.
Lemma zturn_trans z z' z'' : zturn z z' -> zturn z' z'' -> zturn z z''.
Proof.
  intros (a & b & -> & ->) (c & d & E & ->). destruct (app_eq_app _ _ _ _ E) as (u & [(-> & ->)|(-> & ->)]).
  - exists (a ++ c), u. rewrite <- !app_assoc. auto.
  - exists u, (d ++ b). rewrite <- !app_assoc. auto.
Qed.
Lemma zturn_sym z z' : zturn z z' -> zturn z' z.
Proof. intros (a & b & -> & ->). exists b, a. auto. Qed.
Lemma made_zip ps es : Forall2 made ps es -> exists z, map fst z = ps /\ map snd z = es /\ Forall (fun x => made (fst x) (snd x)) z.
Proof.
  induction 1 as [|p e ps es H _ (z & <- & <- & F)]; [exists []; auto|]. exists ((p, e) :: z). cbn. auto.
Qed.
Lemma zip_made z : Forall (fun x => made (fst x) (snd x)) z <-> Forall2 made (map fst z) (map snd z).
Proof.
  split; [induction 1; cbn; constructor; assumption|]. induction z as [|x z IH]; intros H; cbn in H; [constructor|]. inversion H; subst. constructor; auto.
Qed.
Lemma turn_walk v z z' : zturn z z' -> ring_walk v (map fst z) (map snd z) -> exists w, ring_walk w (map fst z') (map snd z').
Proof.
  intros (a & b & -> & ->) [F W A L]. rewrite map_app in W, A, L. apply walk_app in W. destruct W as (w & W1 & W2). exists w.
  constructor.
  - apply zip_made. apply zip_made in F. apply Forall_app in F. apply Forall_app. tauto.
  - rewrite map_app. apply walk_app. exists v. auto.
  - rewrite map_app. intros d. specialize (A d). destruct (map fst a) as [|x f].
    + rewrite app_nil_r. exact A.
    + destruct (map fst b) as [|y s]; [cbn [app]; rewrite app_nil_r in A; exact A|].
      rewrite last_app_ne in A |- * by discriminate. apply adj_app in A. apply adj_app. destruct A as (A1 & A2).
      rewrite (last_nonempty (x :: f) _ d) in A2 by discriminate. rewrite (last_nonempty (y :: s) _ d) by discriminate. auto.
  - rewrite map_app, app_length. rewrite app_length in L. lia.
Qed.
Lemma start_zip v z : ring_walk v (map fst z) (map snd z) ->
  exists z', zturn z z' /\ map snd z' = start_on_local_maximum (map snd z) /\ down_first (map fst z').
Proof.
  set (ps := map fst z). set (es := map snd z). intros [F W A L]. unfold start_on_local_maximum. rewrite <- (Forall2_len _ _ _ F).
  replace (2 <? length ps)%nat with true by (symmetry; apply Nat.ltb_lt; lia).
  set (d := (v, v) : dpair).
  assert (Ex : exists ps' q es' e, ps = ps' ++ [q] /\ es = es' ++ [e] /\ made q e).
  { clearbody ps es. destruct (list_rev_ind_case ps) as [->|(ps' & q & ->)]; [cbn in L; lia|].
    apply Forall2_app_inv_l in F. destruct F as (es' & e' & F1 & F2 & ->).
    inversion F2 as [|x y l1 l2 M F3]; subst. inversion F3; subst. eauto 10. }
  destruct Ex as (ps0 & q & es0 & e & Ep & Ee & Mq).
  assert (Lq : last ps d = q) by (rewrite Ep; apply last_last).
  assert (Wq : snd q = v).
  { rewrite Ep in W. apply walk_app in W. destruct W as (c & _ & W). cbn in W. apply W. }
  assert (K : local_maximum_index es = peak_index (is_up q) ps).
  { unfold local_maximum_index. rewrite Ee at 1. rewrite last_opt_app.
    rewrite (local_max_scan_spec ps es q e false 0 v (is_up q)); auto.
    - rewrite Wq. exact W.
    - rewrite <- Lq. apply A.
    - intros D. dirs. apply Z.ltb_ge. lia.
    - intros D. symmetry. dirs. apply Z.ltb_ge. lia.
    - discriminate. }
  destruct (peak_rotation ps v d W (A d) ltac:(lia)) as (Hk & Hd). rewrite Lq, <- K in Hk, Hd.
  set (k := local_maximum_index es) in *. clearbody k.
  rewrite (rotate_skip es k) by (rewrite <- (Forall2_len _ _ _ F); exact Hk).
  exists (skipn k z ++ firstn k z). split; [exists (firstn k z), (skipn k z); rewrite firstn_skipn; auto|].
  rewrite !map_app, <- !skipn_map, <- !firstn_map. auto.
Qed.

(** ** The minima follow the turn *)
Lemma cut_turns v w z z' ms : zturn z z' -> ring_walk v (map fst z) (map snd z) -> ring_walk w (map fst z') (map snd z') ->
  down_first (map fst z) -> down_first (map fst z') ->
  cut (map snd z) ms -> exists x y, ms = x ++ y /\ cut (map snd z') (y ++ x).
Proof.
  intros (a & b & -> & ->) [F W _ _] [F' W' _ _] D D' C. rewrite map_app in W, W', D, D', C. rewrite (map_app snd b a).
  apply zip_made in F. apply Forall_app in F. destruct F as (Fa & Fb). apply zip_made in Fa, Fb. clear F'.
  destruct (map fst a) as [|pa ta] eqn:Ea.
  { apply map_eq_nil in Ea. subst a. cbn [map app] in *. rewrite app_nil_r. exists [], ms. rewrite app_nil_r. auto. }
  destruct (map fst b) as [|pb tb] eqn:Eb.
  { apply map_eq_nil in Eb. subst b. cbn [map app] in *. rewrite app_nil_r in C. exists [], ms. rewrite app_nil_r. auto. }
  destruct D as (p & t & E & Dp & Aft). cbn [app] in E. injection E as -> _.
  destruct D' as (p' & t' & E & Dp' & Aft'). cbn [app] in E. injection E as -> _.
  rewrite after_app, (after_down _ p' tb Dp') in Aft. rewrite after_app, (after_down _ p ta Dp) in Aft'.
  destruct (split_chunks _ (p :: ta) (Nat.le_refl _)) as (CSa & HA & QA); [exists p, ta; auto|].
  destruct (split_chunks _ (p' :: tb) (Nat.le_refl _)) as (CSb & HB & QB); [exists p', tb; auto|].
  assert (Fra : fresh (p :: ta)) by (right; eauto). assert (Frb : fresh (p' :: tb)) by (right; eauto).
  rewrite QA in Fa, W at 1. destruct (cut_split CSa HA _ _ _ _ _ _ Fa Frb Fb W C) as (ma & mb & -> & Ca & Cb).
  rewrite <- QA in Fa. rewrite QB in Fb, W' at 1. pose proof (cut_join CSb HB _ _ _ _ _ _ _ Fb Fra Fa W' Cb Ca) as C2.
  exists ma, mb. auto.
Qed.
Lemma cut_start_turns v ps ea eb ms : ring_walk v ps (ea ++ eb) ->
  cut (start_on_local_maximum (ea ++ eb)) ms -> exists x y, ms = x ++ y /\ cut (start_on_local_maximum (eb ++ ea)) (y ++ x).
Proof.
  intros Rw C. destruct (made_zip ps (ea ++ eb) (rw_made _ _ _ Rw)) as (z & <- & Es & _).
  apply map_eq_app in Es. destruct Es as (za & zb & -> & <- & <-).
  rewrite <- map_app in Rw, C. rewrite <- map_app.
  assert (T : zturn (za ++ zb) (zb ++ za)) by (exists za, zb; auto).
  destruct (turn_walk _ _ _ T Rw) as (w & Rw').
  destruct (start_zip _ _ Rw) as (z1 & T1 & E1 & D1). destruct (start_zip _ _ Rw') as (z2 & T2 & E2 & D2).
  rewrite <- E1 in C. rewrite <- E2.
  destruct (turn_walk _ _ _ T1 Rw) as (w1 & R1). destruct (turn_walk _ _ _ T2 Rw') as (w2 & R2).
  assert (T12 : zturn z1 z2) by (eapply zturn_trans; [apply zturn_sym, T1|]; eapply zturn_trans; [exact T|exact T2]).
  exact (cut_turns _ _ _ _ _ T12 R1 R2 D1 D2 C).
Qed.
Lemma cut_start_turn v ps ea eb ms ms' : ring_walk v ps (ea ++ eb) ->
  cut (start_on_local_maximum (ea ++ eb)) ms -> cut (start_on_local_maximum (eb ++ ea)) ms' ->
  exists x y, ms = x ++ y /\ ms' = y ++ x.
Proof.
  intros Rw C C'. destruct (cut_start_turns v ps ea eb ms Rw C) as (x & y & -> & C2). exists x, y. split; [reflexivity|]. exact (cut_det _ _ C' _ C2).
Qed.
