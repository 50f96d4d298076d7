(** * Scaling and moving a ring scales and moves its edges and minima *)
From Coq Require Import ZArith List Bool Lia.
From Verif Require Import Py Monad Utils Geometry LinearRingM BoundM LocalMinimumM SpecRing SpecReduce
     FloatP MiscP ListP ScanP LinearRingP LinearRing2P RingEdgesP MinimaP AddRingP ReduceP ShapeP TurnMinP ReverseRingP.
Import ListNotations.
Open Scope Z_scope.

(** the map: larger by the factor [k], then moved by [v] *)
Definition move (k : Z) (v p : point) : point := Pt (k * px p + px v) (k * py p + py v).
Definition move_edge (k : Z) (v : point) (e : edge) : edge := Edge (move k v (etop e)) (move k v (ebot e)) (eslope e).
Section Placed.
Context (k : Z) (Pk : 0 < k).
Lemma ltb_add a b c : (k * a + c <? k * b + c) = (a <? b).
Proof. destruct (Z.ltb_spec (k * a + c) (k * b + c)), (Z.ltb_spec a b); try reflexivity; nia. Qed.
Lemma gtb_add a b c : (k * a + c >? k * b + c) = (a >? b).
Proof. rewrite !Z.gtb_ltb. apply ltb_add. Qed.
Lemma eqb_add a b c : (k * a + c =? k * b + c) = (a =? b).
Proof. destruct (Z.eqb_spec (k * a + c) (k * b + c)), (Z.eqb_spec a b); try reflexivity; nia. Qed.
Lemma truediv_scale a b : b <> 0 -> int_truediv (k * a) (k * b) = int_truediv a b.
Proof.
  intros N. apply truediv_ratio; [nia|exact N| |ring]. destruct (Z.ltb_spec (k * b) 0), (Z.ltb_spec b 0); try reflexivity; nia.
Qed.
Lemma mk_edge_move v a b e : mk_edge a b = Ok e -> mk_edge (move k v a) (move k v b) = Ok (move_edge k v e).
Proof.
  unfold mk_edge. change (py (move k v a)) with (k * py a + py v). change (py (move k v b)) with (k * py b + py v). rewrite ltb_add.
  assert (G : forall t u, (let dy := py t - py u in if dy =? 0 then Ok (Edge t u f_inf) else (s <- int_truediv (px t - px u) dy ;; Ok (Edge t u s))%res) = Ok e ->
     (let dy := py (move k v t) - py (move k v u) in if dy =? 0 then Ok (Edge (move k v t) (move k v u) f_inf) else (s <- int_truediv (px (move k v t) - px (move k v u)) dy ;; Ok (Edge (move k v t) (move k v u) s))%res) = Ok (move_edge k v e)).
  { intros t u. cbv zeta. change (py (move k v t)) with (k * py t + py v). change (py (move k v u)) with (k * py u + py v).
    change (px (move k v t)) with (k * px t + px v). change (px (move k v u)) with (k * px u + px v).
    replace (k * py t + py v - (k * py u + py v)) with (k * (py t - py u)) by ring. replace (k * px t + px v - (k * px u + px v)) with (k * (px t - px u)) by ring.
    destruct (Z.eqb_spec (py t - py u) 0) as [Q|Q].
    - rewrite Q, Z.mul_0_r. cbn [Z.eqb]. intros [= <-]. reflexivity.
    - destruct (Z.eqb_spec (k * (py t - py u)) 0) as [Q'|_]; [nia|]. rewrite truediv_scale by exact Q.
      destruct (int_truediv _ _); cbn [rbind]; try discriminate. intros [= <-]. reflexivity. }
  destruct (py a <? py b); cbv beta iota zeta; apply G.
Qed.
(** ** Shapes *)
Lemma on_line_move v a b c : on_line a b c -> on_line (move k v a) (move k v b) (move k v c).
Proof. unfold on_line, move. cbn [px py]. intros H. replace (k * px b + px v - (k * px a + px v)) with (k * (px b - px a)) by ring.
  replace (k * py c + py v - (k * py a + py v)) with (k * (py c - py a)) by ring. replace (k * py b + py v - (k * py a + py v)) with (k * (py b - py a)) by ring.
  replace (k * px c + px v - (k * px a + px v)) with (k * (px c - px a)) by ring.
  transitivity (k * k * ((px b - px a) * (py c - py a))); [ring|]. rewrite H. ring. Qed.
Lemma on_line_unmove v a b c : on_line (move k v a) (move k v b) (move k v c) -> on_line a b c.
Proof. unfold on_line, move. cbn [px py]. replace (k * px b + px v - (k * px a + px v)) with (k * (px b - px a)) by ring.
  replace (k * py c + py v - (k * py a + py v)) with (k * (py c - py a)) by ring. replace (k * py b + py v - (k * py a + py v)) with (k * (py b - py a)) by ring.
  replace (k * px c + px v - (k * px a + px v)) with (k * (px c - px a)) by ring. intros H.
  apply (Z.mul_reg_l _ _ (k * k)); [nia|]. transitivity (k * (px b - px a) * (k * (py c - py a))); [ring|]. rewrite H. ring. Qed.
Lemma last_map {A B} (f : A -> B) l d : last (map f l) (f d) = f (last l d).
Proof. induction l as [|x [|y l] IH]; [reflexivity|reflexivity|]. exact IH. Qed.
Lemma hd_map {A B} (f : A -> B) l d : hd (f d) (map f l) = f (hd d l).
Proof. destruct l; reflexivity. Qed.
Lemma shape_move v l l' : same_shape l l' -> same_shape (map (move k v) l) (map (move k v) l').
Proof.
  induction 1 as [a b|p t L|l l' _ IH|l l' l'' _ IH1 _ IH2].
  - rewrite !map_app. apply shape_start.
  - cbn [map]. apply shape_drop. rewrite last_map, hd_map. apply on_line_move, L.
  - apply shape_back, IH.
  - eapply shape_chain; eassumption.
Qed.
Lemma turned_move v l l' : turned l l' -> turned (map (move k v) l) (map (move k v) l').
Proof. intros (a & b & -> & ->). rewrite !map_app. apply turned_app. Qed.
Lemma normal_move v l : normal l -> normal (map (move k v) l).
Proof.
  intros N l' (p & t & (a & b & E & E') & L & C). apply map_eq_app in E. destruct E as (a0 & b0 & -> & <- & <-).
  rewrite <- map_app in E'. symmetry in E'. apply map_eq_cons in E'. destruct E' as (p0 & t0 & E' & <- & <-).
  apply (N t0). exists p0, t0. split; [exists a0, b0; auto|]. split; [|apply turned_refl].
  unfold loose in *. rewrite last_map, hd_map in L. apply on_line_unmove in L. exact L.
Qed.
Lemma pairs_move v l : pairs (map (move k v) l) = map (fun p => (move k v (fst p), move k v (snd p))) (pairs l).
Proof. induction l as [|a [|b l] IH]; [reflexivity|reflexivity|]. cbn [map] in *. rewrite !pairs_cons. cbn [map fst snd]. f_equal. exact IH. Qed.
Lemma cyclic_pairs_move v l : cyclic_pairs (map (move k v) l) = map (fun p => (move k v (fst p), move k v (snd p))) (cyclic_pairs l).
Proof. destruct l as [|a l]; [reflexivity|]. unfold cyclic_pairs. cbn [map]. rewrite <- pairs_move. cbn [map app]. rewrite map_app. reflexivity. Qed.
Lemma edges_move v ps es : edges_of ps es -> edges_of (map (fun p => (move k v (fst p), move k v (snd p))) ps) (map (move_edge k v) es).
Proof. induction 1 as [|p e ps es H _ IH]; cbn [map]; constructor; [|exact IH]. cbn [fst snd]. apply mk_edge_move, H. Qed.
Lemma edges_moved v r r' es es' : same_shape (map (move k v) r) r' -> linear_ring_edges r = Ok es -> linear_ring_edges r' = Ok es' ->
  exists a b, es = a ++ b /\ es' = map (move_edge k v) (b ++ a).
Proof.
  intros Sh E E'. destruct (edges_steps r es E) as [(-> & St)|(vs & G & St)].
  - apply steps_shape in St. assert (Q : same_shape r' []).
    { eapply shape_chain; [apply shape_back, Sh|]. change (@nil point) with (map (move k v) (@nil point)). apply shape_move, St. }
    destruct (edges_shape r' [] es' [] Q E' eq_refl) as (a & b & -> & Z). symmetry in Z. apply app_eq_nil in Z. destruct Z as (-> & ->).
    exists [], []. auto.
  - destruct G as (L & F & _ & T & _). pose proof (ring_normal _ L T) as N. apply steps_shape in St.
    assert (Shr : same_shape (map (move k v) vs) r').
    { eapply shape_chain; [apply shape_back, shape_move, St|exact Sh]. }
    destruct (edges_steps r' es' E') as [(-> & St')|(vs' & G' & St')].
    { exfalso. pose proof (shape_normal _ _ Shr _ _ (steps_refl _) (normal_move v _ N) St' nil_normal) as Q.
      apply turned_length in Q. rewrite map_length in Q. cbn in Q. lia. }
    destruct G' as (L' & F' & _ & T' & _).
    pose proof (shape_normal _ _ Shr _ _ (steps_refl _) (normal_move v _ N) St' (ring_normal _ L' T')) as Q.
    apply (edges_move v) in F. rewrite <- cyclic_pairs_move in F.
    destruct (edges_turned _ _ _ _ Q F F') as (x & y & Ex & ->).
    apply map_eq_app in Ex. destruct Ex as (a & b & -> & <- & <-). exists a, b. rewrite map_app. auto.
Qed.

(** ** Minima *)
Section Moved.
Context (v : point).
Notation mv := (move k v).
Notation me := (move_edge k v).
Lemma eqb_move a b : point_eqb (mv a) (mv b) = point_eqb a b.
Proof. unfold point_eqb, move. cbn [px py]. rewrite !eqb_add. reflexivity. Qed.
Lemma hor_move e : is_horizontal (me e) = is_horizontal e.
Proof. reflexivity. Qed.
Lemma reverse_move e : reverse_horizontal (me e) = me (reverse_horizontal e).
Proof. reflexivity. Qed.
Lemma rih_move e : reverse_if_horizontal (me e) = me (reverse_if_horizontal e).
Proof. unfold reverse_if_horizontal. rewrite hor_move. destruct (is_horizontal e); reflexivity. Qed.
Ltac ends := repeat (change (etop (me ?x)) with (mv (etop x))); repeat (change (ebot (me ?x)) with (mv (ebot x))).
Lemma top_move e : etop (me e) = mv (etop e). Proof. reflexivity. Qed.
Lemma bot_move e : ebot (me e) = mv (ebot e). Proof. reflexivity. Qed.
Lemma max_scan_move : forall l e h y i, max_scan (me e) h y (map me l) i = max_scan e h y l i.
Proof. induction l as [|n l IH]; intros; [reflexivity|]. cbn [map max_scan]. rewrite !top_move, !bot_move, !eqb_move, !hor_move, !IH. reflexivity. Qed.
Lemma min_scan_move : forall l e h y i, min_scan (me e) h y (map me l) i = min_scan e h y l i.
Proof. induction l as [|n l IH]; intros; [reflexivity|]. cbn [map min_scan]. rewrite !top_move, !bot_move, !eqb_move, !hor_move, !rih_move, !IH. reflexivity. Qed.
Lemma local_max_move : forall l e h y i, local_max_scan (me e) h y (map me l) i = local_max_scan e h y l i.
Proof. induction l as [|n l IH]; intros; [reflexivity|]. cbn [map local_max_scan]. rewrite !top_move, !bot_move, !eqb_move, !hor_move, !IH. reflexivity. Qed.
Lemma last_opt_map {A B} (f : A -> B) l : last_opt (map f l) = option_map f (last_opt l).
Proof. unfold last_opt. rewrite <- map_rev. destruct (rev l); reflexivity. Qed.
Lemma rotate_map {A B} (f : A -> B) l j : rotate_sequence (map f l) j = map f (rotate_sequence l j).
Proof.
  unfold rotate_sequence. rewrite map_length. destruct ((0 <? Z.abs j) && _); [|reflexivity].
  cbv zeta. rewrite skipn_map, firstn_map, map_app. reflexivity.
Qed.
Lemma start_move l : start_on_local_maximum (map me l) = map me (start_on_local_maximum l).
Proof.
  unfold start_on_local_maximum. rewrite map_length. destruct (2 <? length l)%nat; [|reflexivity].
  assert (Q : local_maximum_index (map me l) = local_maximum_index l).
  { unfold local_maximum_index. rewrite last_opt_map. destruct (last_opt l) as [p|]; [|reflexivity]. cbn [option_map]. rewrite hor_move. apply local_max_move. }
  rewrite Q. apply rotate_map.
Qed.
Lemma find_if_move l : find_if (fun e => negb (is_horizontal e)) (map me l) = find_if (fun e => negb (is_horizontal e)) l.
Proof. induction l as [|x l IH]; [reflexivity|]. cbn [map find_if]. rewrite hor_move, IH. reflexivity. Qed.
Lemma map_rih l : map reverse_if_horizontal (map me l) = map me (map reverse_if_horizontal l).
Proof. rewrite !map_map. apply map_ext. exact rih_move. Qed.
Definition rmap {A B} (f : A -> B) (r : res A) : res B := match r with Ok a => Ok (f a) | Raise e => Raise e | NoFuel => NoFuel end.
Definition two (x : list edge * list edge) := (map me (fst x), map me (snd x)).
Lemma towards_max_move l : towards_maximum (map me l) = rmap two (towards_maximum l).
Proof.
  destruct l as [|e l]; [reflexivity|]. unfold towards_maximum. cbn [map]. rewrite hor_move, max_scan_move. cbn [rmap two fst snd].
  unfold two. cbn [fst snd]. change (me e :: map me l) with (map me (e :: l)). rewrite firstn_map, skipn_map. reflexivity.
Qed.
Lemma towards_min_move l : towards_minimum (map me l) = rmap two (towards_minimum l).
Proof.
  destruct l as [|e l]; [reflexivity|]. unfold towards_minimum. cbn [map]. rewrite hor_move, rih_move, min_scan_move. cbn [rmap].
  unfold two. cbn [fst snd]. change (me e :: map me l) with (map me (e :: l)). rewrite firstn_map, skipn_map, map_rih, map_rev. reflexivity.
Qed.
Lemma fix_from_move : forall l e, fix_from (me e) (map me l) = map me (fix_from e l).
Proof.
  induction l as [|n l IH]; intros e; [reflexivity|]. cbn [map fix_from]. cbv zeta. rewrite top_move, bot_move, eqb_move, hor_move.
  destruct (is_horizontal n && _); [rewrite reverse_move|]; rewrite IH; reflexivity.
Qed.
Lemma fix_move l : fix_horizontals (map me l) = map me (fix_horizontals l).
Proof.
  destruct l as [|e [|n l]]; [reflexivity|reflexivity|]. unfold fix_horizontals. cbn [map]. cbv zeta. rewrite top_move, bot_move, eqb_move, hor_move.
  change (me n :: map me l) with (map me (n :: l)).
  destruct (is_horizontal e && _); [rewrite reverse_move|]; rewrite fix_from_move; reflexivity.
Qed.
Lemma first_non_move l : first_non_horizontal (map me l) = first_non_horizontal l.
Proof. unfold first_non_horizontal. rewrite find_if_move, map_length. reflexivity. Qed.
Lemma nth_res_map {A B} (f : A -> B) l j : nth_res (map f l) j = rmap f (nth_res l j).
Proof. unfold nth_res. rewrite nth_error_map. destruct (nth_error l j); reflexivity. Qed.
Lemma move_horizontals_move l o : move_horizontals (map me l) (map me o) = two (move_horizontals l o).
Proof.
  unfold move_horizontals, leading_horizontals. cbv zeta. rewrite find_if_move. destruct (_ =? 0)%nat; [reflexivity|]. unfold two. cbn [fst snd].
  rewrite <- rotate_map, map_app, map_rev, skipn_map, firstn_map, !map_map. reflexivity.
Qed.
Definition move_min (m : minimum_spec) : minimum_spec := MS (map me (ms_min m)) (map me (ms_max m)) (ms_min_left m) (ms_hor m) (k * ms_y m + py v).
Lemma one_move l : one_minimum (map me l) = rmap (fun x => (move_min (fst x), map me (snd x))) (one_minimum l).
Proof.
  unfold one_minimum. rewrite towards_min_move. destruct (towards_minimum l) as [[mn rest]| |]; cbn [rmap rbind two fst snd]; [|reflexivity|reflexivity].
  try (unfold two at 1). cbn [fst snd]. destruct rest as [|e rest]; [reflexivity|]. cbn [map]. change (me e :: map me rest) with (map me (e :: rest)). rewrite towards_max_move.
  destruct (towards_maximum (e :: rest)) as [[mx rest']| |]; cbn [rmap rbind]; [|reflexivity|reflexivity]. try (unfold two at 1). cbn [fst snd]. cbv zeta.
  rewrite !fix_move, !first_non_move. destruct (first_non_horizontal (fix_horizontals mx)) as [kx|]; [|reflexivity].
  destruct (first_non_horizontal (fix_horizontals mn)) as [kn|]; [|reflexivity]. rewrite !nth_res_map.
  destruct (nth_res (fix_horizontals mx) kx) as [emx| |]; cbn [rmap rbind]; [|reflexivity|reflexivity].
  destruct (nth_res (fix_horizontals mn) kn) as [emn| |]; cbn [rmap rbind]; [|reflexivity|reflexivity].
  rewrite !bot_move. change (px (mv (ebot emx))) with (k * px (ebot emx) + px v). change (px (mv (ebot emn))) with (k * px (ebot emn) + px v). rewrite gtb_add.
  destruct ((0 <? kx)%nat || (0 <? kn)%nat).
  - destruct (px (ebot emx) >? px (ebot emn)); rewrite move_horizontals_move; destruct (move_horizontals _ _) as [x y]; unfold two; cbn [fst snd];
      rewrite nth_res_map; destruct (nth_res _ 0); reflexivity.
  - change (eslope (me emx)) with (eslope emx). change (eslope (me emn)) with (eslope emn). rewrite nth_res_map. destruct (nth_res _ 0); reflexivity.
Qed.
Lemma cut_move es ms : cut es ms -> cut (map me es) (map move_min ms).
Proof.
  induction 1 as [|es m rest ms E _ IH]; [constructor|]. cbn [map]. econstructor; [|exact IH]. rewrite one_move, E. reflexivity.
Qed.
End Moved.
Lemma cut_moved v r es ea eb ms ms' : linear_ring_edges r = Ok es -> es = ea ++ eb -> cut (start_on_local_maximum es) ms ->
  cut (start_on_local_maximum (map (move_edge k v) (eb ++ ea))) ms' -> exists x y, ms = x ++ y /\ ms' = map (move_min v) (y ++ x).
Proof.
  intros E -> C C'. rewrite start_move in C'.
  destruct (edges_steps r _ E) as [(Z & _)|(vs & G & _)].
  - apply app_eq_nil in Z. destruct Z as (-> & ->). exists [], ms. rewrite app_nil_r. split; [reflexivity|]. exact (cut_det _ _ C' _ (cut_move v _ _ C)).
  - destruct (good_ring_walk _ _ _ G) as (w & ps & Rw). destruct (cut_start_turns w ps ea eb _ Rw C) as (x & y & -> & C2).
    exists x, y. split; [reflexivity|]. exact (cut_det _ _ C' _ (cut_move v _ _ C2)).
Qed.

(** ** The edges of the image itself: the same program, step by step *)
Section Exact.
Context (v : point).
Notation mv := (move k v).
Notation me := (move_edge k v).
Lemma mk_edge_image a b : mk_edge (mv a) (mv b) = rmap me (mk_edge a b).
Proof.
  destruct (mk_edge a b) as [e|x|] eqn:E; cbn [rmap].
  - apply mk_edge_move, E.
  - revert E. unfold mk_edge. change (py (mv a)) with (k * py a + py v). change (py (mv b)) with (k * py b + py v). rewrite ltb_add.
    assert (G : forall t u, (let dy := py t - py u in if dy =? 0 then Ok (Edge t u f_inf) else (s <- int_truediv (px t - px u) dy ;; Ok (Edge t u s))%res) = Raise x ->
     (let dy := py (mv t) - py (mv u) in if dy =? 0 then Ok (Edge (mv t) (mv u) f_inf) else (s <- int_truediv (px (mv t) - px (mv u)) dy ;; Ok (Edge (mv t) (mv u) s))%res) = Raise x).
    { intros t u. cbv zeta. change (py (mv t)) with (k * py t + py v). change (py (mv u)) with (k * py u + py v).
      change (px (mv t)) with (k * px t + px v). change (px (mv u)) with (k * px u + px v).
      replace (k * py t + py v - (k * py u + py v)) with (k * (py t - py u)) by ring. replace (k * px t + px v - (k * px u + px v)) with (k * (px t - px u)) by ring.
      destruct (Z.eqb_spec (py t - py u) 0) as [Q|Q]; [discriminate|].
      destruct (Z.eqb_spec (k * (py t - py u)) 0) as [Q'|_]; [nia|]. rewrite truediv_scale by exact Q.
      destruct (int_truediv _ _); cbn [rbind]; try discriminate. intros [= <-]. reflexivity. }
    destruct (py a <? py b); cbv beta iota zeta; apply G.
  - revert E. unfold mk_edge. change (py (mv a)) with (k * py a + py v). change (py (mv b)) with (k * py b + py v). rewrite ltb_add.
    assert (G : forall t u, (let dy := py t - py u in if dy =? 0 then Ok (Edge t u f_inf) else (s <- int_truediv (px t - px u) dy ;; Ok (Edge t u s))%res) = NoFuel ->
     (let dy := py (mv t) - py (mv u) in if dy =? 0 then Ok (Edge (mv t) (mv u) f_inf) else (s <- int_truediv (px (mv t) - px (mv u)) dy ;; Ok (Edge (mv t) (mv u) s))%res) = NoFuel).
    { intros t u. cbv zeta. change (py (mv t)) with (k * py t + py v). change (py (mv u)) with (k * py u + py v).
      change (px (mv t)) with (k * px t + px v). change (px (mv u)) with (k * px u + px v).
      replace (k * py t + py v - (k * py u + py v)) with (k * (py t - py u)) by ring. replace (k * px t + px v - (k * px u + px v)) with (k * (px t - px u)) by ring.
      destruct (Z.eqb_spec (py t - py u) 0) as [Q|Q]; [discriminate|].
      destruct (Z.eqb_spec (k * (py t - py u)) 0) as [Q'|_]; [nia|]. rewrite truediv_scale by exact Q.
      destruct (int_truediv _ _); cbn [rbind]; try discriminate. intros _. reflexivity. }
    destruct (py a <? py b); cbv beta iota zeta; apply G.
Qed.
Lemma slopes_image a b c : points_slopes_equal (mv a) (mv b) (mv c) = points_slopes_equal a b c.
Proof.
  unfold points_slopes_equal, move. cbn [px py].
  match goal with |- (?l =? ?r) = (?l' =? ?r') => destruct (Z.eqb_spec l r) as [Q|Q], (Z.eqb_spec l' r') as [Q'|Q']; try reflexivity; exfalso;
    assert (H1 : l = k * k * l') by ring; assert (H2 : r = k * k * r') by ring end.
  - apply Q'. rewrite H1, H2 in Q. apply Z.mul_reg_l in Q; [exact Q|nia].
  - apply Q. rewrite H1, H2, Q'. reflexivity.
Qed.
Lemma edges_slopes_image a b : edges_slopes_equal (me a) (me b) = edges_slopes_equal a b.
Proof.
  unfold edges_slopes_equal, move_edge, move. cbn [px py etop ebot].
  match goal with |- (?l =? ?r) = (?l' =? ?r') => destruct (Z.eqb_spec l r) as [Q|Q], (Z.eqb_spec l' r') as [Q'|Q']; try reflexivity; exfalso;
    assert (H1 : l = k * k * l') by ring; assert (H2 : r = k * k * r') by ring end.
  - apply Q'. rewrite H1, H2 in Q. apply Z.mul_reg_l in Q; [exact Q|nia].
  - apply Q. rewrite H1, H2, Q'. reflexivity.
Qed.
Lemma between_image a b c : point_between (mv a) (mv b) (mv c) = point_between a b c.
Proof.
  unfold point_between. rewrite !eqb_move. unfold move. cbn [px py]. rewrite !eqb_add, !gtb_add, !ltb_add. reflexivity.
Qed.
Lemma py_nth_map {A B} (f : A -> B) l i : py_nth (map f l) i = rmap f (py_nth l i).
Proof.
  unfold py_nth, py_index. rewrite map_length. cbv zeta.
  match goal with |- match ?x with _ => _ end = _ => destruct x as [j|] end; [|reflexivity].
  rewrite nth_error_map. destruct (nth_error l j); reflexivity.
Qed.
Lemma removelast_map {A B} (f : A -> B) l : removelast (map f l) = map f (removelast l).
Proof. induction l as [|a [|b l] IH]; [reflexivity|reflexivity|]. cbn [map] in *. change (removelast (f a :: f b :: map f l)) with (f a :: removelast (f b :: map f l)). rewrite IH. reflexivity. Qed.
Lemma skip_back_image : forall n pts p2 ri p1, skip_back n (map mv pts) (mv p2) ri (mv p1) =
  rmap (option_map (fun x => (fst x, mv (snd x)))) (skip_back n pts p2 ri p1).
Proof.
  induction n as [|n IH]; intros; [reflexivity|]. cbn [skip_back]. cbv zeta. rewrite eqb_move, py_nth_map.
  destruct (point_eqb p1 p2); [|reflexivity]. destruct (py_nth pts (ri - 1)); cbn [rmap]; [apply IH|reflexivity|reflexivity].
Qed.
Lemma skip_back2_image : forall n pts p2 ix ri, skip_back2 n (map mv pts) (mv p2) ix ri = skip_back2 n pts p2 ix ri.
Proof.
  induction n as [|n IH]; intros; [reflexivity|]. cbn [skip_back2]. cbv zeta. rewrite py_nth_map.
  destruct (py_nth pts ri); cbn [rmap]; [|reflexivity|reflexivity]. rewrite eqb_move. destruct (point_eqb _ _); [|reflexivity].
  destruct (ix =? ri - 1); [reflexivity|apply IH].
Qed.
Lemma next_image pts ix lri front out : lr_next_pt3 (map mv pts) ix lri (option_map mv front) (map me out) = rmap (option_map mv) (lr_next_pt3 pts ix lri front out).
Proof.
  unfold lr_next_pt3. destruct (ix =? lri).
  - destruct out; [reflexivity|]. destruct front; reflexivity.
  - rewrite py_nth_map. destruct (py_nth pts ix); reflexivity.
Qed.
Definition image (s : lr_state) : lr_state :=
  let 'LR i ri lri a b c front back out := s in LR i ri lri (mv a) (mv b) (mv c) (option_map mv front) (option_map mv back) (map me out).
Definition outcome (x : lr_state + (list edge * bool)) : lr_state + (list edge * bool) :=
  match x with inl s => inl (image s) | inr (out, go) => inr (map me out, go) end.
Lemma map_snoc {A B} (f : A -> B) l a : map f l ++ [f a] = map f (l ++ [a]).
Proof. rewrite map_app. reflexivity. Qed.
Lemma body_image pts s : lr_body (map mv pts) (image s) = rmap outcome (lr_body pts s).
Proof.
  destruct s as [i ri lri a b c front back out]. cbn [image lr_body]. cbv zeta. rewrite eqb_move, slopes_image, map_length.
  destruct (point_eqb b c).
  - destruct (i =? lri); [reflexivity|]. rewrite next_image. destruct (lr_next_pt3 pts (i + 1) lri front out) as [[p|]| |]; reflexivity.
  - destruct (points_slopes_equal a b c).
    + rewrite removelast_map, last_opt_map. destruct (last_opt (removelast out)) as [e|]; cbn [option_map].
      * destruct back as [bp|]; cbn [option_map]; [|reflexivity]. rewrite top_move, bot_move.
        change ((px (mv bp) =? px (mv (etop e))) && (py (mv bp) =? py (mv (etop e)))) with (point_eqb (mv bp) (mv (etop e))). rewrite eqb_move.
        unfold point_eqb. destruct ((px bp =? px (etop e)) && (py bp =? py (etop e))); reflexivity.
      * rewrite skip_back2_image. destruct (skip_back2 _ pts a i ri) as [[ri'|]| |]; [|reflexivity|reflexivity|reflexivity].
        rewrite py_nth_map. destruct (py_nth pts ri'); reflexivity.
    + rewrite mk_edge_image. destruct (mk_edge b c) as [e| |]; cbn [rmap]; [|reflexivity|reflexivity].
      rewrite map_snoc. destruct (i =? lri).
      * reflexivity.
      * assert (Qf : (match map me out with [] => Some (mv b) | _ => option_map mv front end) = option_map mv (match out with [] => Some b | _ => front end)) by (destruct out; reflexivity).
        rewrite Qf, next_image. destruct (lr_next_pt3 pts (i + 1) lri _ (out ++ [e])) as [[p|]| |]; reflexivity.
Qed.
Lemma loop_image pts : forall n s, loopR n (lr_body (map mv pts)) (image s) = rmap (fun x => (map me (fst x), snd x)) (loopR n (lr_body pts) s).
Proof.
  induction n as [|n IH]; intros; [reflexivity|]. cbn [loopR]. rewrite body_image.
  destruct (lr_body pts s) as [[s'|[out go]]| |]; cbn [rmap rbind outcome]; [apply IH|reflexivity|reflexivity|reflexivity].
Qed.
Lemma merge_image f mid b : lr_merge (me f) (map me mid) (me b) = option_map (map me) (lr_merge f mid b).
Proof.
  unfold lr_merge. rewrite edges_slopes_image, !top_move, !bot_move, !eqb_move, !between_image.
  repeat match goal with |- (if ?x then _ else _) = option_map _ (if ?x then _ else _) => destruct x end; try reflexivity;
    cbn [option_map]; rewrite map_app; reflexivity.
Qed.
Lemma simplify_image : forall n l, lr_simplify n (map me l) = map me (lr_simplify n l).
Proof.
  induction n as [|n IH]; intros; [reflexivity|]. destruct l as [|f [|g [|h l]]]; [reflexivity|reflexivity|reflexivity|].
  cbn [lr_simplify map]. change (me g :: me h :: map me l) with (map me (g :: h :: l)). rewrite last_opt_map.
  destruct (last_opt (g :: h :: l)) as [b|]; cbn [option_map]; [|reflexivity].
  rewrite removelast_map, merge_image. destruct (lr_merge f _ b) as [r|]; cbn [option_map]; [apply IH|reflexivity].
Qed.
Lemma edges_image pts : linear_ring_edges (map mv pts) = rmap (map me) (linear_ring_edges pts).
Proof.
  destruct pts as [|p0 [|p1 [|p2 pts]]]; [reflexivity|reflexivity|reflexivity|].
  remember (p0 :: p1 :: p2 :: pts) as l eqn:El.
  assert (Q : linear_ring_edges (map mv l) = (let n := Z.of_nat (length (map mv l)) in
      (lst <- py_nth (map mv l) (n - 1) ;; start <- skip_back (S (2 * length (map mv l))) (map mv l) (mv p0) (n - 1) lst ;;
       match start with None => Ok [] | Some (ri, pt1) =>
           r <- loopR (lr_fuel (map mv l)) (lr_body (map mv l)) (LR 1 ri (ri + 1) pt1 (mv p0) (mv p1) None None []) ;;
           let '(result, cont) := r in if (cont : bool) then Ok (lr_simplify (length result) result) else Ok result end)%res)) by (rewrite El; reflexivity).
  assert (Q' : linear_ring_edges l = (let n := Z.of_nat (length l) in
      (lst <- py_nth l (n - 1) ;; start <- skip_back (S (2 * length l)) l p0 (n - 1) lst ;;
       match start with None => Ok [] | Some (ri, pt1) =>
           r <- loopR (lr_fuel l) (lr_body l) (LR 1 ri (ri + 1) pt1 p0 p1 None None []) ;;
           let '(result, cont) := r in if (cont : bool) then Ok (lr_simplify (length result) result) else Ok result end)%res)) by (rewrite El; reflexivity).
  rewrite Q, Q'. clear Q Q'. cbv zeta. unfold lr_fuel. rewrite map_length, py_nth_map.
  destruct (py_nth l (Z.of_nat (length l) - 1)) as [lst| |]; cbn [rmap rbind]; [|reflexivity|reflexivity].
  rewrite skip_back_image. destruct (skip_back _ l p0 _ lst) as [[[ri pt1]|]| |]; cbn [rmap rbind option_map fst snd]; [|reflexivity|reflexivity|reflexivity].
  change (LR 1 ri (ri + 1) (mv pt1) (mv p0) (mv p1) None None []) with (image (LR 1 ri (ri + 1) pt1 p0 p1 None None [])). rewrite loop_image.
  destruct (loopR _ (lr_body l) _) as [[out go]| |]; cbn [rmap rbind fst snd]; [|reflexivity|reflexivity].
  destruct go; [|reflexivity]. rewrite map_length, simplify_image. reflexivity.
Qed.
End Exact.
End Placed.
