(** * Reconnecting touching rings marks no ring, and unmarks the rings it changes *)
From Coq Require Import ZArith List Bool Lia FMapPositive Permutation.
From Coq Require Import Floats.SpecFloat.
From RecordUpdate Require Import RecordSet.
From Verif Require Import Py Monad Utils Geometry LinearRingM BoundM LocalMinimumM
     StateM PointNodeM RingM SweepM TopologyM WagyuM HoareP SpecRing SpecHeap SpecRings SpecTree SpecTour SweepFrameP CalmP OrderP VatP FuelP
     CircleP SplitP NodeFrameP RingedP NestP KeepOrderP TourP ReconnectP TouchingP SelfTreeP SimpleP MarkP SpecNest.
Import ListNotations RecordSetNotations.
Open Scope Z_scope.

Notation marked s q := (r_corrected (ring_at s q) = true).
Lemma mk_with s q l : fewer s (with_pairs s q l). Proof. intros p H. exact H. Qed.
Lemma mk_thin s s' : same_ringed s s' -> fewer s s'.
Proof. intros (_ & _ & _ & _ & H) q. rewrite (proj2 (H q)). auto. Qed.
Lemma mk_get q : pres fewer (conn_get q). Proof. unfold conn_get. mk. Qed.
Lemma mk_set q l : pres fewer (conn_set q l). Proof. unfold conn_set. mk. Qed.
#[export] Hint Resolve mk_get mk_set : pres.
Lemma mk_add q p : pres fewer (conn_add q p). Proof. unfold conn_add. mk. Qed.
#[export] Hint Resolve mk_add : pres.
Lemma mk_as_child fuel r p : pres fewer (assign_as_child fuel r p). Proof. unfold assign_as_child. mk. Qed.
Lemma mk_as_sibling fuel r p : pres fewer (assign_as_sibling fuel r p). Proof. unfold assign_as_sibling. mk. Qed.
Lemma mk_reassign fuel r p : pres fewer (reassign_as_child fuel r p). Proof. unfold reassign_as_child. mk. Qed.
#[export] Hint Resolve mk_as_child mk_as_sibling mk_reassign : pres.
Lemma mk_give fuel o r : pres fewer (give_children fuel o r).
Proof. unfold give_children. apply mk_iter_children. mk. Qed.
#[export] Hint Resolve mk_give : pres.
Lemma mk_moved fuel l : pres fewer (moved_pairs fuel l).
Proof. induction l as [|(a & b) l IH]; cbn [moved_pairs]; mk. Qed.
Lemma mk_origin fuel r l : pres fewer (origin_pairs fuel r l).
Proof. induction l as [|(a & b) l IH]; cbn [origin_pairs]; mk. Qed.
#[export] Hint Resolve mk_moved mk_origin : pres.
Lemma mk_conn fuel keep l2 : pres fewer (rc_conn fuel keep l2).
Proof. unfold rc_conn. apply pres_bind; [typeclasses eauto|apply mk_acc; mk|mk]. Qed.
Lemma mk_tree fuel parent keep new hole : pres fewer (rc_tree fuel parent keep new hole).
Proof. unfold rc_tree. destruct hole; mk. Qed.
Lemma mk_go fuel keep hole it : pres fewer (go_body fuel keep hole it).
Proof. unfold go_body. destruct hole; mk. Qed.
#[export] Hint Resolve mk_conn mk_tree mk_go : pres.
Lemma mk_after fuel parent keep new hole l2 : pres fewer (rc_after fuel parent keep new hole l2).
Proof. unfold rc_after. mk. Qed.
Lemma mk_label fuel keep new a b hole : pres fewer (label_rest fuel keep new a b hole).
Proof. unfold label_rest, set_stats. mk. Qed.
Lemma mk_switch a b : pres fewer (switch_nexts a b). Proof. unfold switch_nexts. mk. Qed.
Lemma mk_swap fuel ro a b l : pres fewer (origin_swap fuel ro a b l).
Proof. induction l as [|(r & p & q) l IH]; cbn [origin_swap]; mk. Qed.
#[export] Hint Resolve mk_after mk_switch mk_swap : pres.
Lemma mk_reconnect fuel rp ro a b l : pres fewer (reconnect fuel rp ro a b l).
Proof.
  rewrite reconnect_parts. apply pres_bind; [typeclasses eauto|mk|]. intros h. apply pres_bind; [typeclasses eauto|destruct h; mk|]. intros ((((l2 & keep) & x) & y) & c).
  unfold rc_rest, rc_label, set_stats. mk.
Qed.
(** ** Marked rings visit no point twice *)
Definition tidy (s : st) : Prop := forall r vs, marked s r -> outline_of s r vs -> NoDup vs.
Lemma outline_back s s' q vs : (forall i, node_at s' i = node_at s i) -> first_of s' q = first_of s q -> outline_of s' q vs -> outline_of s q vs.
Proof.
  intros N F (n & l & A & B & ->). exists n, l. split; [congruence|]. split; [apply (circle_same s'); [intros i _; rewrite N; reflexivity|exact B]|].
  unfold vertices. apply map_ext. intros i. rewrite N. reflexivity.
Qed.
Lemma tidy_same s s' : (forall i, node_at s' i = node_at s i) -> (forall q, first_of s' q = first_of s q) -> fewer s s' -> tidy s -> tidy s'.
Proof. intros N F M T r vs K O. apply (T r vs (M r K)). exact (outline_back s s' r vs N (F r) O). Qed.
Lemma tidy_reworked s s' : tidy s -> fewer s s' -> reworked s s' -> tidy s'.
Proof.
  intros T M [(N & F)|(s2 & fuel & rp & ro & o1 & o2 & l & u & TH & I & NE & TR & E)]; [exact (tidy_same s s' N F M T)|].
  destruct (reconnected fuel rp ro o1 o2 l s2 u s' I NE TR E) as ((W' & U') & keep & Hk & MM & OFF & PO & _ & GO & ST & RN & (a & b & hl & par & l2 & s1 & v & sm & Q & EL & EA)).
  set (sr := rput (alloc_ring s1) keep (fun x => x <| r_corrected := false |>)) in EL.
  assert (MK : fewer sr s') by (eapply R_trans; [exact (mk_label _ _ _ _ _ _ _ _ _ EL)|exact (mk_after _ _ _ _ _ _ _ _ _ EA)]).
  assert (UK : r_corrected (ring_at sr keep) = false) by (unfold sr; rewrite ring_at_rput, Pos.eqb_refl; reflexivity).
  assert (UN : r_corrected (ring_at sr (s_rnext s2)) = false).
  { unfold sr. rewrite ring_at_rput. destruct (Pos.eqb_spec keep (s_rnext s2)); [reflexivity|]. rewrite ring_at_alloc, Q, Pos.eqb_refl. reflexivity. }
  intros q vs K O.
  assert (N1 : q <> keep) by (intros ->; pose proof (MK keep K); congruence).
  assert (N2 : q <> s_rnext s2) by (intros ->; pose proof (MK _ K); congruence).
  destruct (in_dec Pos.eq_dec q (map fst ((ro, (o1, o2)) :: l))) as [H|H].
  { destruct O as (n & m & F & _). rewrite (GO q N1 H) in F. discriminate. }
  apply (T q vs (M q K)). apply (outline_back s s2 q vs); [intros i; apply thin_node; exact TH|apply thin_firsts; exact TH|].
  pose proof O as (k & c & F & C & Ev). rewrite (ST q N2 H) in F. destruct I as (W & U).
  destruct (well_at s2 k q W (wr_first s2 W q k F)) as (d & D & DM).
  assert (O2 : outline_of s2 q (vertices s2 (k :: d))) by (exists k, d; auto).
  assert (FR : outline_of s' q (vertices s2 (k :: d))).
  { revert O2. apply outline_frame; [apply ST; assumption| |exact W]. intros i Hi. apply OFF. intros (p & Hp & Rp). apply H. replace q with p by congruence. exact Hp. }
  rewrite (outline_fun s' q vs _ O FR). exact O2.
Qed.
(** ** Through the correction of touching rings *)
Lemma mk_loop_scan fuel rp ro rs a b l : pres fewer (loop_scan fuel rp ro rs a b l).
Proof. induction l as [|(x & y) l IH]; cbn [loop_scan]; mk. Qed.
Lemma mk_direct ro a l : pres fewer (direct_scan ro a l).
Proof. induction l as [|(x & y) l IH]; cbn [direct_scan]; mk. Qed.
#[export] Hint Resolve mk_loop_scan mk_direct : pres.
Lemma mk_find fuel rp ro a d : forall rs vis b, pres fewer (find_intersect_loop fuel d rp ro rs vis a b).
Proof.
  induction d as [|d IH]; intros rs vis b; cbn [find_intersect_loop]; [apply pres_nofuel|]. apply pres_bind; [typeclasses eauto|mk|]. intros ps.
  apply pres_bind; [typeclasses eauto|mk|]. intros sc. destruct (fst sc); [mk|]. cbv zeta. apply pres_bind; [typeclasses eauto|mk|]. intros _.
  generalize (rs :: vis). induction (snd sc) as [|(x & y) l IHl]; intros v; mk.
Qed.
#[export] Hint Resolve mk_find : pres.
Lemma mk_chain fuel rp ro rs b l : forall v, pres fewer (chain_scan fuel rp ro rs b l v).
Proof. induction l as [|(x & y) l IH]; intros v; cbn [chain_scan]; mk. Qed.
#[export] Hint Resolve mk_chain mk_reconnect : pres.
Lemma mk_single fuel j k : pres fewer (process_single_intersection fuel j k).
Proof.
  rewrite single_eq. unfold single_mid, single_rest. mk.
Qed.
Lemma repeats_tidy fuel nodes a b s0 : one_place s0 nodes a b ->
  tri (fun s => chained_up s /\ TouchingP.fewer s0 s /\ tidy s) (correct_chained_repeats fuel nodes a b) (fun _ s => chained_up s /\ TouchingP.fewer s0 s /\ tidy s).
Proof.
  intros OP. unfold correct_chained_repeats. set (J := fun s => chained_up s /\ TouchingP.fewer s0 s /\ tidy s).
  apply (tri_for _ _ J). intros k Ik. unfold range in Ik. apply in_seq in Ik.
  eapply tri_bind with (Q := fun i s => nth_res nodes k = Ok i /\ J s); [apply tri_lift; auto|]. intros i. apply tri_fact. intros Hi. apply nth_res_error in Hi.
  eapply tri_bind; [apply tri_nd|]. intros n. cbv beta. destruct (is_none (n_ring n)); [apply tri_ret; tauto|].
  eapply tri_pre with (I' := J); [|tauto]. apply (tri_for _ _ J). intros k' Ik'. unfold range in Ik'. apply in_seq in Ik'.
  eapply tri_bind with (Q := fun i s => nth_res nodes k' = Ok i /\ J s); [apply tri_lift; auto|]. intros j. apply tri_fact. intros Hj. apply nth_res_error in Hj.
  eapply tri_bind; [apply tri_nd|]. intros m. cbv beta. destruct (is_none (n_ring m)); [apply tri_ret; tauto|].
  intros s u s' (_ & CU & F & T) E. destruct (single_order fuel i j s u s' CU) as (X & Y & Z); [|exact E|].
  - rewrite !(proj1 F). apply (OP k k'); auto; lia.
  - split; [exact X|]. split; [eapply R_trans; eassumption|]. exact (tidy_reworked s s' T (mk_single _ _ _ _ _ _ E) Z).
Qed.
Lemma chained_tidy fuel s u s' : in_order s -> two_at_most s -> tidy s -> correct_chained_rings fuel s = Ok (u, s') -> tidy s'.
Proof.
  intros IO TW T0 E. set (J := fun t => chained_up t /\ TouchingP.fewer s t /\ tidy t).
  assert (G : tri (fun t => t = s) (correct_chained_rings fuel) (fun _ t => tidy t)).
  { unfold correct_chained_rings. eapply tri_bind with (Q := fun _ t => t = s); [intros t a t' -> Et; injection Et as <- <-; reflexivity|]. intros nodes.
    destruct (_ <? _)%nat; [apply tri_ret; intros t ->; exact T0|].
    eapply tri_bind with (Q := fun _ => J).
    - intros t a t' -> Et. injection Et as <- <-. split; [apply chained_start; assumption|]. split; [apply fewer_same; reflexivity|].
      apply (tidy_same s); [reflexivity|reflexivity|intros q H; exact H|exact T0].
    - intros ?. eapply tri_weak with (Q' := fun _ => J); [|intros t H; exact H|intros ? t (_ & _ & H); exact H].
      apply (tri_repeats s); [intros t K; apply K|]. intros x y OP _. apply (repeats_tidy fuel nodes x y s OP). }
  exact (G s u s' eq_refl E).
Qed.
(** ** The rounds *)
Definition simple (s : st) : Prop := forall r vs, outline_of s r vs -> NoDup vs.
Lemma self_simple fuel b s x s' : in_order s -> tidy s -> correct_self_intersections fuel b s = Ok (x, s') -> simple s'.
Proof.
  intros (W & U) T E r vs O. destruct (self_clean fuel b s x s' W T E) as (W' & K).
  destruct (K r) as [C|[F|([] & _)]]; [exact (clean_outline s' r vs W' C O)|]. destruct O as (n & l & F' & _). congruence.
Qed.
Lemma rounds_simple fuel s u s' : in_order s -> two_at_most s -> tidy s -> loopM fuel (fun _ => chain_round fuel) tt s = Ok (u, s') ->
  in_order s' /\ two_at_most s' /\ simple s'.
Proof.
  intros I T D E. set (J := fun t => in_order t /\ two_at_most t /\ tidy t).
  assert (G : tri J (loopM fuel (fun _ => chain_round fuel) tt) (fun _ t => in_order t /\ two_at_most t /\ simple t)).
  { apply (tri_loop fuel _ (fun _ => J)). intros []. unfold chain_round.
    eapply tri_bind with (Q := fun _ => J).
    - intros t a t' (A & B & C) Et. destruct (chained_order fuel t a t' A B Et) as (A' & B' & _). split; [exact A'|]. split; [exact B'|].
      exact (chained_tidy fuel t a t' A B C Et).
    - intros _. eapply tri_bind with (Q := fun _ t => in_order t /\ two_at_most t /\ simple t).
      + intros t a t' (A & B & C) Et. destruct (self_ends fuel true t a t' A Et) as (A' & B'). split; [exact A'|]. split; [exact (shrinks_two _ _ B' B)|].
        exact (self_simple fuel true t a t' A C Et).
      + intros again. apply tri_ret. intros t K. destruct again; [|exact K]. destruct K as (A & B & C). split; [exact A|]. split; [exact B|].
        intros r vs _ O. exact (C r vs O). }
  exact (G s u s' (conj I (conj T D)) E).
Qed.
(** ** What is written *)
Lemma written_lap s dir r pts : well_ringed s -> dir = n_next \/ dir = n_prev -> written s dir r pts ->
  exists n m, first_of s r = Some n /\ circle s (n :: m) /\ members s r (n :: m) /\ Permutation (tl pts) (vertices s (n :: m)).
Proof.
  intros W HD (n & l & Hn & T & ->). destruct (well_at s n r W (wr_first s W r n Hn)) as (m & C & M). exists n, m. split; [exact Hn|]. split; [exact C|]. split; [exact M|].
  assert (U : forall dir l k c, trail s dir n c l -> dpath dir s c k n -> ~ In n k -> l = k).
  { clear. intros dir. induction l as [|a l IH]; intros [|d k] c; cbn [trail dpath]; auto.
    - intros T (E & _) N. unfold node_at in E. rewrite T in E. injection E as ->. destruct N. left. reflexivity.
    - intros (T & N & _) E _. unfold node_at in E. rewrite T in E. injection E as ->. congruence.
    - intros (T & _ & T') (E & D) N. unfold node_at in E. rewrite T in E. injection E as <-. f_equal. apply (IH k a); auto.
      intros X. apply N. right. exact X. }
  pose proof C as (ND & CH). inversion ND as [|? ? Nn _]; subst. cbn [map app tl].
  transitivity (vertices s (n :: l)).
  { unfold vertices. cbn [map]. change (map (place_of s) l ++ [place_of s n]) with (map (fun i => npos (node_at s i)) l ++ [npos (node_at s n)]). symmetry. apply Permutation_cons_append. }
  unfold vertices. apply Permutation_map. constructor. destruct HD as [-> | ->].
  - rewrite (U n_next l m n T); [reflexivity|apply dpath_next; exact CH|exact Nn].
  - rewrite (U n_prev l (rev m) n T); [symmetry; apply Permutation_rev|apply dpath_prev; exact CH|rewrite <- in_rev; exact Nn].
Qed.
Lemma written_all s dir rs ps : well_ringed s -> dir = n_next \/ dir = n_prev -> NoDup rs -> Forall2 (written s dir) rs ps ->
  exists ids, NoDup ids /\ (forall i, In i ids -> exists r, In r rs /\ ring_of s i = Some r) /\ Permutation (flat_map (@tl point) ps) (vertices s ids).
Proof.
  intros W HD N F. induction F as [|r p rs ps Hw F IH]; [exists []; split; [constructor|]; split; [intros i []|reflexivity]|].
  inversion N as [|? ? N1 N2]; subst. destruct (IH N2) as (ids & A & B & C). destruct (written_lap s dir r p W HD Hw) as (n & m & _ & Cm & Mm & P).
  exists ((n :: m) ++ ids). split; [|split].
  - apply CircleP.nodup_app. split; [exact (circle_nodup s _ Cm)|]. split; [exact A|]. intros i Hi Hj. apply Mm in Hi. destruct (B i Hj) as (q & Hq & Rq). apply N1. replace r with q by congruence. exact Hq.
  - intros i Hi. apply in_app_iff in Hi as [Hi|Hi]; [exists r; split; [left; reflexivity|apply Mm; exact Hi]|]. destruct (B i Hi) as (q & Hq & Rq). exists q. split; [right; exact Hq|exact Rq].
  - cbn [flat_map]. unfold vertices in *. rewrite map_app. apply Permutation_app; assumption.
Qed.
(** at most two vertices are at one place *)
Lemma count_two s ids p : two_at_most s -> NoDup ids -> (forall i, In i ids -> ring_of s i <> None) -> (count_occ MiscP.point_eq_dec (vertices s ids) p <= 2)%nat.
Proof.
  intros T N R. assert (G : length (filter (fun i => if MiscP.point_eq_dec (npos (node_at s i)) p then true else false) ids) = count_occ MiscP.point_eq_dec (vertices s ids) p).
  { clear. induction ids as [|i ids IH]; [reflexivity|]. cbn [filter vertices map count_occ]. destruct (MiscP.point_eq_dec (npos (node_at s i)) p); cbn [length]; f_equal; exact IH. }
  rewrite <- G. clear G. set (k := filter _ ids).
  assert (KN : NoDup k) by (apply NoDup_filter; exact N).
  assert (KI : forall i, In i k -> ring_of s i <> None /\ npos (node_at s i) = p).
  { intros i Hi. apply filter_In in Hi as (H & Q). split; [exact (R i H)|]. destruct (MiscP.point_eq_dec (npos (node_at s i)) p); [assumption|discriminate]. }
  destruct k as [|a [|b [|c k]]]; cbn [length]; try lia. exfalso.
  destruct (KI a) as (A1 & A2); [left; reflexivity|]. destruct (KI b) as (B1 & B2); [right; left; reflexivity|]. destruct (KI c) as (C1 & C2); [right; right; left; reflexivity|].
  inversion KN as [|? ? K1 K2]; subst. inversion K2 as [|? ? K3 K4]; subst.
  destruct (T a b c A1 B1 C1) as [X|[X|X]]; try congruence; subst; [apply K1|apply K3|apply K1]; cbn; auto.
Qed.
