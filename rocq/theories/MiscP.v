(** * Small proofs: float comparisons, int32 wrap, boxes, scanbeam queue *)
From Coq Require Import ZArith List Bool Lia Permutation Sorting.Sorted FMapPositive.
From Coq Require Import Floats.SpecFloat.
From RecordUpdate Require Import RecordSet.
From Verif Require Import Py Monad Utils Spec Geometry LinearRingM BoundM LocalMinimumM StateM
     PointNodeM RingM SweepM SortP QuickP ListP UlpP.
Import ListNotations RecordSetNotations.
Local Open Scope Z_scope.

(** ** Float comparisons *)
Lemma num_compare_NF f g : is_number f -> is_number g ->
  num_compare (NF f) (NF g) = Some (rank f ?= rank g).
Proof. intros Hf Hg. cbn. now apply rank_compare. Qed.

Lemma float_cmp_rank f g : is_number f -> is_number g ->
  float_gt (NF f) (NF g) = Ok (rank g + 4 <? rank f) /\
  float_lt (NF f) (NF g) = Ok (rank f + 4 <? rank g) /\
  float_ge (NF f) (NF g) = Ok (rank g - 4 <=? rank f) /\
  almost_equal (NF f) (NF g) = Ok (Z.abs (rank f - rank g) <=? 4).
Proof.
  intros Hf Hg.
  assert (E : almost_equal (NF f) (NF g) = Ok (Z.abs (rank f - rank g) <=? 4)).
  { unfold almost_equal. cbn [num_to_float rbind]. now rewrite almost_equal_rank. }
  unfold float_gt, float_lt, float_ge, num_gtb, num_ltb.
  rewrite E, !num_compare_NF by assumption. cbn [rbind].
  destruct (Z.compare_spec (rank f) (rank g)), (Z.compare_spec (rank g) (rank f)); try lia;
    repeat split; f_equal;
    destruct (Z.leb_spec (Z.abs (rank f - rank g)) 4);
    repeat match goal with |- context [?a <? ?b] => destruct (Z.ltb_spec a b) end;
    repeat match goal with |- context [?a <=? ?b] => destruct (Z.leb_spec a b) end;
    cbn; try reflexivity; lia.
Qed.

Lemma float_trichotomy f g : is_number f -> is_number g ->
  exists e gt lt,
    almost_equal (NF f) (NF g) = Ok e /\ float_gt (NF f) (NF g) = Ok gt /\
    float_lt (NF f) (NF g) = Ok lt /\ float_ge (NF f) (NF g) = Ok (gt || e) /\
    (e = true /\ gt = false /\ lt = false \/
     e = false /\ gt = true /\ lt = false /\ flt g f \/
     e = false /\ gt = false /\ lt = true /\ flt f g).
Proof.
  intros Hf Hg. destruct (float_cmp_rank f g Hf Hg) as (-> & -> & -> & ->).
  pose proof (flt_rank f g Hf Hg) as E1. pose proof (flt_rank g f Hg Hf) as E2.
  do 3 eexists. repeat split.
  - f_equal. destruct (Z.leb_spec (rank g - 4) (rank f)), (Z.leb_spec (Z.abs (rank f - rank g)) 4),
      (Z.ltb_spec (rank g + 4) (rank f)); cbn; try reflexivity; lia.
  - destruct (Z.leb_spec (Z.abs (rank f - rank g)) 4),
      (Z.ltb_spec (rank g + 4) (rank f)), (Z.ltb_spec (rank f + 4) (rank g)); try lia;
      rewrite ?E1, ?E2; auto 10 with zarith.
Qed.

Lemma almost_equal_sym x y : f_almost_equal x y = f_almost_equal y x.
Proof. unfold f_almost_equal. f_equal. lia. Qed.
Lemma almost_equal_refl x : f_almost_equal x x = true.
Proof. unfold f_almost_equal. apply Z.leb_le. lia. Qed.

(** ** [to_int32] *)
Lemma to_int32_spec v : - 2 ^ 31 <= to_int32 v < 2 ^ 31 /\ exists k, v = to_int32 v + k * 2 ^ 32.
Proof.
  unfold to_int32. pose proof (Z.mod_pos_bound v (2 ^ 32) ltac:(lia)) as Hb.
  pose proof (Z.div_mod v (2 ^ 32) ltac:(lia)) as Hd.
  change (2 ^ 32) with 4294967296 in *. change (2 ^ 31) with 2147483648 in *.
  destruct (Z.ltb_spec (v mod 4294967296) 2147483648).
  - split; [lia|]. exists (v / 4294967296). lia.
  - split; [lia|]. exists (v / 4294967296 + 1). lia.
Qed.
Lemma to_int32_unique v w : - 2 ^ 31 <= w < 2 ^ 31 -> (exists k, v = w + k * 2 ^ 32) ->
  to_int32 v = w.
Proof.
  intros Hw [k ->]. destruct (to_int32_spec (w + k * 2 ^ 32)) as (H & j & E).
  change (2 ^ 32) with 4294967296 in *. change (2 ^ 31) with 2147483648 in *. lia.
Qed.

(** ** Boxes *)
Lemma box_inside_iff a b :
  box_inside_of a b = true <->
  px (bmin b) <= px (bmin a) /\ py (bmin b) <= py (bmin a) /\
  px (bmax a) <= px (bmax b) /\ py (bmax a) <= py (bmax b).
Proof. unfold box_inside_of. rewrite !andb_true_iff, !Z.geb_le, !Z.leb_le. tauto. Qed.
Lemma point_eqb_eq a b : point_eqb a b = true <-> a = b.
Proof.
  unfold point_eqb. rewrite andb_true_iff, !Z.eqb_eq. destruct a, b; cbn. split.
  - intros [-> ->]. reflexivity.
  - intros E. injection E. auto.
Qed.
Lemma point_eqb_neq a b : point_eqb a b = false <-> a <> b.
Proof. rewrite <- point_eqb_eq. destruct (point_eqb a b); split; congruence. Qed.
Lemma point_eqb_refl a : point_eqb a a = true.
Proof. now apply point_eqb_eq. Qed.
Lemma point_eqb_spec a b : reflect (a = b) (point_eqb a b).
Proof. apply iff_reflect. now rewrite point_eqb_eq. Qed.
Lemma point_eq_dec (a b : point) : {a = b} + {a <> b}.
Proof. destruct (point_eqb_spec a b); [left|right]; assumption. Qed.

(** ** Combined statements used by [PropUtils] *)
Lemma bubble_sort_report (A : Type) (cmp : A -> A -> bool) :
  (forall a b, cmp a b = true \/ cmp b a = true) ->
  forall (l : list A) (fuel : nat), (inversions cmp l < fuel)%nat ->
  exists l' log,
    bubble_sort (cmpM cmp) (@logM A) fuel l [] = Ok (l', log) /\
    Permutation l l' /\
    LocallySorted (fun a b => cmp a b = true) l' /\
    swap_run cmp l log l'.
Proof.
  intros Ht l fuel Hf. destruct (bubble_loop_spec cmp Ht fuel l [] Hf) as (l' & log & E & R & S).
  exists l', log. repeat split; auto. eapply swap_run_perm. exact R.
Qed.
Lemma bubble_sort_inversions (A : Type) (cmp : A -> A -> bool) :
  (forall a b, cmp a b = true \/ cmp b a = true) ->
  (forall a b c, cmp a b = true -> cmp b c = true -> cmp a c = true) ->
  forall (l : list A) (fuel : nat), (inversions cmp l < fuel)%nat ->
  exists l' log,
    bubble_sort (cmpM cmp) (@logM A) fuel l [] = Ok (l', log) /\
    StronglySorted (fun a b => cmp a b = true) l' /\
    length log = inversions cmp l.
Proof.
  intros Ht Htr l fuel Hf. destruct (bubble_loop_spec cmp Ht fuel l [] Hf) as (l' & log & E & R & S).
  exists l', log. destruct (adjacent_ok_inversions cmp l' Htr S) as [I0 SS].
  repeat split; auto. apply swap_run_inversions in R; [lia|exact Ht].
Qed.
Lemma insort_unique_set l v : StronglySorted Z.lt l ->
  StronglySorted Z.lt (insort_unique l v) /\
  (forall x, In x (insort_unique l v) <-> x = v \/ In x l) /\
  (In v l -> insort_unique l v = l).
Proof.
  intros Hs. assert (Hs' : StronglySorted Z.le l) by (eapply SS_impl; [|exact Hs]; cbn; lia).
  repeat split.
  - now apply insort_unique_sorted_lt.
  - now apply insort_unique_in.
  - now apply insort_unique_in.
  - destruct (insort_unique_cases l v Hs') as [[_ E]|[N _]]; tauto.
Qed.
Lemma rotate_all (A : Type) (l : list A) (k : Z) :
  (Z.abs k < Z.of_nat (length l) ->
   length (rotate_sequence l k) = length l /\
   forall i : nat, (i < length l)%nat ->
     nth_error (rotate_sequence l k) i
     = nth_error l (Z.to_nat ((Z.of_nat i + k) mod Z.of_nat (length l)))) /\
  (Z.of_nat (length l) <= Z.abs k -> rotate_sequence l k = l) /\
  rotate_sequence (rotate_sequence l k) (- k) = l.
Proof.
  split; [|split].
  - intros H. split; [apply rotate_length|]. intros i Hi. now apply rotate_nth.
  - apply rotate_outside.
  - apply rotate_back.
Qed.
Lemma find_if_all (A : Type) (p : A -> bool) (l : list A) :
  (find_if p l <= length l)%nat /\
  (forall i x, (i < find_if p l)%nat -> nth_error l i = Some x -> p x = false) /\
  (forall x, nth_error l (find_if p l) = Some x -> p x = true) /\
  (find_if p l = length l <-> forall x, In x l -> p x = false).
Proof.
  destruct (find_if_spec p l) as (H1 & H2 & H3). repeat split; auto; apply find_if_none.
Qed.
Lemma almost_equal_iff_steps f g : is_number f -> is_number g ->
  (almost_equal (NF f) (NF g) = Ok true
   <-> exists n : nat, (n <= 4)%nat /\ (steps n f g \/ steps n g f)).
Proof.
  intros Hf Hg. rewrite <- (almost_equal_steps f g Hf Hg). unfold almost_equal. cbn.
  split; congruence.
Qed.
Lemma almost_equal_laws x y :
  almost_equal (NF x) (NF x) = Ok true /\
  almost_equal (NF x) (NF y) = almost_equal (NF y) (NF x) /\
  almost_equal (NF (S754_zero true)) (NF (S754_zero false)) = Ok true.
Proof.
  unfold almost_equal. cbn [num_to_float rbind].
  rewrite almost_equal_refl, (almost_equal_sym x y). repeat split.
Qed.
Lemma almost_equal_not_transitive :
  exists f g h, is_number f /\ is_number g /\ is_number h /\
    almost_equal (NF f) (NF g) = Ok true /\ almost_equal (NF g) (NF h) = Ok true /\
    almost_equal (NF f) (NF h) = Ok false.
Proof.
  exists (S754_finite false (2 ^ 52) 0), (S754_finite false (2 ^ 52 + 4) 0),
         (S754_finite false (2 ^ 52 + 8) 0).
  repeat split; reflexivity.
Qed.
Lemma box_order :
  (forall a, box_inside_of a a = true) /\
  (forall a b c, box_inside_of a b = true -> box_inside_of b c = true ->
                 box_inside_of a c = true) /\
  (forall a b, box_inside_of a b = true -> box_inside_of b a = true ->
               box_eqb a b = true /\ a = b).
Proof.
  split; [|split].
  - intros a. apply box_inside_iff. lia.
  - intros a b c. rewrite !box_inside_iff. lia.
  - intros [[x1 y1] [x2 y2]] [[x3 y3] [x4 y4]]. rewrite !box_inside_iff. cbn.
    intros H1 H2. assert (x1 = x3 /\ y1 = y3 /\ x2 = x4 /\ y2 = y4) as (-> & -> & -> & ->) by lia.
    split; [|reflexivity]. unfold box_eqb. now rewrite !point_eqb_refl.
Qed.
Lemma box_inside_inclusion a b :
  px (bmin a) <= px (bmax a) -> py (bmin a) <= py (bmax a) ->
  (box_inside_of a b = true <->
   forall x y, px (bmin a) <= x <= px (bmax a) -> py (bmin a) <= y <= py (bmax a) ->
               px (bmin b) <= x <= px (bmax b) /\ py (bmin b) <= y <= py (bmax b)).
Proof.
  intros Hx Hy. rewrite box_inside_iff. split; [intros; lia|].
  intros H. pose proof (H _ _ (conj (Z.le_refl _) Hx) (conj (Z.le_refl _) Hy)).
  pose proof (H _ _ (conj Hx (Z.le_refl _)) (conj Hy (Z.le_refl _))). lia.
Qed.
Lemma lml_insert_raises depth L i m : lml_insert depth L i m = Raise RecursionError.
Proof. induction depth as [|d IH]; [reflexivity|exact IH]. Qed.
Lemma scanbeams_duplicates : exists ms, ~ NoDup (scanbeams_of ms).
Proof.
  exists [LM 1%positive 2%positive 5 false; LM 3%positive 4%positive 5 false]. intros H. vm_compute in H.
  inversion H as [|? ? N _]. apply N. now left.
Qed.
Lemma to_int32_all v : - 2 ^ 31 <= to_int32 v < 2 ^ 31 /\ (exists k, v = to_int32 v + k * 2 ^ 32) /\
  forall w, - 2 ^ 31 <= w < 2 ^ 31 -> (exists k, v = w + k * 2 ^ 32) -> to_int32 v = w.
Proof. destruct (to_int32_spec v). repeat split; try apply H; auto. intros w. apply to_int32_unique. Qed.
