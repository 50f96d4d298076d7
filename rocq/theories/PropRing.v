(** * Property theorems: the edges of a linear ring (C03-C07) *)
From Coq Require Import ZArith List Bool Lia.
From Verif Require Import Py Monad Utils Geometry LinearRingM SpecRing RingEdgesP.
Import ListNotations.
Local Open Scope Z_scope.

(** ** C03: the edges run once around a closed chain *)
Theorem C03_edges_form_closed_chain : forall pts es,
  linear_ring_edges pts = Ok es -> exists vs, outline vs es.
Proof.
  intros pts es E. pose proof (edges_result pts) as H. rewrite E in H. destruct H as (vs & O & _). eauto.
Qed.
Print Assumptions C03_edges_form_closed_chain.

(** ** C04: no zero-length edge, no two collinear neighbours, none or at least three edges *)
Theorem C04_no_degenerate_vertices : forall pts es,
  linear_ring_edges pts = Ok es ->
  (exists vs, outline vs es /\
     Forall (fun '(a, b) => a <> b) (cyclic_pairs vs) /\
     Forall (fun '(a, b, c) => ~ on_line a b c) (cyclic_triples vs)) /\
  (es = [] \/ (3 <= length es)%nat).
Proof.
  intros pts es E. pose proof (edges_result pts) as H. rewrite E in H.
  destruct H as (vs & O & _ & H1 & H2 & H3 & _). eauto.
Qed.
Print Assumptions C04_no_degenerate_vertices.

(** ** C05: the computation ends for every ring; it succeeds when differences of
    abscissas are in the float range, and the only possible exception otherwise
    is the OverflowError of an int / int division *)
Theorem C05_edges_total_in_range : forall pts,
  (forall a b, In a pts -> In b pts -> Z.abs (px a - px b) <= 2 ^ 1023) ->
  exists es, linear_ring_edges pts = Ok es.
Proof. exact edges_total. Qed.
Print Assumptions C05_edges_total_in_range.
Theorem C05_edges_always_end : forall pts,
  (exists es, linear_ring_edges pts = Ok es) \/ linear_ring_edges pts = Raise OverflowError.
Proof.
  intros pts. pose proof (edges_result pts) as H. destruct (linear_ring_edges pts) as [es|e|]; [eauto| |contradiction].
  right. congruence.
Qed.
Print Assumptions C05_edges_always_end.
(** the exception does occur *)
Example C05_overflow : linear_ring_edges [Pt 0 0; Pt (2 ^ 1025) 1; Pt 0 2] = Raise OverflowError.
Proof. vm_compute. reflexivity. Qed.

(** ** C06: no invented vertices *)
Theorem C06_edges_use_ring_points : forall pts es e,
  linear_ring_edges pts = Ok es -> In e es -> In (etop e) pts /\ In (ebot e) pts.
Proof.
  intros pts es e E I. pose proof (edges_result pts) as H. rewrite E in H. destruct H as (vs & O & S & _).
  exact (outline_points vs es e pts O S I).
Qed.
Print Assumptions C06_edges_use_ring_points.

(** ** C07: same region *)
Theorem C07_edges_preserve_region : forall pts es,
  linear_ring_edges pts = Ok es ->
  exists vs, outline vs es /\
    area2 vs = area2 pts /\
    (forall q, winding_number q vs = winding_number q pts).
Proof.
  intros pts es E. pose proof (edges_result pts) as H. rewrite E in H.
  destruct H as (vs & O & _ & _ & _ & _ & H1 & H2). eauto.
Qed.
Print Assumptions C07_edges_preserve_region.

(** a ring with a duplicate, a collinear vertex, a spike and a closing point *)
Definition ex_ring : list point :=
  [Pt 2 0; Pt 4 0; Pt 4 0; Pt 4 4; Pt 4 9; Pt 4 4; Pt 0 4; Pt 0 0; Pt 2 0].
Example ex_ring_edges : exists a b c d,
  linear_ring_edges ex_ring = Ok [a; b; c; d] /\
  outline [Pt 0 0; Pt 4 0; Pt 4 4; Pt 0 4] [a; b; c; d] /\
  area2 ex_ring = 32 /\ winding_number (QPt 7 5 2) ex_ring = 1 /\ winding_number (QPt 9 5 2) ex_ring = 0.
Proof.
  do 4 eexists. split; [vm_compute; reflexivity|]. split.
  - unfold outline, joins. repeat constructor; cbn; auto; lia.
  - vm_compute. auto.
Qed.
Example ex_ring_flat : linear_ring_edges [Pt 0 0; Pt 1 1; Pt 5 5; Pt 2 2; Pt 0 0] = Ok [].
Proof. vm_compute. reflexivity. Qed.
