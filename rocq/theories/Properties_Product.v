(** C41-C44: matrix, inner, dot, outer and cross products, and rotation matrices.
    Specification: SpecProduct.v, SpecRot.v and JacSpec.v.  Concrete cases: matvec_instance,
    dot_instance, outer_instance in ProductProofs.v, cross_instance in CrossProofs.v
    and rot_instance in RotProofs.v. *)
From Coq Require Import Reals Lra Arith List ZArith Lia.
From Verif Require Import PyBase RSum NdArray Component JacSpec SpecReduce CompProduct SpecProduct
  ProductProofs CrossProofs CompRot SpecRot RotProofs.
Import ListNotations.
Local Open Scope nat_scope.

Theorem C41_matvec : forall m n,
  exists c, matvec_comp [m; n] [n] = Some c /\ c_ins c = [[m; n]; [n]] /\ c_out c = [m] /\
    correct c (matvec_meaning m n).
Proof. exact matvec_correct. Qed.
Print Assumptions C41_matvec.

Theorem C41_matmat : forall m n p,
  exists c, matmat_comp [m; n] [n; p] = Some (c, [m; p]) /\
    c_ins c = [[m; n]; [n; p]] /\ correct c (matmat_meaning m n p).
Proof. exact matmat_correct. Qed.
Print Assumptions C41_matmat.

Theorem C41_matmat_vector : forall m n,
  exists c, matmat_comp [m; n] [n] = Some (c, [m; 1]) /\
    c_ins c = [[m; n]; [n; 1]] /\ correct c (matmat_meaning m n 1).
Proof. exact matmat_vector_correct. Qed.
Print Assumptions C41_matmat_vector.

Theorem C41_mismatched_sizes_rejected : forall m n n' p, n <> n' ->
  matvec_comp [m; n] [n'] = None /\ matmat_comp [m; n] [n'; p] = None /\
  matmat_comp [m; n] [n'] = None.
Proof. exact matrix_products_reject. Qed.
Print Assumptions C41_mismatched_sizes_rejected.

Theorem C42_vector_inner : forall n, correct (vector_inner_comp n) (vector_inner_meaning n).
Proof. exact vector_inner_correct. Qed.
Print Assumptions C42_vector_inner.

Theorem C42_dot_vectors : forall n axis,
  exists c, dot_comp [n] [n] axis = Some c /\ c_ins c = [[n]; [n]] /\
    correct c (vector_inner_meaning n).
Proof. exact dot_vectors_correct. Qed.
Print Assumptions C42_dot_vectors.

Theorem C42_dot_tensors : forall s z a,
  2 <= length s -> axis_named (length s) z a -> nth a s 0 = 3 ->
  exists c, dot_comp s s (Some z) = Some c /\ c_ins c = [s; s] /\
    c_out c = drop_axes [a] s /\ correct c (dot_meaning a).
Proof. exact dot_tensors_correct. Qed.
Print Assumptions C42_dot_tensors.

Theorem C42_outer : forall s0 s1, length s0 + length s1 <= 26 ->
  c_ins (outer_comp s0 s1) = [s0; s1] /\ c_out (outer_comp s0 s1) = s0 ++ s1 /\
  correct (outer_comp s0 s1) outer_meaning.
Proof. exact outer_correct. Qed.
Print Assumptions C42_outer.

Theorem C43_cross : forall s axis,
  nth_error s axis = Some 3 -> length s <= 11 ->
  exists c, cross_comp s s axis = Some c /\ c_ins c = [s; s] /\ c_out c = s /\
    correct c (cross_meaning axis).
Proof. exact cross_correct. Qed.
Print Assumptions C43_cross.

Theorem C43_cross_rejects : forall s0 s1 axis,
  s0 <> s1 \/ nth_error s0 axis <> Some 3 -> cross_comp s0 s1 axis = None.
Proof. exact cross_rejects. Qed.
Print Assumptions C43_cross_rejects.

Theorem C44_rotmat : forall s k, k < 3 ->
  c_ins (rot_comp s (axis_char k)) = [s] /\
  correct (rot_comp s (axis_char k)) (rotmat_meaning k).
Proof. exact rotmat_correct. Qed.
Print Assumptions C44_rotmat.

Theorem C44_other_axis_rejected : forall s axis x, axis < 120 \/ 122 < axis ->
  c_compute (rot_comp s axis) [x] = None.
Proof. exact rotmat_other_axis. Qed.
Print Assumptions C44_other_axis_rejected.
