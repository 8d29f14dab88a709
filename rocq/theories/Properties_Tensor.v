(** C42 (tensor inner product) and C70.  Specification: SpecTensor.v, SpecReduce.v
    and JacSpec.v.  Concrete cases: inner_instance, negative_axis_value in
    TensorProofs.v,
    harmless_instance in TensorNegative.v. *)
From Coq Require Import Reals Arith List ZArith.
From Verif Require Import RSum NdArray Component JacSpec SpecReduce SpecNorm CompProduct CompTensor SpecTensor TensorProofs TensorNegative.
Import ListNotations.
Local Open Scope nat_scope.

Theorem C42_inner : forall s0 s1 z0 z1 a0 a1, not_both_vectors s0 s1 ->
  paired s0 s1 z0 z1 a0 a1 ->
  Forall (fun z => 0 <= z)%Z z0 -> Forall (fun z => 0 <= z)%Z z1 ->
  exists c, inner s0 s1 (Some (z0, z1)) = Some (c_out c, c) /\ c_ins c = [s0; s1] /\
    c_out c = drop_axes a0 s0 ++ drop_axes a1 s1 /\ correct c (inner_meaning a0 a1).
Proof. exact inner_exact. Qed.
Print Assumptions C42_inner.

Theorem C42_inner_vectors : forall n axes, inner [n] [n] axes = Some ([1], vector_inner_comp n).
Proof. exact inner_vectors. Qed.
Print Assumptions C42_inner_vectors.

Theorem C42_inner_needs_axes : forall s0 s1, not_both_vectors s0 s1 -> inner s0 s1 None = None.
Proof. exact inner_needs_axes. Qed.
Print Assumptions C42_inner_needs_axes.

Theorem C70_value : forall s0 s1 z0 z1 a0 a1, not_both_vectors s0 s1 ->
  paired s0 s1 z0 z1 a0 a1 ->
  exists c, inner s0 s1 (Some (z0, z1)) = Some (c_out c, c) /\ c_ins c = [s0; s1] /\
    c_out c = drop_axes a0 s0 ++ drop_axes a1 s1 /\ computes c (inner_meaning a0 a1).
Proof. exact inner_value. Qed.
Print Assumptions C70_value.

Theorem C70_refuted :
  ~ (forall s0 s1 z0 z1 a0 a1, not_both_vectors s0 s1 -> paired s0 s1 z0 z1 a0 a1 ->
     exists c, inner s0 s1 (Some (z0, z1)) = Some (c_out c, c) /\ correct c (inner_meaning a0 a1)).
Proof. exact inner_negative_refuted. Qed.
Print Assumptions C70_refuted.

Theorem C70_actual : forall s0 s1 z0 z1 a0 a1, not_both_vectors s0 s1 ->
  paired s0 s1 z0 z1 a0 a1 -> one_signed z0 -> one_signed z1 ->
  exists c, inner s0 s1 (Some (z0, z1)) = Some (c_out c, c) /\
    (correct c (inner_meaning a0 a1) <->
     (Forall (fun z => 0 <= z)%Z z0 \/ first_harmless s0 s1 a0 a1) /\
     (Forall (fun z => 0 <= z)%Z z1 \/ second_harmless s0 s1 a0 a1)).
Proof. exact inner_signs. Qed.
Print Assumptions C70_actual.
