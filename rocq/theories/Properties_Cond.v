(** C53, C54 and C67 for if_else.  Specification: SpecCond.v, SpecNorm.v and
    JacSpec.v.  Concrete case: cond_instance in CondProofs.v. *)
From Coq Require Import Reals Arith List.
From Verif Require Import PyBase RSum NdArray Component JacSpec JacOpen SpecExtremum SpecNorm CompCond SpecCond CondProofs KeptProofs.
Import ListNotations.
Local Open Scope R_scope.

Theorem C53_select : forall c t f, three c t f -> x_shape t = x_shape f ->
  size (x_shape t) = 1%nat -> size (x_val c) = 1%nat -> size (x_val t) = 1%nat -> size (x_val f) = 1%nat ->
  exists k, if_else c t f = Some ([1%nat], Some k) /\
    c_ins k = [x_val c; x_val t; x_val f] /\ c_out k = [1%nat] /\
    forall v, exists y, c_compute k (inputs_of (c_ins k) v) = Some y /\ shp y = [1%nat] /\
      forall p, chosen (v 0%nat 0%nat) p -> get y [0%nat] = v p 0%nat.
Proof. exact if_else_value. Qed.
Print Assumptions C53_select.

Theorem C53_shapes : forall c t f, if_else c t f <> None <-> x_shape t = x_shape f.
Proof. exact if_else_shapes. Qed.
Print Assumptions C53_shapes.

Theorem C53_arrays_refuted : forall c t f, x_shape t = x_shape f -> (2 <= size (x_shape t))%nat ->
  if_else c t f = Some ([1%nat], None).
Proof. exact if_else_arrays. Qed.
Print Assumptions C53_arrays_refuted.

Theorem C54_refuted : forall c t f, three c t f -> plain c -> plain t -> plain f ->
  exists k, if_else c t f = Some ([1%nat], Some k) /\
  forall v, v 0%nat 0%nat <> 0 ->
    exists js : nat -> jac,
      (forall p, (p < 3)%nat -> c_partials k (inputs_of (c_ins k) v) p = Some (js p)) /\
      (forall p, (p < 3)%nat -> chosen (v 0%nat 0%nat) p ->
         jac_entry 1 (js p) 0 0 = v p 0%nat /\ (right_for k v p (js p) <-> v p 0%nat = 1)) /\
      (forall p, (p < 3)%nat -> ~ chosen (v 0%nat 0%nat) p -> right_for k v p (js p)).
Proof. exact if_else_partials. Qed.
Print Assumptions C54_refuted.

Theorem C67_if_else_repeated_refuted : forall c t f, x_shape t = x_shape f ->
  x_name c = x_name t \/ x_name c = x_name f \/ x_name t = x_name f ->
  if_else c t f = Some ([1%nat], None).
Proof. exact if_else_repeated. Qed.
Print Assumptions C67_if_else_repeated_refuted.
