(** C39-C40: sum and average.  Specification: SpecReduce.v and JacSpec.v.
    Concrete cases: sum_axes_instance, average_axis_instance in ReduceProofs.v.
    Reducing away every axis through [axes] (np.ravel_multi_index with dims=())
    is outside the theorems. *)
From Coq Require Import Reals Arith List ZArith.
From Verif Require Import NdArray Component JacSpec CompReduce SpecReduce ReduceProofs.
Import ListNotations.
Local Open Scope nat_scope.

Theorem C39_sum_all : forall s,
  exists c, sum_comp s 1 None = Some c /\ c_ins c = [s] /\ c_out c = [1] /\
    correct c sum_all_meaning.
Proof. exact sum_all_lemma. Qed.
Print Assumptions C39_sum_all.

Theorem C39_sum_elementwise : forall s n, 2 <= n ->
  exists c, sum_comp s n None = Some c /\ c_ins c = repeat s n /\ c_out c = s /\
    correct c sum_elementwise_meaning.
Proof. exact sum_elementwise_lemma. Qed.
Print Assumptions C39_sum_elementwise.

Theorem C39_sum_axes : forall s n zs axes,
  1 <= n -> Forall2 (axis_named (length s)) zs axes -> NoDup axes ->
  length axes < length s ->
  exists c, sum_comp s n (Some zs) = Some c /\ c_ins c = repeat s n /\
    c_out c = drop_axes axes s /\ correct c (sum_axes_meaning axes).
Proof. exact sum_axes_correct. Qed.
Print Assumptions C39_sum_axes.

Theorem C39_average_all : forall s,
  exists c, average_comp s 1 None = Some c /\ c_ins c = [s] /\ c_out c = [1] /\
    correct c average_all_meaning.
Proof. exact average_all_lemma. Qed.
Print Assumptions C39_average_all.

Theorem C39_average_elementwise : forall s n, 2 <= n ->
  exists c, average_comp s n None = Some c /\ c_ins c = repeat s n /\ c_out c = s /\
    correct c average_elementwise_meaning.
Proof. exact average_elementwise_lemma. Qed.
Print Assumptions C39_average_elementwise.

Theorem C39_average_axis : forall s n z a,
  1 <= n -> 0 < size s -> axis_named (length s) z a -> 1 < length s ->
  exists c, average_comp s n (Some [z]) = Some c /\ c_ins c = repeat s n /\
    c_out c = drop_axes [a] s /\ correct c (average_axes_meaning [a]).
Proof. exact average_axis_correct. Qed.
Print Assumptions C39_average_axis.

(** C40 is false: an average over two or more axes always raises, ... *)
Theorem C40_average_two_axes_refuted : forall s n zs, 2 <= length zs ->
  average_comp s n (Some zs) = None.
Proof. exact average_axes_fail. Qed.
Print Assumptions C40_average_two_axes_refuted.

(** ... and over the empty tuple of axes the derivative is wrong. *)
Theorem C40_average_no_axes_refuted : forall s, 1 < size s ->
  exists c, average_comp s 1 (Some []) = Some c /\ c_ins c = [s] /\
    ~ correct c (average_axes_meaning []).
Proof. exact average_no_axes_wrong. Qed.
Print Assumptions C40_average_no_axes_refuted.
