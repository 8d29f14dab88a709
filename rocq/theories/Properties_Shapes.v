(** C55 and C80-C84: recorded shapes, declared inputs, and which calls can be
    built; C67 for the functions of several operands.  The calls are in
    StdCalls.v, the specification in SpecShapes.v, SpecBuild.v, SpecReduce.v and
    JacSpec.v.  Concrete cases: shapes_instance, one_column_instance and
    every_axis_instance in ShapeMain.v, builds_instance in BuildProofs.v. *)
From Coq Require Import Arith List ZArith.
From Verif Require Import PyBase NdArray Component JacSpec CompElem CompNorm CompCond CompProduct StdCalls
  SpecReduce SpecShapes SpecBuild ShapeMain BuildProofs.
Import ListNotations.

Theorem C55_recorded_shape : forall k s c,
  std k = Some (s, Some c) -> ~ by_one_column k -> c_out c = s.
Proof. exact std_out. Qed.
Print Assumptions C55_recorded_shape.

Theorem C55_one_column_refuted : forall k s c,
  std k = Some (s, Some c) -> by_one_column k -> exists m, s = [m; 1] /\ c_out c = [m].
Proof. exact one_column_out. Qed.
Print Assumptions C55_one_column_refuted.

Theorem C55_elementary_shape : forall e x,
  std (KElem e x) = Some (x_shape x, Some (elem_comp e (x_shape x))) /\
  c_out (elem_comp e (x_shape x)) = x_shape x /\ c_ins (elem_comp e (x_shape x)) = [x_shape x].
Proof. exact elementary_shape. Qed.
Print Assumptions C55_elementary_shape.

Theorem C80_inputs : forall k s c, std k = Some (s, Some c) ->
  NoDup (map fst (call_operands k)) -> like_shapes k ->
  c_ins c = map snd (call_operands k).
Proof. exact std_ins. Qed.
Print Assumptions C80_inputs.

Theorem C80_vector_operand : forall x y m n s c,
  x_shape x = [m; n] -> x_shape y = [n] -> std (KMatmat x y) = Some (s, Some c) ->
  c_ins c = [[m; n]; [n; 1]] /\ connectable [n] [n; 1].
Proof. exact matmat_vector_connects. Qed.
Print Assumptions C80_vector_operand.

Theorem C80_sum_actual : forall x y, x_name x <> x_name y -> exists c d,
  std (KSum [x; y] None) = Some (x_shape y, Some c) /\
  std (KAverage [x; y] None) = Some (x_shape y, Some d) /\
  c_ins c = [x_shape y; x_shape y] /\ c_ins d = [x_shape y; x_shape y].
Proof. exact unlike_sum. Qed.
Print Assumptions C80_sum_actual.

Theorem C80_inner_actual : forall x y n m axes, x_name x <> x_name y ->
  x_shape x = [n] -> x_shape y = [m] ->
  exists c, std (KInner x y axes) = Some ([1], Some c) /\ c_ins c = [[n]; [n]].
Proof. exact unlike_inner. Qed.
Print Assumptions C80_inner_actual.

Theorem C80_refuted : exists k s c,
  std k = Some (s, Some c) /\ NoDup (map fst (call_operands k)) /\
  ~ connectable (snd (nth 0 (call_operands k) (0, []))) (nth 0 (c_ins c) []).
Proof. exact not_connectable. Qed.
Print Assumptions C80_refuted.

Theorem C81_define : forall s x, x_shape x = s ->
  let c := snd (define s x) in
  c_ins c = [x_shape x] /\ c_out c = s /\ correct c same_meaning.
Proof. exact defined_value. Qed.
Print Assumptions C81_define.

Theorem C81_actual : forall s x, fst (define s x) = s /\ c_out (snd (define s x)) = x_shape x.
Proof. exact defined_shape. Qed.
Print Assumptions C81_actual.

Theorem C81_refuted : exists s x, ~ connectable (c_out (snd (define s x))) (fst (define s x)).
Proof. exact defined_wrong. Qed.
Print Assumptions C81_refuted.

Theorem C82_with_val : forall x y m n, x_name x <> x_name y ->
  x_shape x = [m; n] -> x_shape y = [n] -> size (x_val y) = n ->
  exists c s, matmat_comp [m; n] [n] = Some (c, s) /\ std (KMatmat x y) = Some (s, Some c).
Proof. exact matmat_with_val. Qed.
Print Assumptions C82_with_val.

Theorem C82_actual : forall x y m n,
  x_shape x = [m; n] -> x_shape y = [n] -> size (x_val y) <> n ->
  std (KMatmat x y) = Some ([m; 1], None).
Proof. exact matmat_needs_val. Qed.
Print Assumptions C82_actual.

Theorem C82_refuted : exists x y, x_shape x = [2; 3] /\ x_shape y = [3] /\ x_val y = [1] /\
  std (KMatmat x y) = Some ([2; 1], None).
Proof. exact computed_vector_refuted. Qed.
Print Assumptions C82_refuted.

Theorem C83_no_axes : forall x, exists c d,
  std (KSum [x] None) = Some ([1], Some c) /\ std (KAverage [x] None) = Some ([1], Some d) /\
  c_out c = [1] /\ c_out d = [1].
Proof. exact without_axes. Qed.
Print Assumptions C83_no_axes.

Theorem C83_every_axis_refuted : forall xs s zs axes, xs <> [] -> (forall x, In x xs -> x_shape x = s) ->
  Forall2 (axis_named (length s)) zs axes -> (forall i, i < length s -> In i axes) ->
  std (KSum xs (Some zs)) = Some ([], None) /\
  std (KAverage xs (Some zs)) = Some ([], None).
Proof. exact every_axis_raises. Qed.
Print Assumptions C83_every_axis_refuted.

Theorem C83_norm_refuted : forall x m zs axes, 1 <= m ->
  Forall2 (axis_named (length (x_shape x))) zs axes -> (forall i, i < length (x_shape x) -> In i axes) ->
  std (KNorm x (Z.of_nat (2 * m)) (NormAxes zs)) = Some ([], None).
Proof. exact every_axis_norm. Qed.
Print Assumptions C83_norm_refuted.

Theorem C84_which_build : forall k s b, std k = Some (s, b) -> covered k -> (b <> None <-> builds k).
Proof. exact which_build. Qed.
Print Assumptions C84_which_build.

Theorem C84_refuted : exists k s, std k = Some (s, None) /\ covered k /\
  NoDup (map fst (call_operands k)).
Proof. exact returned_unbuilt. Qed.
Print Assumptions C84_refuted.

Theorem C67_operand_twice_refuted : forall k s b, std k = Some (s, b) -> ~ is_einsum k ->
  ~ NoDup (map fst (call_operands k)) -> b = None.
Proof. exact twice_fails. Qed.
Print Assumptions C67_operand_twice_refuted.
