(** C29-C35 and C67-C69: operators and elementary functions.  Specification:
    SpecElem.v, JacSpec.v and JacOpen.v.  Concrete cases: elem_instance in
    ElemProofs.v, arith_instance, mul_array_instance and power_array_instance in
    ArithRefute.v. *)
From Coq Require Import Reals Lra Arith List Lia.
From Verif Require Import PyBase RSum NdArray Component JacSpec JacOpen CompElem SpecElem
  ElemProofs ArithProofs ArithRefute.
Import ListNotations.
Local Open Scope R_scope.

Theorem C29_expressions : forall op n m s, op = Add \/ op = Sub -> n <> m ->
  exists c, py_binop op (OVar n s) (OVar m s) = Expr s (Some (Some c)) /\
    c_ins c = [s; s] /\ c_out c = s /\ correct c (entries2 (op_rel op)).
Proof. exact linear_exprs. Qed.
Print Assumptions C29_expressions.

Theorem C29_number_right : forall op n s k, op = Add \/ op = Sub ->
  exists c, py_binop op (OVar n s) (ONum k) = Expr s (Some (Some c)) /\
    c_ins c = [s] /\ c_out c = s /\ correct c (entries1 (fun _ x y => op_rel op x k y)).
Proof. exact linear_right_number. Qed.
Print Assumptions C29_number_right.

Theorem C29_number_left : forall op n s k, op = Add \/ op = Sub ->
  exists c, py_binop op (ONum k) (OVar n s) = Expr s (Some (Some c)) /\
    c_ins c = [s] /\ c_out c = s /\ correct c (entries1 (fun _ x y => op_rel op k x y)).
Proof. exact linear_left_number. Qed.
Print Assumptions C29_number_left.

Theorem C29_array_right : forall op n s a, op = Add \/ op = Sub -> shp a = s ->
  exists c, py_binop op (OVar n s) (OArr a) = Expr s (Some (Some c)) /\
    c_ins c = [s] /\ c_out c = s /\ correct c (entries1 (fun idx x y => op_rel op x (get a idx) y)).
Proof. exact linear_right_array. Qed.
Print Assumptions C29_array_right.

Theorem C30_product : forall n m s, n <> m ->
  exists c, py_binop Mul (OVar n s) (OVar m s) = Expr s (Some (Some c)) /\
    c_ins c = [s; s] /\ c_out c = s /\ correct c (entries2 (op_rel Mul)).
Proof. exact mul_exprs. Qed.
Print Assumptions C30_product.

Theorem C30_quotient : forall n m s, n <> m ->
  exists c, py_binop Div (OVar n s) (OVar m s) = Expr s (Some (Some c)) /\
    c_ins c = [s; s] /\ c_out c = s /\
    correct_within (fun v => forall o, (o < size s)%nat -> v 1%nat o <> 0) c (entries2 (op_rel Div)).
Proof. exact div_exprs. Qed.
Print Assumptions C30_quotient.

Theorem C30_number_right : forall op n s k, op = Mul \/ (op = Div /\ k <> 0) ->
  exists c, py_binop op (OVar n s) (ONum k) = Expr s (Some (Some c)) /\
    c_ins c = [s] /\ c_out c = s /\ correct c (entries1 (fun _ x y => op_rel op x k y)).
Proof. exact scale_number. Qed.
Print Assumptions C30_number_right.

Theorem C30_number_times : forall n s k,
  exists c, py_binop Mul (ONum k) (OVar n s) = Expr s (Some (Some c)) /\
    c_ins c = [s] /\ c_out c = s /\ correct c (entries1 (fun _ x y => op_rel Mul k x y)).
Proof. exact scale_left_number. Qed.
Print Assumptions C30_number_times.

Theorem C30_number_over : forall n s k,
  exists c, py_binop Div (ONum k) (OVar n s) = Expr s (Some (Some c)) /\
    c_ins c = [s] /\ c_out c = s /\
    correct_within (all_entries (size s) (fun x => x <> 0)) c
                   (entries1 (fun _ x y => op_rel Div k x y)).
Proof. exact div_left_number. Qed.
Print Assumptions C30_number_over.

Theorem C30_power : forall n s k,
  exists c, py_binop Pow (OVar n s) (ONum k) = Expr s (Some (Some c)) /\
    c_ins c = [s] /\ c_out c = s /\
    correct_within (all_entries (size s) (power_dom k)) c (entries1 (fun _ => power_rel k)).
Proof. exact power_number. Qed.
Print Assumptions C30_power.

Theorem C30_negation : forall n s,
  exists c, py_neg (OVar n s) = Expr s (Some (Some c)) /\
    c_ins c = [s] /\ c_out c = s /\ correct c (entries1 (fun _ x y => y = - x)).
Proof. exact neg_expr. Qed.
Print Assumptions C30_negation.

(** What x * A really does: [xs] are the points of the earlier linearizations. *)
Theorem C31_multiplying_by_array_actual :
  forall n s (a : nd R) (xs : list (nat -> R)) (x : nat -> R), shp a = s ->
  py_binop Mul (OVar n s) (OArr a) = Expr s (Some (power_comp s [n] [EInt 1] (CArr a))) /\
  exists a', coeffs_after [EInt 1] (CArr a) (map (fun x => [Nd s x]) xs) = Some (CArr a') /\
    (exists y, power_compute s [EInt 1] (CArr a') [Nd s x] = Some y /\ shp y = s /\
       forall o, (o < size s)%nat ->
         dat y o = dat a o * fold_right Rmult 1 (map (fun x => x o) xs) * x o) /\
    diag_jac s (fun o => dat a o * fold_right Rmult 1 (map (fun x => x o) xs) * x o)
      (power_partials s [EInt 1] (CArr a') [Nd s x] 0).
Proof. exact mul_array_actual. Qed.
Print Assumptions C31_multiplying_by_array_actual.

Theorem C31_multiplying_by_array_refuted :
  forall n s (a : nd R) o, shp a = s -> (o < size s)%nat -> dat a o <> 0 ->
  exists c, py_binop Mul (OVar n s) (OArr a) = Expr s (Some (Some c)) /\
    forall meaning : list (nd R) -> nd R -> Prop, ~ correct c meaning.
Proof. exact mul_array_wrong. Qed.
Print Assumptions C31_multiplying_by_array_refuted.

Theorem C32_only_first_exponent : forall n m (p : nd R), shp p = [m] -> (0 < m)%nat ->
  exists c c0, py_binop Pow (OVar n [m]) (OArr p) = Expr [m] (Some (Some c)) /\
    py_binop Pow (OVar n [m]) (ONum (dat p 0%nat)) = Expr [m] (Some (Some c0)) /\
    c_ins c = c_ins c0 /\ c_out c = c_out c0 /\
    forall x, c_compute c [x] = c_compute c0 [x] /\ c_partials c [x] 0%nat = c_partials c0 [x] 0%nat.
Proof. exact power_array_first. Qed.
Print Assumptions C32_only_first_exponent.

Theorem C32_exponent_array_refuted : forall n m (p : nd R) o, shp p = [m] -> (o < m)%nat ->
  dat p o <> dat p 0%nat ->
  exists c, py_binop Pow (OVar n [m]) (OArr p) = Expr [m] (Some (Some c)) /\
    ~ correct_within (all_entries m (fun x => 0 < x)) c (entries1 (fun idx => power_rel (get p idx))).
Proof. exact power_array_wrong. Qed.
Print Assumptions C32_exponent_array_refuted.

Theorem C33_elementary : forall e s, any_rank e = true \/ length s = 1%nat ->
  correct_within (all_entries (size s) (elem_dom e)) (elem_comp e s)
                 (entries1 (fun _ => elem_rel e)).
Proof. exact elem_correct. Qed.
Print Assumptions C33_elementary.

Theorem C34_unsupported_operands_refuted : forall op n s,
  py_binop op (OVar n s) OOther = Expr (match op with Pow => [1%nat] | _ => s end) None /\
  py_binop op OOther (OVar n s) = Raises /\
  forall m t, py_binop Pow (OVar n s) (OVar m t) = Expr [1%nat] None.
Proof. exact other_operands. Qed.
Print Assumptions C34_unsupported_operands_refuted.

(** C34, what the code does: exactly these operands give an expression that computes nothing. *)
Theorem C34_actual : forall op a b,
  (exists s, py_binop op a b = Expr s None) <->
  (exists n s, a = OVar n s) /\ (b = OOther \/ op = Pow /\ exists m t, b = OVar m t).
Proof. exact unsupported_exact. Qed.
Print Assumptions C34_actual.

Theorem C35_shapes_must_match : forall op n m s t, op <> Pow ->
  (py_binop op (OVar n s) (OVar m t) <> Raises <-> s = t) /\
  (s = t -> exists b, py_binop op (OVar n s) (OVar m t) = Expr s b).
Proof. exact shapes_accepted. Qed.
Print Assumptions C35_shapes_must_match.

Theorem C35_division_by_number : forall n s c,
  (c = 0 -> py_binop Div (OVar n s) (ONum c) = Raises) /\
  (c <> 0 -> exists k, py_binop Div (OVar n s) (ONum c) = Expr s (Some (Some k))).
Proof. exact divide_by_number. Qed.
Print Assumptions C35_division_by_number.

Theorem C67_same_expression_twice_refuted : forall op n s, op <> Pow ->
  py_binop op (OVar n s) (OVar n s) = Expr s (Some None).
Proof. exact same_operand. Qed.
Print Assumptions C67_same_expression_twice_refuted.

Theorem C68_constant_arrays_refuted : forall n s a,
  (forall op, op <> Pow -> py_binop op (OArr a) (OVar n s) = ArrayOfExprs) /\
  (size (shp a) <> 1%nat -> py_binop Div (OVar n s) (OArr a) = Raises).
Proof. exact array_operands. Qed.
Print Assumptions C68_constant_arrays_refuted.

(** C68, what the code does with an array on the right: +, - and * give one expression
    (its value: C113), / does exactly for one entry that is not zero. *)
Theorem C68_actual : forall n s a,
  (forall op, op = Add \/ op = Sub \/ op = Mul -> exists k, py_binop op (OVar n s) (OArr a) = Expr s (Some (Some k))) /\
  (py_binop Div (OVar n s) (OArr a) <> Raises <-> size (shp a) = 1%nat /\ dat a 0%nat <> 0) /\
  (py_binop Div (OVar n s) (OArr a) <> Raises -> exists k, py_binop Div (OVar n s) (OArr a) = Expr s (Some (Some k))) /\
  py_binop Pow (OArr a) (OVar n s) = Raises.
Proof. exact arrays_right. Qed.
Print Assumptions C68_actual.

Theorem C69_higher_rank_refuted : forall e s v, any_rank e = false -> (2 <= length s)%nat ->
  c_partials (elem_comp e s) (inputs_of [s] v) 0%nat = None.
Proof. exact elem_rank2_raises. Qed.
Print Assumptions C69_higher_rank_refuted.
