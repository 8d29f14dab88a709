(** C115.  Specification: SpecNumbers.v; the operators: PyNumbers.v, and CompElem.v for the numbers the
    components accept.  Concrete cases: number_cases in NumberProofs.v. *)
From Coq Require Import Reals List.
From Verif Require Import NdArray Component CompElem PyNumbers SpecNumbers NumberProofs.
Import ListNotations.
Local Open Scope R_scope.

(** C115 REFUTED: some number that is not zero stands beside an expression and the component cannot be built. *)
Theorem C115_refuted : ~ (forall op n s x c, stands x c -> c <> 0 ->
  exists k, expr_number op n s x = Expr s (Some (Some k))).
Proof. exact numbers_refuted. Qed.
Print Assumptions C115_refuted.

(** C115, what the code does with a number on the right: int, float and their subclasses mean the number;
    any other kind gives an expression whose component cannot be built, except that dividing by a
    NumPy integer is right. *)
Theorem C115_right : forall op n s x c, stands x c ->
  (int_or_float x -> expr_number op n s x = py_binop op (OVar n s) (ONum c)) /\
  (~ int_or_float x -> op <> Div -> expr_number op n s x = Expr s (Some None)) /\
  (~ int_or_float x -> op = Div -> c <> 0 ->
   (of_numpy x -> expr_number op n s x = py_binop op (OVar n s) (ONum c)) /\
   (~ of_numpy x -> expr_number op n s x = Expr s (Some None))) /\
  (c = 0 -> expr_number Div n s x = Raises).
Proof. exact numbers_right. Qed.
Print Assumptions C115_right.

(** On the left. *)
Theorem C115_left : forall op n s x c, stands x c -> ~ of_numpy x ->
  (int_or_float x -> number_expr op n s x = py_binop op (ONum c) (OVar n s)) /\
  (~ int_or_float x -> op <> Pow -> number_expr op n s x = Expr s (Some None)) /\
  number_expr Pow n s x = Raises.
Proof. exact numbers_left. Qed.
Print Assumptions C115_left.

(** Complex numbers that are not real, on either side. *)
Theorem C115_complex : forall op n s a b, b <> 0 ->
  expr_number op n s (PComplex a b) = Expr s (Some None) /\
  (op <> Pow -> number_expr op n s (PComplex a b) = Expr s (Some None)).
Proof. exact complex_never. Qed.
Print Assumptions C115_complex.
