(** What the operators and elementary functions mean: relations between the
    entries of the operands and the entry of the result. *)
From Coq Require Import Reals Arith List Bool ZArith.
From Verif Require Import RSum NdArray CompElem.
Import ListNotations.
Local Open Scope R_scope.

(** The only operand [x] and the result [y] have one shape and their entries at
    every index are related. *)
Definition entries1 (rel : list nat -> R -> R -> Prop) (ins : list (nd R)) (y : nd R) : Prop :=
  exists x, ins = [x] /\ shp y = shp x /\
    forall idx, inb (shp y) idx -> rel idx (get x idx) (get y idx).

Definition entries2 (rel : R -> R -> R -> Prop) (ins : list (nd R)) (y : nd R) : Prop :=
  exists a b, ins = [a; b] /\ shp y = shp a /\ shp y = shp b /\
    forall idx, inb (shp y) idx -> rel (get a idx) (get b idx) (get y idx).

(** z is a + b, a - b, a * b, a / b *)
Definition op_rel (op : binop) (a b z : R) : Prop :=
  match op with
  | Add => z = a + b
  | Sub => z + b = a
  | Mul => z = a * b
  | Div => z * b = a
  | Pow => False
  end.

(** y is x to the power [c]: repeated multiplication for an integer exponent,
    its inverse for a negative one, and exp (c * log x) for a positive base *)
Definition power_rel (c x y : R) : Prop :=
  (forall n : nat, c = INR n -> y = x ^ n) /\
  (forall n : nat, c = - INR n -> y * x ^ n = 1) /\
  (0 < x -> y = exp (c * ln x)).

(** where x ** c is differentiable: positive bases; nonzero bases when the
    exponent is an integer; every base when it is a positive integer *)
Definition power_dom (c x : R) : Prop :=
  0 < x \/ (x <> 0 /\ exists z, c = IZR z) \/ (exists n, c = INR (S n)).

(** y is the value of the function at x *)
Definition elem_rel (e : elem) (x y : R) : Prop :=
  match e with
  | Sin => y = sin x
  | Cos => y = cos x
  | Tan => y * cos x = sin x
  | Sec => y * cos x = 1
  | Cosec => y * sin x = 1
  | Cotan => y * sin x = cos x
  | Sinh => 2 * y = exp x - exp (- x)
  | Cosh => 2 * y = exp x + exp (- x)
  | Tanh => y * (exp x + exp (- x)) = exp x - exp (- x)
  | Sech => y * (exp x + exp (- x)) = 2
  | Cosech => y * (exp x - exp (- x)) = 2
  | Cotanh => y * (exp x - exp (- x)) = exp x + exp (- x)
  | Arcsin => - (PI / 2) <= y <= PI / 2 /\ sin y = x
  | Arccos => 0 <= y <= PI /\ cos y = x
  | Arctan => - (PI / 2) < y < PI / 2 /\ sin y = x * cos y
  | Exp => y = exp x
  | Log => exp y = x
  | Log10 => exp (y * ln 10) = x
  end.

(** where it is defined and differentiable (cotan is computed as 1/tan, so the
    poles of tan are excluded as well) *)
Definition elem_dom (e : elem) (x : R) : Prop :=
  match e with
  | Tan | Sec => cos x <> 0
  | Cosec => sin x <> 0
  | Cotan => cos x <> 0 /\ sin x <> 0
  | Cosech | Cotanh => x <> 0
  | Arcsin | Arccos => -1 < x < 1
  | Log | Log10 => 0 < x
  | _ => True
  end.

(** every entry of the first operand is in the domain *)
Definition all_entries (n : nat) (P : R -> Prop) (v : nat -> nat -> R) : Prop :=
  forall o, (o < n)%nat -> P (v 0%nat o).
