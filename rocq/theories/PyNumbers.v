(** The kinds of numbers that can stand beside an expression (numbers.Number), and what the
    operators of omtools/core/variable.py make of them.  CompElem.v has the operators for the numbers
    that the components accept.  A number of NumPy on the left (NumPy's own operator is asked
    first) and kinds not listed are left out. *)
From Coq Require Import Reals ZArith QArith Qreals List.
From Verif Require Import RSum NdArray Component CompElem.
Import ListNotations.
Local Open Scope R_scope.

(** Python: the numbers, with the classes isinstance tells apart.  numpy.float64 is a subclass of
    float and bool one of int; numpy.int64 is not one of int. *)
Inductive number :=
| PBool (b : bool) | PInt (z : Z) | PFloat (r : R)
| NFloat64 (r : R) | NInt64 (z : Z)
| PComplex (re im : R) | PFraction (q : Q) | PDecimal (r : R).

(** The value if the options coeff, constant and powers of the components accept the number: they
    are declared with types int, float and ndarray (comps/linearcombination_comp.py L17-24,
    comps/arithmetic_comps/power_combination_comp.py L15-22, utils/process_options.py L16); OpenMDAO
    raises TypeError for anything else when the component is made. *)
Definition option_value (x : number) : option R :=
  match x with
  | PBool b => Some (if b then 1 else 0)
  | PInt z => Some (IZR z)
  | PFloat r | NFloat64 r => Some r
  | _ => None
  end.

(** Python: -x *)
Definition py_opp (x : number) : number :=
  match x with
  | PBool b => PInt (if b then -1 else 0)
  | PInt z => PInt (- z)
  | PFloat r => PFloat (- r)
  | NFloat64 r => NFloat64 (- r)
  | NInt64 z => NInt64 (- z)
  | PComplex a b => PComplex (- a) (- b)
  | PFraction q => PFraction (- q)
  | PDecimal r => PDecimal (- r)
  end.

(** Python: 1 / x for x not zero *)
Definition py_inv (x : number) : number :=
  match x with
  | PBool b => PFloat (1 / (if b then 1 else 0))
  | PInt z => PFloat (1 / IZR z)
  | PFloat r => PFloat (1 / r)
  | NFloat64 r => NFloat64 (1 / r)
  | NInt64 z => NFloat64 (1 / IZR z)
  | PComplex a b => PComplex (a / (a * a + b * b)) (- b / (a * a + b * b))
  | PFraction q => PFraction (/ q)
  | PDecimal r => PDecimal (1 / r)
  end.

(** Python: x == 0 *)
Definition is_zero (x : number) : bool :=
  let test r := if Req_EM_T r 0 then true else false in
  match x with
  | PBool b => negb b
  | PInt z | NInt64 z => Z.eqb z 0
  | PFloat r | NFloat64 r | PDecimal r => test r
  | PComplex a b => test a && test b
  | PFraction q => Qeq_bool q 0
  end%bool.

(** building a component with an option that is the number [x] *)
Definition with_option (x : number) (f : R -> option component) : option component :=
  match option_value x with Some c => f c | None => None end.

(** "e op x", e an expression of name [n] and shape [s]: core/variable.py L446-456 (addition),
    L511-523 (subtraction), L579-592 (multiplication), L648-663 (division), L683-693 (power) *)
Definition expr_number (op : binop) (n : nat) (s : shape) (x : number) : outcome :=
  match op with
  | Add => Expr s (Some (with_option x (fun c => linear_comp s [n] [1] (scalar c))))
  | Sub => Expr s (Some (with_option (py_opp x) (fun c => linear_comp s [n] [1] (scalar c))))
  | Mul => Expr s (Some (with_option x (fun c => power_comp s [n] [EInt 1] (CNum c))))
  | Div => if is_zero x then Raises
           else Expr s (Some (with_option (py_inv x) (fun c => power_comp s [n] [EInt 1] (CNum c))))
  | Pow => Expr s (Some (with_option x (fun c => power_comp s [n] [expo_of c] (CNum 1))))
  end.

(** "x op e": core/variable.py L73-103 (the reflected operators, none for the power), then
    L434-444, L497-509, L564-577, L633-646 *)
Definition number_expr (op : binop) (n : nat) (s : shape) (x : number) : outcome :=
  match op with
  | Add => Expr s (Some (with_option x (fun c => linear_comp s [n] [1] (scalar c))))
  | Sub => Expr s (Some (with_option x (fun c => linear_comp s [n] [-1] (scalar c))))
  | Mul => Expr s (Some (with_option x (fun c => power_comp s [n] [EInt 1] (CNum c))))
  | Div => Expr s (Some (with_option x (fun c => power_comp s [n] [EInt (-1)] (CNum c))))
  | Pow => Raises
  end.
