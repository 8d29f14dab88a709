(** Model of the arithmetic operators and the elementary functions.

    Simplifications: numbers and arrays hold exact reals (integer arrays, for
    which "value *= ..." raises a casting error, are not distinguished from
    float arrays); the types of constants that OpenMDAO's option checks reject
    (complex, np.int64) are not represented. *)
From Coq Require Import Reals Lia Arith List Bool ZArith.
From Verif Require Import RSum NdArray Component CompReorder.
Import ListNotations.
Local Open Scope R_scope.

(** ---- NumPy: broadcasting of two arrays ([bcast], [bcast_get]: Component.v) ---- *)
Definition np_bcast2 (f : R -> R -> R) (a b : nd R) : option (nd R) :=
  match bcast (shp a) (shp b) with
  | Some r => Some (of_fun r (fun idx => f (bcast_get a idx) (bcast_get b idx)))
  | None => None
  end.

(** a *= b: the result must have the shape of [a] *)
Definition inplace_mul (a b : nd R) : option (nd R) :=
  match np_bcast2 Rmult a b with
  | Some r => if list_eq_dec Nat.eq_dec (shp r) (shp a) then Some r else None
  | None => None
  end.

(** ---- powers ---- *)

(** An exponent: an integer value, or another real number. *)
Inductive expo := EInt (z : Z) | EReal (r : R).

Definition expo_val (p : expo) : R := match p with EInt z => IZR z | EReal r => r end.

(** power - 1. *)
Definition expo_pred (p : expo) : expo :=
  match p with EInt z => EInt (z - 1) | EReal r => EReal (r - 1) end.

(** power < 0 *)
Definition expo_neg (p : expo) : bool :=
  match p with
  | EInt z => Z.ltb z 0
  | EReal r => if Rlt_dec r 0 then true else false
  end.

Definition is_zero (x : R) : bool := if Req_EM_T x 0 then true else false.

(** x ** p is a finite number (otherwise NumPy gives inf or nan) *)
Definition pow_defined (x : R) (p : expo) : bool :=
  match p with
  | EInt z => negb (is_zero x && Z.ltb z 0)
  | EReal r => if Rlt_dec 0 x then true
               else if is_zero x then (if Rlt_dec 0 r then true else false) else false
  end.

(** x ** p *)
Definition np_pow (x : R) (p : expo) : R :=
  match p with
  | EInt z => powerRZ x z
  | EReal r => if Rlt_dec 0 x then Rpower x r else 0
  end.

(** all entries of [a] satisfy [P] *)
Definition np_all (P : R -> bool) (a : nd R) : bool :=
  forallb (fun k => P (dat a k)) (seq 0 (size (shp a))).

(** a ** p on an array; [None] when an entry is inf or nan, which the model does
    not represent *)
Definition np_power (a : nd R) (p : expo) : option (nd R) :=
  if np_all (fun x => pow_defined x p) a then Some (np_map (fun x => np_pow x p) a) else None.

(** Two inputs of one name: OpenMDAO's add_input raises. *)
Fixpoint names_ok (names : list nat) : bool :=
  match names with
  | [] => true
  | x :: l => negb (existsb (Nat.eqb x) l) && names_ok l
  end.

(** ---- LinearCombinationComp ---- *)

(** omtools/comps/linearcombination_comp.py L57-65 *)
Fixpoint linear_loop (acc : nd R) (l : list (nd R * R)) : nd R :=
  match l with
  | [] => acc
  | (x, k) :: l' => linear_loop (np_map2 Rplus acc (np_map (fun t => k * t) x)) l'
  end.

(** omtools/comps/linearcombination_comp.py L24-65; the partials are constant *)
Definition linear_comp (s : list nat) (names : list nat) (coeffs : list R) (constant : nd R)
  : option component :=
  if names_ok names then
    Some (Comp (repeat s (length names)) s
            (fun ins =>
               match assign_output s constant with
               | Some y => Some (linear_loop y (combine ins coeffs))
               | None => None
               end)
            (fun ins p =>
               match nth_error coeffs p with
               | Some k => as_sparse (sparse_partials (np_arange (size s)) (np_arange (size s)) (scalar k))
               | None => None
               end))
  else None.

(** ---- PowerCombinationComp ---- *)

(** The option coeff: a number, or an array the component does not copy. *)
Inductive coeff := CNum (c : R) | CArr (a : nd R).

Definition coeff_nd (c : coeff) : nd R := match c with CNum c => scalar c | CArr a => a end.

(** omtools/comps/arithmetic_comps/power_combination_comp.py L65-71 *)
Fixpoint power_loop (acc : nd R) (l : list (nd R * expo)) : option (nd R) :=
  match l with
  | [] => Some acc
  | (x, p) :: l' =>
      if negb (np_all (fun t => negb (is_zero t)) x) && expo_neg p then None (* exit() *)
      else match np_power x p with
           | Some y => match inplace_mul acc y with
                       | Some acc' => power_loop acc' l'
                       | None => None
                       end
           | None => None
           end
  end.

Definition power_compute (s : list nat) (powers : list expo) (c : coeff) (ins : list (nd R))
  : option (nd R) :=
  match assign_output s (coeff_nd c) with
  | Some y => power_loop y (combine ins powers)
  | None => None
  end.

(** omtools/comps/arithmetic_comps/power_combination_comp.py L79-81: "value *="
    changes the array given as coefficient itself; a number is only rebound *)
Fixpoint value_loop (a : nd R) (l : list (nd R * expo)) : option (nd R) :=
  match l with
  | [] => Some a
  | (x, p) :: l' =>
      match np_power x p with
      | Some y => match inplace_mul a y with
                  | Some a' => value_loop a' l'
                  | None => None
                  end
      | None => None
      end
  end.

(** The coefficient after one call of compute_partials. *)
Definition coeff_after (powers : list expo) (c : coeff) (ins : list (nd R)) : option coeff :=
  match c with
  | CNum k => Some (CNum k)
  | CArr a => match value_loop a (combine ins powers) with
              | Some a' => Some (CArr a')
              | None => None
              end
  end.

(** ... after one call for each list of inputs *)
Fixpoint coeffs_after (powers : list expo) (c : coeff) (calls : list (list (nd R))) : option coeff :=
  match calls with
  | [] => Some c
  | ins :: calls' => match coeff_after powers c ins with
                     | Some c' => coeffs_after powers c' calls'
                     | None => None
                     end
  end.

(** omtools/comps/arithmetic_comps/power_combination_comp.py L85-91, for the
    input with position [me] (names are distinct); [q] counts the inputs *)
Fixpoint deriv_loop (me q : nat) (d : nd R) (l : list (nd R * expo)) : option (nd R) :=
  match l with
  | [] => Some d
  | (x, p) :: l' =>
      let a := if Nat.eqb me q then expo_val p else 1 in
      let b := if Nat.eqb me q then expo_pred p else p in
      match np_power x b with
      | Some y => match inplace_mul d (np_map (fun t => a * t) y) with
                  | Some d' => deriv_loop me (S q) d' l'
                  | None => None
                  end
      | None => None
      end
  end.

(** omtools/comps/arithmetic_comps/power_combination_comp.py L73-93 *)
Definition power_partials (s : list nat) (powers : list expo) (c : coeff) (ins : list (nd R))
           (me : nat) : option jac :=
  match coeff_after powers c ins with
  | None => None
  | Some c' =>
      match np_bcast2 Rmult (coeff_nd c') (Nd s (fun _ => 1)) with
      | None => None
      | Some d =>
          match deriv_loop me 0 d (combine ins powers) with
          | Some d' => as_sparse (sparse_partials (np_arange (size s)) (np_arange (size s)) (np_flatten d'))
          | None => None
          end
      end
  end.

(** omtools/comps/arithmetic_comps/power_combination_comp.py L33-93 with
    omtools/comps/array_explicit_component.py L13-29 *)
Definition power_comp (s : list nat) (names : list nat) (powers : list expo) (c : coeff)
  : option component :=
  if names_ok names then
    Some (Comp (repeat s (length names)) s (power_compute s powers c) (power_partials s powers c))
  else None.

(** ---- the operators of Variable ---- *)

(** What an operator is applied to: an expression with its name and shape, a
    number, an array, or anything else. *)
Inductive operand :=
| OVar (name : nat) (s : list nat)
| ONum (c : R)
| OArr (a : nd R)
| OOther.

(** What an operator gives: an exception, an array of expressions (when NumPy
    takes over), or an expression with its shape and, if it has one, its build
    function ([Some None]: building or setting up raises). *)
Inductive outcome :=
| Raises
| ArrayOfExprs
| Expr (s : list nat) (build : option (option component)).

(** The exponent given by a number, as NumPy sees it. *)
Definition expo_of (c : R) : expo :=
  let z := up (c - 1) in if Req_EM_T (IZR z) c then EInt z else EReal c.

(** omtools/core/variable.py ElementwiseAddition.initialize L408-456 *)
Definition addition (a b : operand) : outcome :=
  match a, b with
  | OVar n s, OVar m t =>
      if list_eq_dec Nat.eq_dec s t
      then Expr s (Some (linear_comp s [n; m] [1; 1] (scalar 0)))
      else Raises
  | ONum c, OVar m t => Expr t (Some (linear_comp t [m] [1] (scalar c)))
  | OArr c, OVar m t => Expr t (Some (linear_comp t [m] [1] c))
  | OVar n s, ONum c => Expr s (Some (linear_comp s [n] [1] (scalar c)))
  | OVar n s, OArr c => Expr s (Some (linear_comp s [n] [1] c))
  | OVar n s, OOther => Expr s None
  | OOther, OVar m t => Expr t None
  | _, _ => Expr [1%nat] None
  end.

(** omtools/core/variable.py ElementwiseSubtraction.initialize L471-523 *)
Definition subtraction (a b : operand) : outcome :=
  match a, b with
  | OVar n s, OVar m t =>
      if list_eq_dec Nat.eq_dec s t
      then Expr s (Some (linear_comp s [n; m] [1; -1] (scalar 0)))
      else Raises
  | ONum c, OVar m t => Expr t (Some (linear_comp t [m] [-1] (scalar c)))
  | OArr c, OVar m t => Expr t (Some (linear_comp t [m] [-1] c))
  | OVar n s, ONum c => Expr s (Some (linear_comp s [n] [1] (scalar (- c))))
  | OVar n s, OArr c => Expr s (Some (linear_comp s [n] [1] (np_map Ropp c)))
  | OVar n s, OOther => Expr s None
  | OOther, OVar m t => Expr t None
  | _, _ => Expr [1%nat] None
  end.

(** omtools/core/variable.py ElementwiseMultiplication.initialize L538-592 *)
Definition multiplication (a b : operand) : outcome :=
  match a, b with
  | OVar n s, OVar m t =>
      if list_eq_dec Nat.eq_dec s t
      then Expr s (Some (power_comp s [n; m] [EInt 1; EInt 1] (CNum 1)))
      else Raises
  | ONum c, OVar m t => Expr t (Some (power_comp t [m] [EInt 1] (CNum c)))
  | OArr c, OVar m t => Expr t (Some (power_comp t [m] [EInt 1] (CArr c)))
  | OVar n s, ONum c => Expr s (Some (power_comp s [n] [EInt 1] (CNum c)))
  | OVar n s, OArr c => Expr s (Some (power_comp s [n] [EInt 1] (CArr c)))
  | OVar n s, OOther => Expr s None
  | OOther, OVar m t => Expr t None
  | _, _ => Expr [1%nat] None
  end.

(** omtools/core/variable.py ElementwiseDivision.initialize L607-663; the test
    "expr2 == 0" raises for an array that does not have exactly one entry *)
Definition division (a b : operand) : outcome :=
  match a, b with
  | OVar n s, OVar m t =>
      if list_eq_dec Nat.eq_dec s t
      then Expr s (Some (power_comp s [n; m] [EInt 1; EInt (-1)] (CNum 1)))
      else Raises
  | ONum c, OVar m t => Expr t (Some (power_comp t [m] [EInt (-1)] (CNum c)))
  | OArr c, OVar m t => Expr t (Some (power_comp t [m] [EInt (-1)] (CArr c)))
  | OVar n s, ONum c =>
      if Req_EM_T c 0 then Raises
      else Expr s (Some (power_comp s [n] [EInt 1] (CNum (1 / c))))
  | OVar n s, OArr c =>
      if Nat.eqb (size (shp c)) 1 then
        if Req_EM_T (dat c 0%nat) 0 then Raises
        else Expr s (Some (power_comp s [n] [EInt 1] (CArr (np_map (fun t => 1 / t) c))))
      else Raises
  | OVar n s, OOther => Expr s None
  | OOther, OVar m t => Expr t None
  | _, _ => Expr [1%nat] None
  end.

(** list(P) of an array: its rows; here the case of one axis *)
Definition np_list (a : nd R) : list R := map (dat a) (seq 0 (size (shp a))).

(** omtools/core/variable.py ElementwisePower.initialize L678-711 with
    omtools/utils/process_options.py get_scalars_list L20-28.  An exponent array
    becomes the list of its entries (one axis; with more axes the entries of the
    list are arrays, [None] here), and zip(in_names, powers) uses the first. *)
Definition power (a b : operand) : outcome :=
  match a, b with
  | OVar n s, ONum c => Expr s (Some (power_comp s [n] [expo_of c] (CNum 1)))
  | OVar n s, OArr c =>
      if list_eq_dec Nat.eq_dec s (shp c) then
        Expr s (Some (if Nat.eqb (length s) 1
                      then power_comp s [n] (map expo_of (np_list c)) (CNum 1) else None))
      else Raises
  | OVar n s, _ => Expr [1%nat] None
  | _, _ => Raises
  end.

Inductive binop := Add | Sub | Mul | Div | Pow.

Definition elementwise (op : binop) (a b : operand) : outcome :=
  match op with
  | Add => addition a b
  | Sub => subtraction a b
  | Mul => multiplication a b
  | Div => division a b
  | Pow => power a b
  end.

(** omtools/core/variable.py L43-103: "a op b" with Python's dispatch.  An
    expression on the left handles it; on the right it is asked second: numbers
    are accepted, anything else raises, an array on the left applies the
    operator to each of its entries, and there is no __rpow__ *)
Definition py_binop (op : binop) (a b : operand) : outcome :=
  match a, b with
  | OVar _ _, _ => elementwise op a b
  | ONum _, OVar _ _ => match op with Pow => Raises | _ => elementwise op a b end
  | OArr _, OVar _ _ => match op with Pow => Raises | _ => ArrayOfExprs end
  | _, _ => Raises
  end.

(** omtools/core/variable.py __neg__ L40-41 *)
Definition py_neg (a : operand) : outcome := multiplication a (ONum (-1)).

(** ---- elementary functions ---- *)

Inductive elem :=
| Sin | Cos | Tan | Sec | Cosec | Cotan
| Sinh | Cosh | Tanh | Sech | Cosech | Cotanh
| Arcsin | Arccos | Arctan | Exp | Log | Log10.

(** np.log10 *)
Definition np_log10 (x : R) : R := ln x / ln 10.

(** compute in omtools/comps/{sin,cos}comp.py L44-47, {tan,sec,cosec,cotan,sinh,
    cosh,tanh,sech,cosech,cotanh,arcsin,arccos,arctan,exp,log10}comp.py L43-46
    and logcomp.py L46-50 *)
Definition elem_value (e : elem) (x : nd R) : nd R :=
  match e with
  | Sin => (* sincomp.py L47 *)
      np_map sin x
  | Cos => (* coscomp.py L47 *)
      np_map cos x
  | Tan => (* tancomp.py L46 *)
      np_flatten (np_map tan x)
  | Sec => (* seccomp.py L46 *)
      np_map (fun t => 1 / t) (np_flatten (np_map cos x))
  | Cosec => (* coseccomp.py L46 *)
      np_map (fun t => 1 / t) (np_flatten (np_map sin x))
  | Cotan => (* cotancomp.py L46 *)
      np_map (fun t => 1 / t) (np_flatten (np_map tan x))
  | Sinh => (* sinhcomp.py L46 *)
      np_flatten (np_map sinh x)
  | Cosh => (* coshcomp.py L46 *)
      np_flatten (np_map cosh x)
  | Tanh => (* tanhcomp.py L46 *)
      np_flatten (np_map tanh x)
  | Sech => (* sechcomp.py L46 *)
      np_map (fun t => 1 / t) (np_flatten (np_map cosh x))
  | Cosech => (* cosechcomp.py L46 *)
      np_map (fun t => 1 / t) (np_flatten (np_map sinh x))
  | Cotanh => (* cotanhcomp.py L46 *)
      np_map (fun t => 1 / t) (np_flatten (np_map tanh x))
  | Arcsin => (* arcsincomp.py L46 *)
      np_flatten (np_map asin x)
  | Arccos => (* arccoscomp.py L46 *)
      np_flatten (np_map acos x)
  | Arctan => (* arctancomp.py L46 *)
      np_flatten (np_map atan x)
  | Exp => (* expcomp.py L46 *)
      np_flatten (np_map exp x)
  | Log => (* logcomp.py L50 *)
      np_flatten (np_map ln x)
  | Log10 => (* log10comp.py L46 *)
      np_flatten (np_map np_log10 x)
  end.

(** compute_partials in the same files (L48-53, sin and cos L49-52, log L52-55);
    sech flattens only its second factor and arcsin nothing *)
Definition elem_partial (e : elem) (x : nd R) : option (nd R) :=
  match e with
  | Sin => (* sincomp.py L52 *)
      Some (np_flatten (np_map cos x))
  | Cos => (* coscomp.py L52 *)
      Some (np_map Ropp (np_flatten (np_map sin x)))
  | Tan => (* tancomp.py L51-52 *)
      Some (np_map (fun t => 1 / t) (np_flatten (np_map (fun t => cos t ^ 2) x)))
  | Sec => (* seccomp.py L51-53 *)
      Some (np_flatten (np_map (fun t => sin t / cos t * (1 / cos t)) x))
  | Cosec => (* coseccomp.py L51-53 *)
      Some (np_map (fun t => -1 * t) (np_flatten (np_map (fun t => cos t / (sin t * sin t)) x)))
  | Cotan => (* cotancomp.py L51-52 *)
      Some (np_map (fun t => -1 / t) (np_flatten (np_map (fun t => sin t ^ 2) x)))
  | Sinh => (* sinhcomp.py L51 *)
      Some (np_flatten (np_map cosh x))
  | Cosh => (* coshcomp.py L51 *)
      Some (np_flatten (np_map sinh x))
  | Tanh => (* tanhcomp.py L51-52 *)
      Some (np_map (fun t => 1 - t) (np_flatten (np_map (fun t => tanh t ^ 2) x)))
  | Sech => (* sechcomp.py L51-52 *)
      np_bcast2 Rmult (np_map (fun t => -1 * tanh t) x)
                            (np_flatten (np_map (fun t => 1 / cosh t) x))
  | Cosech => (* cosechcomp.py L51-53 *)
      Some (np_map (fun t => -1 * t)
                      (np_flatten (np_map (fun t => 1 / tanh t * (1 / sinh t)) x)))
  | Cotanh => (* cotanhcomp.py L51-52 *)
      Some (np_map (fun t => 1 - t) (np_flatten (np_map (fun t => (1 / tanh t) ^ 2) x)))
  | Arcsin => (* arcsincomp.py L51 *)
      Some (np_map (fun t => 1 / sqrt (1 - t ^ 2)) x)
  | Arccos => (* arccoscomp.py L51-53 *)
      Some (np_flatten (np_map (fun t => -1 / sqrt (1 - t ^ 2)) x))
  | Arctan => (* arctancomp.py L51-52 *)
      Some (np_flatten (np_map (fun t => 1 / (1 + t ^ 2)) x))
  | Exp => (* expcomp.py L51 *)
      Some (np_flatten (np_map exp x))
  | Log => (* logcomp.py L55 *)
      Some (np_flatten (np_map (fun t => 1 / t) x))
  | Log10 => (* log10comp.py L51-52 *)
      Some (np_flatten (np_map (fun t => 1 / (ln 10 * t)) x))
  end.

(** the components (setup: L26-42 of the same files) *)
Definition elem_comp (e : elem) (s : list nat) : component :=
  Comp [s] s
    (fun ins => match ins with [x] => assign_output s (elem_value e x) | _ => None end)
    (fun ins p => match ins, p with
                  | [x], 0%nat =>
                      match elem_partial e x with
                      | Some d => as_sparse (sparse_partials (np_arange (size s)) (np_arange (size s)) d)
                      | None => None
                      end
                  | _, _ => None
                  end).

(** omtools/std/sin.py L9-21 and its siblings: the shape recorded on the result
    and the component *)
Definition std_elem (e : elem) (a : operand) : outcome :=
  match a with
  | OVar n s => Expr s (Some (Some (elem_comp e s)))
  | _ => Raises
  end.
