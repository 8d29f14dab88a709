(** How the axes of sum, average, pnorm, max, min, dot and inner may be written
    down: a number, a tuple or a list.

    StdCalls.v has the calls with the axes in the form the functions are
    documented with.  This file adds the other forms.  The components declare
    their options with types (types=tuple, types=int), and OpenMDAO raises when
    an option of another type is given; that happens when the component is
    built.  np.delete takes numbers, tuples and lists alike. *)
From Coq Require Import Reals Arith List Bool ZArith.
From Verif Require Import PyBase RSum NdArray Component CompReorder CompReduce CompProduct CompTensor CompElem
  CompExtremum CompNorm CompCond StdCalls.
Import ListNotations.
Local Open Scope nat_scope.

(** axis=z, axis=(z, ...), axis=[z, ...]; the entries are Python ints *)
Inductive axes_arg := AInt (z : Z) | ATuple (zs : list Z) | AList (zs : list Z).

(** the axes np.delete removes *)
Definition axes_listed (a : axes_arg) : list Z :=
  match a with AInt z => [z] | ATuple zs => zs | AList zs => zs end.

(** An option declared with types=tuple: comps/single_tensor_sum_comp.py L31,
    multiple_tensor_sum_comp.py L30, single_tensor_average_comp.py L31,
    multiple_tensor_average_comp.py L30, tensor_inner_product_comp.py L14 *)
Definition tuple_only (a : axes_arg) (c : option component) : option component :=
  match a with ATuple _ => c | _ => None end.

(** std/sum.py L23-67 with axes given: the shape by np.delete, then the option *)
Definition sum_axes_call (xs : list expr_facts) (a : axes_arg) : option (shape * option component) :=
  returns (reduced_shape xs (Some (axes_listed a)))
          (tuple_only a (distinct_inputs xs (sum_comp (last_shape xs) (length xs) (Some (axes_listed a))))).

(** std/average.py L25-69 with axes given *)
Definition average_axes_call (xs : list expr_facts) (a : axes_arg) : option (shape * option component) :=
  returns (reduced_shape xs (Some (axes_listed a)))
          (tuple_only a (distinct_inputs xs (average_comp (last_shape xs) (length xs) (Some (axes_listed a))))).

(** std/pnorm.py L26-28 (a list is rejected) and L54 (a number is put into a
    tuple) *)
Definition norm_call (s : shape) (p : Z) (a : axes_arg) : option (shape * option component) :=
  match a with
  | AInt z => pnorm s p (NormAxes [z])
  | ATuple zs => pnorm s p (NormAxes zs)
  | AList _ => pnorm s p NormAxisOther
  end.

(** std/max.py L34-45 and std/min.py L34-45: np.delete(expr.shape, axis), then a
    component whose axis has types=int (comps/axiswise_max_comp.py L9,
    axiswise_min_comp.py L9); several expressions and an axis: L75-76 raise *)
Definition extremum_call (neg : bool) (xs : list expr_facts) (a : axes_arg) (rho : R)
  : option (shape * option component) :=
  match a, xs with
  | AInt z, _ => extremum neg (map name_shape xs) (Some z) rho
  | _, [x] => returns (np_delete_axes (x_shape x) (axes_listed a)) None
  | _, _ => None
  end.

(** std/dot.py L28-61: the axis is not looked at for vectors; otherwise
    expr1.shape[axis] raises TypeError for a tuple or a list *)
Definition dot_call (x y : expr_facts) (a : axes_arg) : option (shape * option component) :=
  match a, x_shape x with
  | AInt z, _ => std (KDot x y (Some z))
  | _, [_] => std (KDot x y None)
  | _, _ => None
  end.

(** std/inner.py L29-54: axes is a pair, written as a tuple or as a list, of axes
    of the first and of the second expression.  np.delete and np.tensordot take
    the members in every form.  Not looked at for vectors. *)
Definition inner_call (x y : expr_facts) (pair_is_tuple : bool) (a b : axes_arg) : option (shape * option component) :=
  let axes := Some (axes_listed a, axes_listed b) in
  match x_shape x, x_shape y with
  | [_], [_] => std (KInner x y axes)
  | _, _ =>
      if pair_is_tuple then std (KInner x y axes)
      else returns (inner_shape (x_shape x) (x_shape y) axes) None
  end.
