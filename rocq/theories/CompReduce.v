(** Model of sum and average.

    Simplifications: the operands have one common shape [s] (the code uses the
    last operand's shape for all and does not compare them) and distinct names
    (OpenMDAO rejects a component with two inputs of one name). *)
From Coq Require Import Reals Lia Arith List Bool ZArith.
From Verif Require Import RSum NdArray Component CompReorder.
Import ListNotations.
Local Open Scope nat_scope.

(** np.sum(x, axis=axes) and np.average: NumPy rejects repeated axes *)
Definition sum_axes_opt (axes : list nat) (x : nd R) : option (nd R) :=
  if nodupb axes then Some (np_sum_axes x axes) else None.

(** np.average(x, axis=axes): the sum divided by the number of elements that
    were added *)
Definition shape_prod (s : shape) (axes : list nat) : nat :=
  size (map (fun i => nth i s 0) axes).
Definition average_axes_opt (axes : list nat) (x : nd R) : option (nd R) :=
  if nodupb axes
  then Some (np_map (fun t => t / INR (shape_prod (shp x) axes))%R (np_sum_axes x axes))
  else None.

(** a + b on arrays of one shape, option-lifted: the loop
    "outputs[out] = f(inputs[0]); outputs[out] += f(inputs[i])" *)
Fixpoint add_all (f : nd R -> option (nd R)) (acc : nd R) (l : list (nd R)) : option (nd R) :=
  match l with
  | [] => Some acc
  | x :: l' =>
      match f x with
      | Some y => add_all f (np_map2 Rplus acc y) l'
      | None => None
      end
  end.

Definition loop_sum (f : nd R -> option (nd R)) (ins : list (nd R)) : option (nd R) :=
  match ins with
  | [] => None
  | x :: l => match f x with Some y => add_all f y l | None => None end
  end.

(** rows of the axis-wise pattern, single_tensor_average_comp.py L64-66 (and
    the same three lines in the other three components): unravel, delete, ravel *)
Definition axis_rows (s : shape) (axes : list nat) : nd nat :=
  Nd [size s] (fun k => ravel (delete axes s) (delete axes (unravel s k))).

(** np.ravel_multi_index raises when every axis was deleted *)
Definition axis_left (s : shape) (axes : list nat) : bool := Nat.ltb 0 (length (delete axes s)).

Definition axis_partials (s : shape) (axes : list nat) (v : R) : option coo :=
  sparse_partials (axis_rows s axes) (np_arange (size s)) (np_full1 (size s) v).

Definition diag_partials (s : shape) (v : R) : option coo :=
  sparse_partials (np_arange (size s)) (np_arange (size s)) (np_full1 (size s) v).

(** Every input has the same partials, those in [d]. *)
Definition comp_n (s : shape) (n : nat) (s' : shape) (f : list (nd R) -> option (nd R))
           (d : option jac) : component :=
  Comp (repeat s n) s' f (fun _ p => if Nat.ltb p n then d else None).

(** A value assigned to an output declared without shape, which has shape (1,) *)
Definition to_scalar (y : nd R) : nd R := Nd [1] (dat y).

(** omtools/std/sum.py L8-66 with SingleTensorSumComp (comps/
    single_tensor_sum_comp.py L36-88) for one operand and MultipleTensorSumComp
    (comps/multiple_tensor_sum_comp.py L35-102) for several; [None] when the
    call or setup raises.  No operand: [expr] is unbound. *)
Definition sum_comp (s : shape) (n : nat) (axes : option (list Z)) : option component :=
  match n, axes with
  | 0, _ => None
  | 1, None =>
      Some (comp_n s 1 [1]
              (fun ins => match ins with [x] => Some (to_scalar (np_sum x)) | _ => None end)
              (Some (Dense (np_ones (size s)))))
  | _, None =>
      Some (comp_n s n s (loop_sum (fun x => Some x)) (as_sparse (diag_partials s 1%R)))
  | _, Some zs =>
      match norm_axes (length s) zs with
      | Some axes =>
          if axis_left s axes then
            Some (comp_n s n (delete axes s) (loop_sum (sum_axes_opt axes))
                         (as_sparse (axis_partials s axes 1%R)))
          else None
      | None => None
      end
  end.

(** np.prod(np.array(shape)[axes]), [axes] a tuple: the empty tuple selects the
    whole array, one index one extent, more indices raise IndexError
    (single_tensor_average_comp.py L68,
    multiple_tensor_average_comp.py L75) *)
Definition entries_averaged (s : shape) (axes : list nat) : option nat :=
  match axes with
  | [] => Some (size s)
  | [a] => Some (nth a s 0)
  | _ => None
  end.

(** dividing the accumulated sum by num_inputs *)
Definition divide_by (n : nat) (y : option (nd R)) : option (nd R) :=
  option_map (np_map (fun t => t / INR n)%R) y.

(** omtools/std/average.py L8-68 with SingleTensorAverageComp (comps/
    single_tensor_average_comp.py L35-87) and MultipleTensorAverageComp (comps/
    multiple_tensor_average_comp.py L34-103) *)
Definition average_comp (s : shape) (n : nat) (axes : option (list Z)) : option component :=
  match n, axes with
  | 0, _ => None
  | 1, None =>
      Some (comp_n s 1 [1]
              (fun ins => match ins with
                          | [x] => Some (to_scalar (np_map (fun t => t / INR (size (shp x)))%R (np_sum x)))
                          | _ => None end)
              (Some (Dense (np_full1 (size s) (1 / INR (size s))%R))))
  | _, None =>
      Some (comp_n s n s (fun ins => divide_by n (loop_sum (fun x => Some x) ins))
                   (as_sparse (diag_partials s (1 / INR n)%R)))
  | _, Some zs =>
      match norm_axes (length s) zs with
      | Some axes =>
          match entries_averaged s axes, axis_left s axes with
          | Some m, true =>
              Some (comp_n s n (delete axes s)
                      (fun ins =>
                         if Nat.eqb n 1
                         then match ins with [x] => average_axes_opt axes x | _ => None end
                         else divide_by n (loop_sum (average_axes_opt axes) ins))
                      (as_sparse (axis_partials s axes
                         (if Nat.eqb n 1 then 1 / INR m else 1 / (INR m * INR n))%R)))
          | _, _ => None
          end
      | None => None
      end
  end.
