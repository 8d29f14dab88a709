(** Model of max and min: smooth extrema of one array, of one array along an
    axis, and of several arrays entry by entry. *)
From Coq Require Import Reals Lia Arith List Bool ZArith.
From Verif Require Import RSum NdArray NdEinsum Component CompReorder CompElem.
Import ListNotations.
Local Open Scope R_scope.

(** The files for min are those for max with the input negated and the result
    negated; [neg] says which one. *)
Definition neg_if (neg : bool) (x : nd R) : nd R := if neg then np_map Ropp x else x.

(** ---- several arrays ---- *)

(** omtools/comps/elementwise_max_comp.py L31-33 (again L47-49),
    elementwise_min_comp.py L31-33 *)
Definition fmax_of (neg : bool) (ins : list (nd R)) : nd R :=
  let x0 := nth 0 ins (scalar 0) in
  fold_left (fun acc x => np_map2 Rmax acc (neg_if neg x)) ins
            (np_map (fun t => t - 1) (neg_if neg x0)).

(** np.exp(rho * (inputs[in_name] - fmax)) *)
Definition ks_exp (rho : R) (neg : bool) (x fmax : nd R) : nd R :=
  np_map (fun t => exp (rho * t)) (np_map2 Rminus (neg_if neg x) fmax).

(** elementwise_max_comp.py L35-37 (again L51-53); 0. + array *)
Definition arg_of (rho : R) (neg : bool) (ins : list (nd R)) (fmax : nd R) : nd R :=
  fold_left (fun acc x => np_map2 Rplus acc (ks_exp rho neg x fmax)) ins
            (Nd (shp fmax) (fun _ => 0)).

(** elementwise_max_comp.py L14-62 and elementwise_min_comp.py L14-62 *)
Definition elementwise_ext (neg : bool) (rho : R) (s : list nat) (names : list nat) : option component :=
  if names_ok names then
    Some (Comp (repeat s (length names)) s
            (fun ins =>
               let fmax := fmax_of neg ins in
               let arg := arg_of rho neg ins fmax in
               assign_output s (neg_if neg (np_map2 Rplus fmax (np_map (fun t => 1 / rho * ln t) arg))))
            (fun ins p =>
               let fmax := fmax_of neg ins in
               let arg := arg_of rho neg ins fmax in
               match nth_error ins p with
               | Some x =>
                   as_sparse (sparse_partials (np_arange (size s)) (np_arange (size s))
                     (np_flatten (np_map2 Rmult (np_map (fun t => 1 / t) arg) (ks_exp rho neg x fmax))))
               | None => None
               end))
  else None.

(** ---- along one axis ---- *)

Fixpoint rmax (n : nat) (f : nat -> R) : R :=
  match n with
  | O => 0
  | S O => f O
  | S m => Rmax (rmax m f) (f m)
  end.

(** idx with [j] inserted as entry number [a] *)
Definition insert_at (a j : nat) (idx : list nat) : list nat := firstn a idx ++ j :: skipn a idx.

(** np.max(x, axis=a); NumPy raises on an empty axis *)
Definition np_max_axis (x : nd R) (a : nat) : option (nd R) :=
  let n := nth a (shp x) 0%nat in
  if Nat.eqb n 0 then None
  else Some (of_fun (delete [a] (shp x)) (fun idx => rmax n (fun j => get x (insert_at a j idx)))).

(** np.einsum(einsum_str, y, ones) with einsum_str of axiswise_max_comp.py
    L38-44: the letters without the axis, the axis, all letters; the twelve
    letters must suffice for all axes (tested in [axis_ext]) *)
Definition spread (s : list nat) (a : nat) (y : nd R) : nd R :=
  let ls := seq 0 (length s) in
  r_einsum [(delete [a] ls, y); ([a], np_full1 (nth a s 0%nat) 1)] ls.

(** rows, axiswise_max_comp.py L33, L47-51 *)
Definition spread_rows (s : list nat) (a : nat) : nd nat :=
  let ls := seq 0 (length s) in
  let out := delete [a] s in
  np_flatten (n_einsum [(delete [a] ls, np_reshape (np_arange (size out)) out);
                        ([a], np_full1 (nth a s 0%nat) 1%nat)] ls).

(** compute, axiswise_max_comp.py L65-86 and axiswise_min_comp.py L64-85: the
    value and the array kept in self.dKS_dg *)
Definition axis_run (neg : bool) (rho : R) (a : nat) (x : nd R) : option (nd R * nd R) :=
  let s := shp x in
  let con := neg_if neg x in
  match np_max_axis con a with
  | None => None
  | Some g_max =>
      let exponents := np_map (fun t => exp (rho * t)) (np_map2 Rminus con (spread s a g_max)) in
      let summation := np_sum_axes exponents [a] in
      let result := np_map2 Rplus g_max (np_map (fun t => 1 / rho * ln t) summation) in
      let dsum := np_map (Rmult rho) exponents in
      let dKS_dsum := np_map (fun t => 1 / (rho * t)) (spread s a summation) in
      Some (neg_if neg result, np_map2 Rmult dKS_dsum dsum)
  end.

(** compute_partials, axiswise_max_comp.py L88-91: only the kept array matters *)
Definition axis_partials_of (s : list nat) (a : nat) (kept : nd R) : option jac :=
  as_sparse (sparse_partials (spread_rows s a) (np_arange (size s)) (np_flatten kept)).

(** The component when derivatives are asked at the point where the value was
    just computed. *)
Definition axis_ext (neg : bool) (rho : R) (s : list nat) (a : nat) : option component :=
  if Nat.leb (length s) 12 then
    Some (Comp [s] (delete [a] s)
            (fun ins => match ins with
                        | [x] => match axis_run neg rho a x with
                                 | Some (y, _) => assign_output (delete [a] s) y
                                 | None => None
                                 end
                        | _ => None
                        end)
            (fun ins _ => match ins with
                          | [x] => match axis_run neg rho a x with
                                   | Some (_, kept) => axis_partials_of s a kept
                                   | None => None
                                   end
                          | _ => None
                          end))
  else None.

(** ---- one array, all entries ---- *)

(** np.max(x) *)
Definition np_max_all (x : nd R) : option R :=
  if Nat.eqb (size (shp x)) 0 then None else Some (rmax (size (shp x)) (dat x)).

(** compute, omtools/comps/scalar_extremum_comp.py L41-79 *)
Definition scalar_run (neg : bool) (rho : R) (x : nd R) : option (nd R * nd R) :=
  let con := if neg then np_map (fun t => -1 * t) x else x in
  match np_max_all con with
  | None => None
  | Some g_max =>
      let exponents := np_map (fun t => exp (rho * (t - g_max))) con in
      let summation := dat (np_sum exponents) 0%nat in
      let result := g_max + 1 / rho * ln summation in
      let dsum := np_map (Rmult rho) exponents in
      Some (scalar (if neg then - result else result),
            np_map (Rmult (1 / (rho * summation))) dsum)
  end.

(** omtools/comps/scalar_extremum_comp.py L22-97 *)
Definition scalar_ext (neg : bool) (rho : R) (s : list nat) : component :=
  Comp [s] [1%nat]
    (fun ins => match ins with
                | [x] => match scalar_run neg rho x with
                         | Some (y, _) => assign_output [1%nat] y
                         | None => None
                         end
                | _ => None
                end)
    (fun ins _ => match ins with
                  | [x] => match scalar_run neg rho x with
                           | Some (_, kept) => Some (Dense (np_flatten kept))
                           | None => None
                           end
                  | _ => None
                  end).

(** ---- the API ---- *)

Definition all_shapes (s : list nat) (l : list (nat * list nat)) : bool :=
  forallb (fun e => if list_eq_dec Nat.eq_dec s (snd e) then true else false) l.

(** omtools/std/max.py L10-80 and min.py L10-80 on expressions (name, shape):
    the recorded shape and the component; [None]: raises *)
Definition extremum (neg : bool) (exprs : list (nat * list nat)) (axis : option Z) (rho : R)
  : option (list nat * option component) :=
  match exprs, axis with
  | [(n, s)], Some z =>
      match norm_axis (length s) z with
      | Some a => Some (delete [a] s, axis_ext neg rho s a)
      | None => None
      end
  | (n, s) :: _ :: _, None =>
      if all_shapes s exprs
      then Some (s, elementwise_ext neg rho s (map fst exprs)) else None
  | [(n, s)], None => Some ([1%nat], Some (scalar_ext neg rho s))
  | _, _ => None
  end.
