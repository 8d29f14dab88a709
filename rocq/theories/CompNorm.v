(** p-norms: omtools/std/pnorm.py L8-57 with comps/vectorized_pnorm_comp.py
    L27-59 and comps/vectorized_axiswise_pnorm_comp.py L32-103; and the arrays
    that these components, the axis-wise and the single-array extremum keep
    between computing a value and computing derivatives. *)
From Coq Require Import Reals Arith List Bool ZArith.
From Verif Require Import PyBase RSum NdArray NdEinsum Component CompReorder CompReduce CompElem CompExtremum.
Import ListNotations.
Local Open Scope R_scope.

(** np.linalg.norm(x.flatten(), ord=p): sum(abs(x)**p)**(1/p).  (NumPy takes the
    square root of dot(x, x) for p = 2, the same real number.) *)
Definition np_norm (p : Z) (x : nd R) : R :=
  np_pow (dat (np_sum (np_map (fun t => np_pow (Rabs t) (EInt p)) x)) 0%nat) (EReal (1 / IZR p)).

(** compute, vectorized_pnorm_comp.py L43-49: the number is assigned to the
    output and kept in self.outputs *)
Definition norm_run (p : Z) (x : nd R) : nd R := scalar (np_norm p x).

(** compute_partials, vectorized_pnorm_comp.py L51-57, [kept] being
    self.outputs *)
Definition norm_partials (p : Z) (kept x : nd R) : option jac :=
  match np_power kept (EInt (1 - p)), np_power x (EInt (p - 1)) with
  | Some a, Some b => Some (Dense (np_map (Rmult (dat a 0%nat)) b))
  | _, _ => None
  end.

(** The component; the derivatives are asked at the point where the value was
    just computed. *)
Definition norm_comp (p : Z) (s : list nat) : component :=
  Comp [s] [1%nat]
    (fun ins => match ins with [x] => assign_output [1%nat] (norm_run p x) | _ => None end)
    (fun ins _ => match ins with [x] => norm_partials p (norm_run p x) x | _ => None end).

(** compute, vectorized_axiswise_pnorm_comp.py L84-91 *)
Definition axis_norm_run (p : Z) (axes : list nat) (x : nd R) : option (nd R) :=
  match np_power x (EInt p) with
  | Some xp => match sum_axes_opt axes xp with
               | Some y => np_power y (EReal (1 / IZR p))
               | None => None
               end
  | None => None
  end.

(** compute_partials, vectorized_axiswise_pnorm_comp.py L93-101, with the
    operation of L57-65 *)
Definition axis_norm_partials (p : Z) (s axes : list nat) (kept x : nd R) : option jac :=
  match np_power kept (EInt (1 - p)), np_power x (EInt (p - 1)) with
  | Some a, Some b =>
      let ls := seq 0 (length s) in
      as_sparse (sparse_partials (axis_rows s axes) (np_arange (size s))
                   (np_flatten (r_einsum [(delete axes ls, a); (ls, b)] ls)))
  | _, _ => None
  end.

Definition axis_norm_comp (p : Z) (s axes : list nat) : component :=
  Comp [s] (delete axes s)
    (fun ins => match ins with
                | [x] => match axis_norm_run p axes x with
                         | Some y => assign_output (delete axes s) y
                         | None => None
                         end
                | _ => None
                end)
    (fun ins _ => match ins with
                  | [x] => match axis_norm_run p axes x with
                           | Some y => axis_norm_partials p s axes y x
                           | None => None
                           end
                  | _ => None
                  end).

(** The axis argument: None, or an integer or a tuple of integers; anything else
    raises TypeError (std/pnorm.py L26-28). *)
Inductive norm_axis_arg := NormAll | NormAxes (zs : list Z) | NormAxisOther.

(** std/pnorm.py L8-57 on an expression of shape [s]: the recorded shape and the
    component; [None]: raises.  26 letters for the subscripts; the order is a
    Python int. *)
Definition pnorm (s : list nat) (p : Z) (axis : norm_axis_arg) : option (list nat * option component) :=
  match axis with
  | NormAxisOther => None
  | _ =>
      if negb (Z.eqb (p mod 2) 0) || Z.leb p 0 then None
      else match axis with
           | NormAxes zs =>
               match norm_axes (length s) zs with
               | Some axes => Some (delete axes s,
                                    if Nat.leb (length s) 26 && axis_left s axes
                                    then Some (axis_norm_comp p s axes) else None)
               | None => None
               end
           | _ => Some ([1%nat], Some (norm_comp p s))
           end
  end.

(** ---- values kept between compute and compute_partials ---- *)

(** Derivatives asked at [now] when compute was last run at [last]; [None]:
    compute has not run and the attribute does not exist. *)
Definition norm_partials_after (p : Z) (last : option (nd R)) (now : nd R) : option jac :=
  match last with
  | Some x => norm_partials p (norm_run p x) now
  | None => None
  end.

Definition axis_norm_partials_after (p : Z) (s axes : list nat) (last : option (nd R)) (now : nd R)
  : option jac :=
  match last with
  | Some x => match axis_norm_run p axes x with
              | Some y => axis_norm_partials p s axes y now
              | None => None
              end
  | None => None
  end.

(** axiswise_max_comp.py L88-91, axiswise_min_comp.py L87-90 *)
Definition axis_ext_partials_after (neg : bool) (rho : R) (s : list nat) (a : nat)
           (last : option (nd R)) (now : nd R) : option jac :=
  match last with
  | Some x => match axis_run neg rho a x with
              | Some (_, kept) => axis_partials_of s a kept
              | None => None
              end
  | None => None
  end.

(** scalar_extremum_comp.py L81-97 *)
Definition scalar_ext_partials_after (neg : bool) (rho : R) (last : option (nd R)) (now : nd R)
  : option jac :=
  match last with
  | Some x => match scalar_run neg rho x with
              | Some (_, kept) => Some (Dense (np_flatten kept))
              | None => None
              end
  | None => None
  end.
