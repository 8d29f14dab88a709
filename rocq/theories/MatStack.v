(** Model of std.matvec and std.matmat for a first operand with any number of
    axes: the functions look at its first two extents only.

    Simplification: the two operands have distinct names, as in CompProduct.v.
    CompProduct.v has the case of two axes, as the other calls use it. *)
From Coq Require Import Reals Arith List Bool.
From Verif Require Import RSum NdArray Component CompReorder CompProduct.
Import ListNotations.
Local Open Scope nat_scope.

(** What becomes of a call: the call raises; it returns an expression of some
    declared shape and setup of its component raises; or both succeed. *)
Inductive called :=
| CallRaises
| SetupRaises (declared : shape)
| Ready (declared : shape) (c : component).

(** OpenMDAO: declare_partials(rows=r, cols=c) raises unless both have one shape *)
Definition declarable (r c : nd nat) : bool :=
  if list_eq_dec Nat.eq_dec (shp r) (shp c) then true else false.

(** NumPy: a @ b for [a] with at least two axes and a vector [b]; raises unless
    the last extent of [a] is the length of [b] *)
Definition np_stack_vec (a b : nd R) : option (nd R) :=
  let n := last_extent (shp a) in
  if Nat.eqb n (size (shp b)) then
    Some (of_fun (removelast (shp a)) (fun idx =>
            rsum n (fun j => Rmult (get a (idx ++ [j])) (get b [j]))))
  else None.

(** NumPy: a @ b for [a] with at least two axes and a matrix [b], which is used
    for every matrix of the stack [a] *)
Definition np_stack_mat (a b : nd R) : option (nd R) :=
  let n := last_extent (shp a) in
  match shp b with
  | [n'; p] =>
      if Nat.eqb n n' then
        Some (of_fun (removelast (shp a) ++ [p]) (fun idx =>
                rsum n (fun j => Rmult (get a (removelast idx ++ [j])) (get b [j; last idx 0]))))
      else None
  | _ => None
  end.

(** outputs[out_name] = a @ b *)
Definition assigned (s : shape) (y : option (nd R)) : option (nd R) :=
  match y with Some y => assign_output s y | None => None end.

(** omtools/std/matvec.py L21-40 (shape[1] and shape[0] raise IndexError when
    there is no such axis) with omtools/comps/matvec_comp.py L29-67 *)
Definition matvec_stack (s0 s1 : shape) : called :=
  match s0, s1 with
  | m :: n :: _, n' :: _ =>
      if (Nat.eqb n n' && Nat.eqb (length s1) 1)%bool then
        let r := np_repeat (np_arange m) n in
        let c := np_arange (size s0) in
        if declarable r c then
          Ready [m] (comp2 s0 s1 [m]
            (fun a b => assigned [m] (np_stack_vec a b))
            (fun _ b => as_sparse (sparse_partials r c (np_tile b m)))
            (fun a _ => Some (Dense a)))
        else SetupRaises [m]
      else CallRaises
  | _, _ => CallRaises
  end.

(** omtools/comps/matmat_comp.py L29-82 for operand shapes [s0], whose first two
    extents are [m] and [n], and (n,p); [d] is the declared shape of the expression *)
Definition matmat_stack_core (s0 : shape) (m n p : nat) (d : shape) : called :=
  let out := matmat_out_shape m p in
  let r := np_repeat (np_arange (size out)) n in
  let c0 := np_flatten (np_tile (np_reshape (np_arange (size s0)) s0) p) in
  let c1 := np_tile (np_flatten (np_transpose (np_reshape (np_arange (size [n; p])) [n; p]))) m in
  if (declarable r c0 && declarable r c1)%bool then
    Ready d (comp2 s0 [n; p] out
      (fun a b => assigned out (np_stack_mat a b))
      (fun _ b => as_sparse (sparse_partials r c0 (np_tile (np_flatten (np_transpose b)) m)))
      (fun a _ => as_sparse (sparse_partials r c1 (np_flatten (np_tile a p)))))
  else SetupRaises d.

(** omtools/std/matmat.py L22-52 *)
Definition matmat_stack (s0 s1 : shape) : called :=
  match s0, s1 with
  | m :: n :: _, [n'; p] =>
      if Nat.eqb n n' then matmat_stack_core s0 m n p [m; p] else CallRaises
  | m :: n :: _, [n'] =>
      if Nat.eqb n n' then matmat_stack_core s0 m n 1 [m; 1] else CallRaises
  | _, _ => CallRaises
  end.
