(** Model of matvec, matmat, the vector and tensor inner (vector case), dot and
    outer products, and the cross product.

    Simplification: the two operands have distinct names (OpenMDAO rejects a
    component with two inputs of one name). *)
From Coq Require Import Reals Lia Arith List Bool ZArith.
From Verif Require Import RSum NdArray NdEinsum Component CompReorder CompReduce.
Import ListNotations.
Local Open Scope nat_scope.

(** A component with two inputs. *)
Definition comp2 (s0 s1 s' : shape) (f : nd R -> nd R -> option (nd R))
           (d0 d1 : nd R -> nd R -> option jac) : component :=
  Comp [s0; s1] s'
    (fun ins => match ins with [a; b] => f a b | _ => None end)
    (fun ins p => match ins, p with
                  | [a; b], 0 => d0 a b
                  | [a; b], 1 => d1 a b
                  | _, _ => None
                  end).

(** NumPy: a @ b for matrices, and for a matrix and a vector *)
Definition np_matmat (a b : nd R) (m n p : nat) : nd R :=
  of_fun [m; p] (fun idx =>
    rsum n (fun j => Rmult (get a [nth 0 idx 0; j]) (get b [j; nth 1 idx 0]))).
Definition np_matvec (a b : nd R) (m n : nat) : nd R :=
  of_fun [m] (fun idx => rsum n (fun j => Rmult (get a [nth 0 idx 0; j]) (get b [j]))).

(** omtools/std/matvec.py L7-40 with omtools/comps/matvec_comp.py L29-67; a
    first operand of rank above two passes the check of L27: see MatStack.v *)
Definition matvec_comp (s0 s1 : shape) : option component :=
  match s0, s1 with
  | [m; n], [n'] =>
      if Nat.eqb n n' then
        Some (comp2 s0 s1 [m]
          (fun a b => assign_output [m] (np_matvec a b m n))
          (fun _ b => as_sparse (sparse_partials (np_repeat (np_arange m) n)
                                  (np_arange (size s0)) (np_tile b m)))
          (fun a _ => Some (Dense a)))
      else None
  | _, _ => None
  end.

(** omtools/comps/matmat_comp.py L38-42 *)
Definition matmat_out_shape (m p : nat) : shape := if Nat.eqb p 1 then [m] else [m; p].

(** omtools/comps/matmat_comp.py L29-82 for operand shapes (m,n) and (n,p) *)
Definition matmat_core (m n p : nat) : component :=
  let out := matmat_out_shape m p in
  let r := np_repeat (np_arange (size out)) n in
  let c0 := np_flatten (np_tile (np_reshape (np_arange (size [m; n])) [m; n]) p) in
  let c1 := np_tile (np_flatten (np_transpose (np_reshape (np_arange (size [n; p])) [n; p]))) m in
  comp2 [m; n] [n; p] out
    (fun a b => assign_output out (np_matmat a b m n p))
    (fun _ b => as_sparse (sparse_partials r c0 (np_tile (np_flatten (np_transpose b)) m)))
    (fun a _ => as_sparse (sparse_partials r c1 (np_flatten (np_tile a p)))).

(** omtools/std/matmat.py L7-52: a vector is taken as a one-column matrix; the
    second result is the declared shape of the expression.  For a first
    operand of rank above two see MatStack.v. *)
Definition matmat_comp (s0 s1 : shape) : option (component * shape) :=
  match s0, s1 with
  | [m; n], [n'; p] => if Nat.eqb n n' then Some (matmat_core m n p, [m; p]) else None
  | [m; n], [n'] => if Nat.eqb n n' then Some (matmat_core m n 1, [m; 1]) else None
  | _, _ => None
  end.

(** NumPy: np.dot of two vectors, a zero-dimensional array *)
Definition np_dot (a b : nd R) : nd R :=
  Nd [] (fun _ => rsum (size (shp a)) (fun k => (dat a k * dat b k)%R)).

(** omtools/comps/vector_inner_product_comp.py L15-40; inner and dot use it for
    vectors (omtools/std/inner.py L31-37, omtools/std/dot.py L36-42), [n] being
    the length of the first operand *)
Definition vector_inner_comp (n : nat) : component :=
  comp2 [n] [n] [1]
    (fun a b => assign_output [1] (np_dot a b))
    (fun _ b => Some (Dense b)) (fun a _ => Some (Dense a)).

(** omtools/std/dot.py L9-59 with omtools/comps/tensor_dot_product_comp.py
    L18-61; shape[axis] raises for an axis out of range *)
Definition dot_comp (s0 s1 : shape) (axis : option Z) : option component :=
  if list_eq_dec Nat.eq_dec s0 s1 then
    match s0 with
    | [n] => Some (vector_inner_comp n)
    | _ =>
        match axis with
        | None => None
        | Some z =>
            match norm_axis (length s0) z with
            | Some a =>
                if Nat.eqb (nth a s0 0) 3 then
                  Some (comp2 s0 s1 (delete [a] s0)
                    (fun x y => Some (np_sum_axes (np_map2 Rmult x y) [a]))
                    (fun _ y => as_sparse (sparse_partials (axis_rows s0 [a])
                                             (np_arange (size s0)) (np_flatten y)))
                    (fun x _ => as_sparse (sparse_partials (axis_rows s0 [a])
                                             (np_arange (size s0)) (np_flatten x))))
                else None
            | None => None
            end
        end
    end
  else None.

(** NumPy: np.outer of two vectors *)
Definition np_outer (a b : nd R) : nd R :=
  of_fun [size (shp a); size (shp b)]
         (fun idx => Rmult (dat a (nth 0 idx 0)) (dat b (nth 1 idx 0))).

(** rows, cols0, cols1 of both outer products *)
Definition outer_partials0 (n0 n1 : nat) (b : nd R) : option jac :=
  as_sparse (sparse_partials (np_arange (n0 * n1)) (np_repeat (np_arange n0) n1) (np_tile b n0)).
Definition outer_partials1 (n0 n1 : nat) (a : nd R) : option jac :=
  as_sparse (sparse_partials (np_arange (n0 * n1)) (np_tile (np_arange n1) n0) (np_repeat a n1)).

(** omtools/comps/tensor_outer_product_comp.py L21-28: the subscripts; the
    alphabet has 26 letters and slicing it past the end gives fewer letters *)
Definition letters26 (i j : nat) : list nat := seq (Nat.min i 26) (Nat.min j 26 - Nat.min i 26).

(** omtools/std/outer.py L9-52 with omtools/comps/vector_outer_product_comp.py
    L15-49 and omtools/comps/tensor_outer_product_comp.py L15-64.  np.einsum
    raises when the subscripts do not fit the operands' ranks. *)
Definition outer_comp (s0 s1 : shape) : component :=
  match s0, s1 with
  | [n0], [n1] =>
      comp2 s0 s1 [n0; n1] (fun a b => Some (np_outer a b))
            (fun _ b => outer_partials0 n0 n1 b) (fun a _ => outer_partials1 n0 n1 a)
  | _, _ =>
      let r0 := length s0 in
      let r := r0 + length s1 in
      comp2 s0 s1 (s0 ++ s1)
            (fun a b =>
               if Nat.eqb (length (letters26 0 r0)) r0 &&
                  Nat.eqb (length (letters26 r0 r)) (length s1)
               then Some (r_einsum [(letters26 0 r0, a); (letters26 r0 r, b)] (letters26 0 r))
               else None)
            (fun _ b => outer_partials0 (size s0) (size s1) (np_flatten b))
            (fun a _ => outer_partials1 (size s0) (size s1) (np_flatten a))
  end.

(** ---- cross product ---- *)

(** [q] inserted in the index [l] at position [a] *)
Definition insert_at (a q : nat) (l : list nat) : list nat := firstn a l ++ q :: skipn a l.

(** NumPy: np.cross(a, b, axisa=aa, axisb=ab, axisc=ac) where the other axes of
    both operands form the shape [rest]; entry number [p] of the product of two
    3-vectors *)
Definition cross3 (a b : nat -> R) (p : nat) : R :=
  match p with
  | 0 => a 1%nat * b 2%nat - a 2%nat * b 1%nat
  | 1 => a 2%nat * b 0%nat - a 0%nat * b 2%nat
  | _ => a 0%nat * b 1%nat - a 1%nat * b 0%nat
  end%R.
Definition np_cross (rest : shape) (a : nd R) (aa : nat) (b : nd R) (ab ac : nat) : nd R :=
  of_fun (insert_at ac 3 rest)
    (fun idx => let r := delete [ac] idx in
       cross3 (fun q => get a (insert_at aa q r)) (fun q => get b (insert_at ab q r))
              (nth ac idx 0)).

(** np.einsum('...,m->...m', a, v) *)
Definition ell_outer (a v : nd R) : nd R :=
  of_fun (shp a ++ shp v)
    (fun idx => (get a (firstn (length (shp a)) idx) * get v (skipn (length (shp a)) idx))%R).

(** eye[ind, :] and np.ones(shape) *)
Definition eye_row (ind : nat) : nd R := Nd [3] (fun k => if Nat.eqb k ind then 1%R else 0%R).
Definition ones_of (s : shape) : nd R := Nd s (fun _ => 1%R).

Definition np_add3 (a b c : nd R) : nd R := np_map2 Rplus (np_map2 Rplus a b) c.

(** omtools/comps/cross_product_comp.py L33-79: letter [i] of the alphabet is
    label [i], y is 100 and z is 101; the alphabet has ten letters, and np.einsum
    raises when the subscripts do not fit the rank *)
Definition cross_subs (axis rank : nat) : list nat := seq 0 axis ++ [100] ++ seq axis (rank - axis).
Definition cross_pattern (s : shape) (axis : nat) (yz : list nat) : nd nat :=
  let rank := length (delete [axis] s) in
  np_flatten (n_einsum [(cross_subs axis rank, get_array_indices s); ([101], np_full1 3 1)]
                       (seq 0 axis ++ seq axis (rank - axis) ++ yz)).

(** omtools/comps/cross_product_comp.py L95-132 and L134-160 *)
Definition cross_vals1 (s : shape) (axis : nat) (b : nd R) : nd R :=
  let rest := delete [axis] s in
  let tmp ind := ell_outer (np_cross rest (ell_outer (ones_of rest) (eye_row ind)) (length rest)
                                     b axis (length rest)) (eye_row ind) in
  np_flatten (np_add3 (tmp 0) (tmp 1) (tmp 2)).
Definition cross_vals2 (s : shape) (axis : nat) (a : nd R) : nd R :=
  let rest := delete [axis] s in
  let tmp ind := ell_outer (np_cross rest a axis
                                     (ell_outer (ones_of rest) (eye_row ind)) (length rest)
                                     (length rest)) (eye_row ind) in
  np_flatten (np_add3 (tmp 0) (tmp 1) (tmp 2)).

(** omtools/std/cross.py L5-46 with omtools/comps/cross_product_comp.py L20-160.
    Non-negative axes; for an axis counted from the end see CrossNeg.v. *)
Definition cross_comp (s0 s1 : shape) (axis : nat) : option component :=
  if list_eq_dec Nat.eq_dec s0 s1 then
    match nth_error s0 axis with
    | Some 3 =>
        if Nat.leb (length (delete [axis] s0)) 10 then
          let r := cross_pattern s0 axis [100; 101] in
          let c := cross_pattern s0 axis [101; 100] in
          Some (comp2 s0 s1 s0
            (fun a b => Some (np_cross (delete [axis] s0) a axis b axis axis))
            (fun _ b => as_sparse (sparse_partials r c (cross_vals1 s0 axis b)))
            (fun a _ => as_sparse (sparse_partials r c (cross_vals2 s0 axis a))))
        else None
    | _ => None
    end
  else None.
