(** Specification of C116: products of a matrix with a vector or a matrix, when
    the first operand may have further axes. *)
From Coq Require Import Reals Arith List.
From Verif Require Import RSum NdArray Component.
Import ListNotations.
Local Open Scope R_scope.

(** A matrix, or a column: after the first axis all extents are one.  [m] rows
    and [n] columns; [rest] are the extents of the further axes. *)
Definition matrix_or_column (n : nat) (rest : shape) : Prop :=
  rest = [] \/ (n = 1%nat /\ Forall (fun k => k = 1%nat) rest).

(** The entry of row [i] and column [j], on all further axes the first one. *)
Definition entry (A : nd R) (rest : shape) (i j : nat) : R :=
  get A (i :: j :: map (fun _ => 0%nat) rest).

(** y = A x *)
Definition stack_vec_meaning (m n : nat) (rest : shape) (ins : list (nd R)) (y : nd R) : Prop :=
  exists A x, ins = [A; x] /\ shp A = m :: n :: rest /\ shp x = [n] /\ shp y = [m] /\
  forall i, (i < m)%nat -> get y [i] = rsum n (fun j => entry A rest i j * get x [j]).

(** Y = A B; a result with one column is a vector *)
Definition stack_mat_meaning (m n p : nat) (rest : shape) (ins : list (nd R)) (y : nd R) : Prop :=
  exists A B, ins = [A; B] /\ shp A = m :: n :: rest /\ shp B = [n; p] /\
  shp y = (if Nat.eqb p 1 then [m] else [m; p]) /\
  forall i k, (i < m)%nat -> (k < p)%nat ->
    dat y (i * p + k)%nat = rsum n (fun j => entry A rest i j * get B [j; k]).
