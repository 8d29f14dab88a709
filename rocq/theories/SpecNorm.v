(** What the p-norm is. *)
From Coq Require Import Reals Arith List Bool ZArith.
From Verif Require Import RSum NdArray Component JacSpec SpecReduce.
Import ListNotations.
Local Open Scope R_scope.

(** [y] is the p-norm, p = 2 m, of the entries [k] with [b k] of the array [x] *)
Definition norm_of (m : nat) (n : nat) (b : nat -> bool) (x : nat -> R) (y : R) : Prop :=
  0 <= y /\ y ^ (2 * m) = rsum n (fun k => if b k then x k ^ (2 * m) else 0).

Definition norm_meaning (m : nat) (ins : list (nd R)) (y : nd R) : Prop :=
  exists x, ins = [x] /\ shp y = [1%nat] /\
    norm_of m (size (shp x)) (fun _ => true) (dat x) (get y [0%nat]).

Definition axis_norm_meaning (m : nat) (axes : list nat) (ins : list (nd R)) (y : nd R) : Prop :=
  exists x, ins = [x] /\ shp y = drop_axes axes (shp x) /\
    forall idx, inb (shp y) idx ->
      norm_of m (size (shp x)) (belongs axes x idx) (dat x) (get y idx).

(** the inputs where every norm is nonzero *)
Definition norm_nonzero (s : list nat) (v : nat -> nat -> R) : Prop :=
  exists k, (k < size s)%nat /\ v 0%nat k <> 0.

Definition axis_norm_nonzero (s axes : list nat) (v : nat -> nat -> R) : Prop :=
  forall idx, inb (drop_axes axes s) idx ->
    exists k, (k < size s)%nat /\ belongs axes (Nd s (v 0%nat)) idx k = true /\ v 0%nat k <> 0.

(** compute succeeds everywhere with the value described by [meaning] *)
Definition computes (c : component) (meaning : list (nd R) -> nd R -> Prop) : Prop :=
  forall v, exists y, c_compute c (inputs_of (c_ins c) v) = Some y /\ shp y = c_out c /\
    meaning (inputs_of (c_ins c) v) y.

(** the value computed at [v] *)
Definition value_of (c : component) (v : nat -> nat -> R) : nat -> R :=
  match c_compute c (inputs_of (c_ins c) v) with
  | Some y => dat y
  | None => fun _ => 0
  end.

(** The only operand of [c] has the value [x]; [j] is the Jacobian of [c] there. *)
Definition right_at (c : component) (x : nat -> R) (j : jac) : Prop :=
  exact_jac (size (c_out c)) (size (nth 0 (c_ins c) []))
            (fun x' => value_of c (fun _ => x')) x j.
