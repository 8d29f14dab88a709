(** What if_else means. *)
From Coq Require Import Reals Arith List Bool.
From Verif Require Import RSum NdArray Component JacSpec SpecNorm.
Import ListNotations.
Local Open Scope R_scope.

(** the operand whose value is chosen, for a condition with the only entry [c] *)
Definition chosen (c : R) (p : nat) : Prop := (c < 0 /\ p = 2%nat) \/ (0 <= c /\ p = 1%nat).

(** Jacobian of [c] with respect to operand [p] at [v] *)
Definition right_for (c : component) (v : nat -> nat -> R) (p : nat) (j : jac) : Prop :=
  exact_jac (size (c_out c)) (size (nth p (c_ins c) []))
            (fun x => value_of c (set_op v p x)) (v p) j.
