(** C116.  Specification: SpecMatStack.v; model: MatStack.v.  Concrete cases: stack_cases in
    MatStackProofs.v. *)
From Coq Require Import Reals List.
From Verif Require Import RSum NdArray Component JacSpec MatStack SpecMatStack MatStackProofs.
Import ListNotations.
Local Open Scope R_scope.

(** C116 REFUTED: matvec accepts operands whose product cannot be computed. *)
Theorem C116_refuted : ~ (forall s0 s1, matvec_stack s0 s1 <> CallRaises ->
  exists d c, matvec_stack s0 s1 = Ready d c /\
    forall x0 x1, c_compute c [Nd s0 x0; Nd s1 x1] <> None).
Proof. exact stack_refuted. Qed.
Print Assumptions C116_refuted.

(** C116, what the code does.  The calls look at the first two extents only. *)
Theorem C116_returns : forall s0 s1,
  (matvec_stack s0 s1 <> CallRaises <->
   exists m n rest, s0 = m :: n :: rest /\ s1 = [n]) /\
  (matmat_stack s0 s1 <> CallRaises <->
   exists m n rest, s0 = m :: n :: rest /\ (s1 = [n] \/ exists p, s1 = [n; p])).
Proof. exact (fun s0 s1 => conj (matvec_returns s0 s1) (matmat_returns s0 s1)). Qed.
Print Assumptions C116_returns.

(** Setup succeeds exactly when the further axes hold one entry. *)
Theorem C116_matvec_set_up : forall m n rest, (0 < m)%nat -> (0 < n)%nat ->
  ((exists c, matvec_stack (m :: n :: rest) [n] = Ready [m] c) <-> size rest = 1%nat) /\
  (size rest <> 1%nat -> matvec_stack (m :: n :: rest) [n] = SetupRaises [m]).
Proof. exact matvec_set_up. Qed.
Print Assumptions C116_matvec_set_up.

(** Then the product of a matrix or a column is right, with exact partials, and no other is computed. *)
Theorem C116_matvec_works : forall m n rest c, (0 < n)%nat -> size rest = 1%nat ->
  matvec_stack (m :: n :: rest) [n] = Ready [m] c ->
  (matrix_or_column n rest ->
     c_ins c = [m :: n :: rest; [n]] /\ c_out c = [m] /\ correct c (stack_vec_meaning m n rest)) /\
  (~ matrix_or_column n rest -> forall x0 x1,
     c_compute c [Nd (m :: n :: rest) x0; Nd [n] x1] = None).
Proof. exact matvec_works. Qed.
Print Assumptions C116_matvec_works.

(** The same for matmat, a vector being a matrix with one column. *)
Theorem C116_matmat_set_up : forall m n p rest s1, (0 < m)%nat -> (0 < n)%nat -> (0 < p)%nat ->
  s1 = [n; p] \/ (s1 = [n] /\ p = 1%nat) ->
  ((exists c, matmat_stack (m :: n :: rest) s1 = Ready [m; p] c) <-> size rest = 1%nat) /\
  (size rest <> 1%nat -> matmat_stack (m :: n :: rest) s1 = SetupRaises [m; p]).
Proof. exact matmat_set_up. Qed.
Print Assumptions C116_matmat_set_up.

Theorem C116_matmat_works : forall m n p rest s1 c, (0 < n)%nat -> size rest = 1%nat ->
  s1 = [n; p] \/ (s1 = [n] /\ p = 1%nat) ->
  matmat_stack (m :: n :: rest) s1 = Ready [m; p] c ->
  (matrix_or_column n rest ->
     c_ins c = [m :: n :: rest; [n; p]] /\ correct c (stack_mat_meaning m n p rest)) /\
  (~ matrix_or_column n rest -> forall x0 x1,
     c_compute c [Nd (m :: n :: rest) x0; Nd [n; p] x1] = None).
Proof. exact matmat_works. Qed.
Print Assumptions C116_matmat_works.
