(** C113.  Specification: SpecBroadcast.v, SpecElem.v, JacSpec.v; the operators are in CompElem.v, the assignment to
    an output in Component.v.  Concrete cases: broadcast_cases in BroadcastArith.v. *)
From Coq Require Import Reals List.
From Verif Require Import NdArray Component JacSpec SpecElem CompElem SpecBroadcast BroadcastArith.
Import ListNotations.

(** C113.  x + A and x - A, the axes of A compared from the last one on as NumPy does. *)
Theorem C113_sums : forall op n s a, op = Add \/ op = Sub -> stretches (shp a) s ->
  exists c, py_binop op (OVar n s) (OArr a) = Expr s (Some (Some c)) /\ c_ins c = [s] /\ c_out c = s /\
    correct c (entries1 (fun i x y => exists j, inb (shp a) j /\ meets (shp a) i j /\ op_rel op x (get a j) y)).
Proof. exact added_broadcast. Qed.
Print Assumptions C113_sums.

(** An array with as many entries as x is taken in row-major order, whatever its shape. *)
Theorem C113_reshaped : forall op n s a, op = Add \/ op = Sub -> size (shp a) = size s ->
  exists c, py_binop op (OVar n s) (OArr a) = Expr s (Some (Some c)) /\ c_ins c = [s] /\ c_out c = s /\
    correct c (entries1 (fun i x y => exists j, inb (shp a) j /\ ravel (shp a) j = ravel s i /\ op_rel op x (get a j) y)).
Proof. exact added_reshaped. Qed.
Print Assumptions C113_reshaped.

(** x * A: the value is right, the derivative raises when A has fewer entries than x. *)
Theorem C113_product_refuted : forall n s a, stretches (shp a) s ->
  exists c, py_binop Mul (OVar n s) (OArr a) = Expr s (Some (Some c)) /\ c_ins c = [s] /\ c_out c = s /\
    (forall v, exists y, c_compute c (inputs_of (c_ins c) v) = Some y /\
       entries1 (fun i x y => exists j, inb (shp a) j /\ meets (shp a) i j /\ op_rel Mul x (get a j) y) [Nd s (v 0)] y) /\
    (size (shp a) < size s -> forall v, c_partials c (inputs_of (c_ins c) v) 0 = None).
Proof. exact product_broadcast. Qed.
Print Assumptions C113_product_refuted.
