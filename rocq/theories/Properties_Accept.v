(** C110.  Specification: SpecAccept.v, SpecBuild.v, SpecReduce.v; the calls are in StdCalls.v.
    Concrete cases: accepts_instance in AcceptProofs.v. *)
From Coq Require Import Arith List ZArith.
From Verif Require Import NdArray Component SpecReduce CompElem CompCond StdCalls SpecAccept AcceptProofs.
Import ListNotations.

(** C110.  Which calls return an expression rather than raise. *)
Theorem C110_accepted : forall k, in_scope k -> (std k <> None <-> accepts k).
Proof. exact which_accepted. Qed.
Print Assumptions C110_accepted.

(** reshape to another number of entries: accepted, and its component never computes. *)
Theorem C110_reshape_refuted : forall x s, size s <> size (x_shape x) ->
  exists c, std (KReshape x s) = Some (s, Some c) /\ c_ins c = [x_shape x] /\
    forall v, c_compute c (inputs_of (c_ins c) v) = None.
Proof. exact reshape_late. Qed.
Print Assumptions C110_reshape_refuted.

(** inner over two axes of different extents. *)
Theorem C110_inner_refuted : forall x y z a w b,
  x_name x <> x_name y -> ~ (length (x_shape x) = 1 /\ length (x_shape y) = 1) ->
  axis_named (length (x_shape x)) z a -> axis_named (length (x_shape y)) w b ->
  nth_error (x_shape x) a <> nth_error (x_shape y) b ->
  exists s c, std (KInner x y (Some ([z], [w]))) = Some (s, Some c) /\ c_ins c = [x_shape x; x_shape y] /\
    forall v, c_compute c (inputs_of (c_ins c) v) = None.
Proof. exact contract_late. Qed.
Print Assumptions C110_inner_refuted.

(** x + A for an array A with more entries than x (which has some). *)
Theorem C110_array_refuted : forall n s c, 0 < size s -> size s < size (shp c) ->
  exists k, std (KBinop Add (OVar n s) (OArr c)) = Some (s, Some k) /\ c_ins k = [s] /\
    forall v, c_compute k (inputs_of (c_ins k) v) = None.
Proof. exact array_late. Qed.
Print Assumptions C110_array_refuted.
