(** C112.  Specification: SpecCompute.v, SpecBuild.v, SpecReduce.v, SpecNorm.v; the calls are in StdCalls.v.
    Concrete cases: named_twice, power_zero, einsum_cases and inner_cases in ComputeProofs.v. *)
From Coq Require Import Reals List.
From Verif Require Import NdArray Component StdCalls SpecCompute ComputeProofs.

(** C112.  A call returned and its component was built: for which inputs does compute
    deliver the value? *)
Theorem C112_values : forall k s c v, evaluated k -> std k = Some (s, Some c) ->
  (delivers c v <-> value_exists k v).
Proof. exact which_deliver. Qed.
Print Assumptions C112_values.

(** And for which inputs does compute_partials deliver the partials? *)
Theorem C112_partials : forall k s c v, differentiated k -> std k = Some (s, Some c) ->
  (differentiates c v <-> slopes_exist k v).
Proof. exact which_differentiate. Qed.
Print Assumptions C112_partials.
