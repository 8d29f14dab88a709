(** C114.  The calls of a Group are in GroupApi.v, the component is in Conditional.v.
    Concrete case: conditional_case in ConditionalProofs.v. *)
From Coq Require Import List.
From Verif Require Import PyBase SpecGraph Graph GroupApi Conditional ConditionalProofs.
Import ListNotations.

(** C114 REFUTED.  Whatever the expressions made by the calls of a Group, setup of
    the component raises: TypeError, or ValueError when no operand is an Input and
    the shapes of the branches differ. *)
Theorem C114_refuted : forall O n h st rs shape out c t f,
  run_ops O n api0 h = Some (st, rs) -> acyclic (adeps st) ->
  exists F, forall fuel, F <= fuel -> exists e, conditional_setup O fuel st shape out c t f = Some (Raise e) /\
    (e = ValueError <-> (forall x, In x [c; t; f] -> akind st x <> KInput) /\ shape t <> shape f) /\
    (e <> ValueError -> e = TypeError).
Proof. exact conditional_never. Qed.
Print Assumptions C114_refuted.
