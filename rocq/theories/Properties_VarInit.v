(** C119.  Specification: SpecVarInit.v; the concrete case: variable_case in
    VarInitProofs.v. *)
From Coq Require Import List.
From Verif Require Import VarInit SpecVarInit VarInitProofs.
Import ListNotations.

(** C119 is false: a name cannot be given. *)
Theorem C119_refuted : exists id l, kwargs_ok l /\ ~ exists f, variable id l = Some f.
Proof. exact variable_refuted. Qed.
Print Assumptions C119_refuted.

(** Creating an expression raises exactly when a name is given ... *)
Theorem C119_raises : forall id l, variable id l = None <-> exists n, In (KwName n) l.
Proof. exact variable_raises. Qed.
Print Assumptions C119_raises.

(** ... and otherwise every field is as given, or the default. *)
Theorem C119_kept : forall id l f, kwargs_ok l -> variable id l = Some f -> fields_right id l f.
Proof. exact variable_fields. Qed.
Print Assumptions C119_kept.
