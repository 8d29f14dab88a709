(** The internal problem of an implicit component: which values its variables hold
    while OpenMDAO calls the component (omtools/comps/implicit_component.py L164-259).
    The vectors [inputs] and [outputs] of OpenMDAO are one function [given] from names
    to values (their names are distinct).  The values are those the components of the
    internal model work with.  [immediate] says whether they see a value written with
    prob[name] = ... at once, or, as in the OpenMDAO versions that copy values into the
    inputs of components while the model runs, only when the model runs next; every
    theorem holds for both. *)
From Coq Require Import Reals Arith List Bool.
From Verif Require Import PyBase SpecGraph Graph GroupApi Run NdArray Component SpecDeriv SpecTotals Implicit.
Import ListNotations.

(** implicit_component.py L164-172: the names set by _set_values. *)
Definition set_names (st : api) (c : icomp) : list name :=
  flat_map (fun p => fst p :: filter (fun x => negb (name_eqb x (fst p))) (map (aname st) (snd p)))
           (ic_all c).

Section Calls.
Variables (table asm part : nat -> component) (subs : nat -> list component).
Variables (sub_reads sub_writes : nat -> list name).
Variable st : api.
Variable added : list nat.
Variable ind : nat -> values.
Variable ns : list name.
Variable immediate : bool.

(** implicit_component.py L164-172. *)
Definition set_values (given s : store values) : store values :=
  fun x => if existsb (name_eqb x) ns then given x else s x.

(** prob.run_model *)
Local Notation run := (pass table asm part subs sub_reads sub_writes st added ind).

Inductive icall :=
| CApply (given : store values)                       (* apply_nonlinear *)
| CRun (given : store values) (o : name) (y : values) (* run, called by solve_nonlinear *)
| CLinearize (given : store values).

(** The values held after a call: apply_nonlinear L194-197, run L182-186, linearize
    L236-247 (compute_totals does not run the model). *)
Definition after (s : store values) (c : icall) : store values :=
  match c with
  | CApply g => run (set_values g s)
  | CRun g o y => run (with_output (set_values g s) o y)
  | CLinearize g => if immediate then set_values g s else s
  end.
Definition held (s0 : store values) (cs : list icall) : store values := fold_left after cs s0.

(** linearize L244-256: the matrices stored are the total derivatives obtained from
    the partials at the values held. *)
Variable shape_of : name -> list nat.
Definition linearized (s : store values) (g : store values) (tot : name -> nat -> name -> values) : Prop :=
  columns table asm part subs sub_reads sub_writes shape_of st (after s (CLinearize g)) ns [] tot (fun _ _ => still).
End Calls.
