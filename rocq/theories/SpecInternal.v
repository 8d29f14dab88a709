(** Specification of the values held by the internal problem. *)
From Coq Require Import Reals Arith List Bool.
From Verif Require Import PyBase GroupApi Run NdArray SpecDeriv InternalProblem.
Import ListNotations.

(** the values a call gives to the model it runs, if it runs it *)
Definition point_of (c : icall) : option (store values) :=
  match c with
  | CApply g => Some g
  | CRun g o y => Some (fun x => if name_eqb x o then y else g x)
  | CLinearize _ => None
  end.

(** those of the last call that runs it *)
Fixpoint last_point (cs : list icall) : option (store values) :=
  match cs with
  | [] => None
  | c :: cs' => match last_point cs' with Some p => Some p | None => point_of c end
  end.

(** solve_nonlinear moves only outputs of the component *)
Definition moves_known (ns : list name) (c : icall) : Prop :=
  match c with CRun _ o _ => In o ns | _ => True end.
