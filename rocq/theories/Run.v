(** Model of one pass of an OpenMDAO group over the systems that Group.setup
    added, and the meaning of an expression tree. *)
From Verif Require Import PyBase Graph GroupApi.

Section Run.
(** Values of variables and the meaning of the pieces; nothing is assumed of them. *)
Variable V : Type.
Variable op_sem : nat -> list V -> V.       (* an elementary operation (BExpr) *)
Variable indep_sem : nat -> V.              (* value given to create_indep_var *)
Variable asm_sem : nat -> list V -> V.      (* the values assigned to the indexed parts of an output *)
Variable part_sem : nat -> V -> V.          (* the part selected by a key *)
Variable sub_sem : nat -> list V -> list V. (* a user subsystem *)
Variables (sub_reads sub_writes : nat -> list name).

Definition store := name -> V.

(** compute() of the component built for object [n], given the values of its
    inputs, in the order of its outputs. *)
Definition comp_outputs (st : api) (n : nat) (vals : list V) : list V :=
  match abuild st n with
  | NoBuild => []
  | BIndep _ => [indep_sem n]                       (* indep.py L37-41: IndepVarComp *)
  | BExpr f _ => [op_sem f vals]                    (* comps/*.py *)
  | BPass _ => vals                                 (* pass_through_comp.py L29-32 *)
  | BIndexed => [asm_sem n vals]                    (* indexed_pass_through_comp.py L48-54 *)
  | BSub k _ => sub_sem k vals
  | BDecomp _ => flat_map (fun v => map (fun p => part_sem (fst p) v) (aparts st n)) vals
                                                    (* decompose_comp.py compute *)
  end.

Fixpoint write (names : list name) (vals : list V) (s : store) : store :=
  match names, vals with
  | nm :: names', v :: vals' =>
    write names' vals' (fun x => if name_eqb x nm then v else s x)
  | _, _ => s
  end.

(** Promotion: an input and an output of the same promoted name are the same
    variable (group.py L108-116: promotes=['*']). *)
Definition run_comp (st : api) (s : store) (n : nat) : store :=
  write (comp_writes sub_writes st n)
        (comp_outputs st n (map s (comp_reads sub_reads st n))) s.
Definition run_model (st : api) (added : list nat) (s : store) : store :=
  fold_left (run_comp st) added s.

End Run.
