(** An implicit component used as a subsystem of a group (omtools/core/group.py L83-116,
    omtools/comps/implicit_component.py): the internal problem is a model of its own whose
    given variables are the inputs of the component and its output. *)
From Coq Require Import Reals Arith List Bool.
From Verif Require Import PyBase Graph GroupApi Run NdArray Component SpecDeriv Nested.
Import ListNotations.

(** The internal model, the inputs of the component, its output, its residual, and the
    ends of the bracket (omtools/core/implicit_output.py L115-158).
    One output: only the last bracket given is used (C58). *)
Record implicit := Implicit {
  im_model : inner;
  im_ins : list name;
  im_out : name;
  im_res : name;
  im_lo : values;
  im_hi : values }.

(** The values given to the internal problem: omtools/comps/implicit_component.py
    L164-172, _set_values; here the inputs come first, then the output. *)
Definition with_out (m : implicit) (v : nat -> values) (y : values) : nat -> values :=
  fun q => if Nat.eqb q (length (im_ins m)) then y else v q.

(** omtools/comps/implicit_component.py L182-200, run and apply_nonlinear: entry [i] of the
    residual for the inputs [v] and the output [y]. *)
Definition residual (m : implicit) (v : nat -> values) (y : values) (i : nat) : R :=
  inner_pass (im_model m) (with_out m v y) (im_res m) i.

(** A subsystem of a group: another group, or an implicit component. *)
Inductive subsystem := SGroup (m : inner) | SImplicit (m : implicit).
