(** A Group used as a subsystem of another (omtools/core/group.py L83-116 and L397-422):
    one pass over the outer group makes one pass over the inner one, whose inputs are
    the promoted inputs. *)
From Coq Require Import Reals Arith List Bool.
From Verif Require Import PyBase Graph GroupApi Run NdArray Component SpecDeriv.
Import ListNotations.

(** An inner group: its components (as in SpecDeriv.v), the shapes of its variables (names
    the outer group may use for others), its state after setup with the
    systems added, the values of its independent variables, the values its variables
    start with, and the inputs promoted to the outer group. *)
Record inner := Inner {
  in_table : nat -> component;
  in_asm : nat -> component;
  in_part : nat -> component;
  in_subs : nat -> list component;
  in_reads : nat -> list name;
  in_writes : nat -> list name;
  in_shape : name -> list nat;
  in_state : api;
  in_added : list nat;
  in_ind : nat -> values;
  in_start : store values;
  in_inputs : list name }.

Fixpoint position (x : name) (l : list name) : option nat :=
  match l with
  | [] => None
  | y :: l' => if name_eqb x y then Some 0 else option_map S (position x l')
  end.

(** The values the inner group starts from when input number [q] has the value [v q]. *)
Definition fed (m : inner) (v : nat -> values) : store values :=
  fun x => match position x (in_inputs m) with Some q => v q | None => in_start m x end.

Definition inner_pass (m : inner) (v : nat -> values) : store values :=
  pass (in_table m) (in_asm m) (in_part m) (in_subs m) (in_reads m) (in_writes m) (in_state m)
    (in_added m) (in_ind m) (fed m v).
