(** Derivatives in reverse: the transposed linear equations of a model. *)
From Coq Require Import Reals Arith List Bool.
From Verif Require Import PyBase SpecGraph Graph GroupApi Run RSum NdArray Component JacSpec SpecExtremum SpecDeriv.
Import ListNotations.
Local Open Scope R_scope.

Definition total {A} (l : list A) (f : A -> R) : R := fold_right (fun a r => f a + r) 0 l.

(** entry ([o], [i]) of the declared partial of [c] with respect to its input [q] at [v] *)
Definition declared (c : component) (v : nat -> nat -> R) (q o i : nat) : R :=
  match c_partials c (inputs_of (c_ins c) v) q with
  | Some j => jac_entry (size (nth q (c_ins c) [])) j o i
  | None => 0
  end.

Section Model.
Variables (table asm part : nat -> component) (subs : nat -> list component).
Variables (sub_reads sub_writes : nat -> list name).
Variable shape_of : name -> list nat.
Variable st : api.

Local Notation reads := (comp_reads sub_reads st).
Local Notation writes := (comp_writes sub_writes st).
Local Notation extent x := (size (shape_of x)).
Local Notation parts_of := (parts_of table asm part subs shape_of st).

(** what the outputs of system [n], of sensitivity [A], contribute to the
    sensitivity to entry [i] of the variable [y] *)
Definition sent (fin : store values) (A : name -> values) (n : nat) (y : name) (i : nat) : R :=
  total (combine (writes n) (parts_of n)) (fun xc =>
    rsum (length (c_ins (snd xc))) (fun q =>
      match nth_error (reads n) q with
      | Some z => if name_eqb z y
                  then rsum (extent (fst xc)) (fun o => A (fst xc) o * declared (snd xc) (args (map fin (reads n))) q o i)
                  else 0
      | None => 0
      end)).

(** [A] solves the transposed equations of the listed systems, for the weights [w] *)
Definition adjoint (systems : list nat) (fin : store values) (w A : name -> values) : Prop :=
  forall y i, (i < extent y)%nat -> A y i = w y i + total systems (fun n => sent fin A n y i).

(** all variables: those given from outside, and those written *)
Definition variables (outer : list name) (systems : list nat) : list name := outer ++ flat_map writes systems.

(** the given variables the systems read *)
Definition given (outer : list name) (systems : list nat) : Prop :=
  NoDup outer /\ (forall x, In x outer -> ~ written sub_writes st x) /\
  forall n x, In n systems -> In x (reads n) -> ~ written sub_writes st x -> In x outer.

Definition weighted (l : list name) (w f : name -> values) : R :=
  total l (fun x => rsum (extent x) (fun i => w x i * f x i)).

(** the sensitivities applied to the rates of what is given from outside *)
Definition collected (outer : list name) (systems : list nat) (A ds : name -> values) (dind : nat -> values) : R :=
  weighted outer A ds +
  total systems (fun n => match abuild st n with
                          | BIndep nm => rsum (extent nm) (fun i => A nm i * dind n i)
                          | _ => 0
                          end).
End Model.
