(** The matrices of total derivatives of a model, column by column. *)
From Coq Require Import Reals Arith List Bool.
From Verif Require Import PyBase SpecGraph Graph GroupApi Run RSum NdArray Component JacSpec Implicit SpecDeriv SpecAdjoint.
Import ListNotations.
Local Open Scope R_scope.

(** only entry [j] of the variable [v] moves, or only entry [j] of the
    independent variable made by call [m] *)
Definition seed_name (v : name) (j : nat) : name -> values :=
  fun x i => if name_eqb x v && Nat.eqb i j then 1 else 0.
Definition seed_indep (m j : nat) : nat -> values :=
  fun n i => if Nat.eqb n m && Nat.eqb i j then 1 else 0.
Definition still {A : Type} : A -> values := fun _ _ => 0.

(** only the listed variables move *)
Definition moves_only (vs : list name) (ns : list nat) (ds : name -> values) (dind : nat -> values) : Prop :=
  (forall x i, ~ In x vs -> ds x i = 0) /\ (forall n i, ~ In n ns -> dind n i = 0).

Section Model.
Variables (table asm part : nat -> component) (subs : nat -> list component).
Variables (sub_reads sub_writes : nat -> list name).
Variable shape_of : name -> list nat.
Variable st : api.
Local Notation extent x := (size (shape_of x)).
Local Notation solves := (solves table asm part subs sub_reads sub_writes shape_of st).

(** [tot v j] and [itot n j] are the columns: the solution when only that entry moves *)
Definition columns (fin : store values) (vs : list name) (ns : list nat)
           (tot : name -> nat -> name -> values) (itot : nat -> nat -> name -> values) : Prop :=
  (forall v j, In v vs -> (j < extent v)%nat -> solves fin (seed_name v j) still (tot v j)) /\
  (forall n nm j, In n ns -> abuild st n = BIndep nm -> (j < extent nm)%nat ->
     solves fin still (seed_indep n j) (itot n j)).

(** the matrices applied to the rates of what moves *)
Definition times_rates (vs : list name) (ns : list nat)
           (tot : name -> nat -> name -> values) (itot : nat -> nat -> name -> values)
           (ds : name -> values) (dind : nat -> values) (x : name) (i : nat) : R :=
  total vs (fun v => rsum (extent v) (fun j => tot v j x i * ds v j)) +
  total ns (fun n => match abuild st n with
                     | BIndep nm => rsum (extent nm) (fun j => itot n j x i * dind n j)
                     | _ => 0
                     end).
End Model.

(** values [s] with the variable [o] at [y] *)
Definition with_output (s : store values) (o : name) (y : values) : store values :=
  fun x => if name_eqb x o then y else s x.
