(** The real number a Python number stands for, and the numbers float and int cover. *)
From Coq Require Import Reals ZArith QArith Qreals.
From Verif Require Import PyNumbers.
Local Open Scope R_scope.

Inductive stands (x : number) : R -> Prop :=
| stands_bool b : x = PBool b -> stands x (if b then 1 else 0)
| stands_int z : x = PInt z \/ x = NInt64 z -> stands x (IZR z)
| stands_float r : x = PFloat r \/ x = NFloat64 r \/ x = PDecimal r -> stands x r
| stands_fraction q : x = PFraction q -> stands x (Q2R q)
| stands_complex r : x = PComplex r 0 -> stands x r.

(** isinstance(x, (int, float)) *)
Definition int_or_float (x : number) : Prop :=
  match x with PBool _ | PInt _ | PFloat _ | NFloat64 _ => True | _ => False end.
Definition of_numpy (x : number) : Prop :=
  match x with NFloat64 _ | NInt64 _ => True | _ => False end.
