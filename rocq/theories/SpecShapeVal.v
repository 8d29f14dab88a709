(** What a shape and a value given together mean. *)
From Coq Require Import Reals Arith List.
From Verif Require Import NdArray ShapeVal.
Import ListNotations.

(** the value means the array [a] for the shape [s] *)
Definition stands_for (v : val_arg) (s : list nat) (a : nd R) : Prop :=
  match v with
  | VNum c => shp a = s /\ forall k, dat a k = c
  | VList b | VArray b => a = b
  | VOther => False
  end.

Definition fits (s : list nat) (v : val_arg) : Prop :=
  match v with
  | VNum _ => True
  | VList b | VArray b => s = [1] \/ s = shp b
  | VOther => False
  end.
