(** Specification vocabulary for generated names (independent of the model). *)
From Verif Require Import PyBase.
From Coq Require Import Ascii.

(** Letters, digits and underscore: what OpenMDAO accepts in a name. *)
Definition name_char (c : ascii) : bool :=
  let n := nat_of_ascii c in
  (Nat.leb 48 n && Nat.leb n 57) || (Nat.leb 65 n && Nat.leb n 90)
  || (Nat.leb 97 n && Nat.leb n 122) || Nat.eqb n 95.
