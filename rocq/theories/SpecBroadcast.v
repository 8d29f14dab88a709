(** What C113 is about: NumPy's rule for combining an array with a larger one. *)
From Coq Require Import List.
Import ListNotations.

(** The axes are compared from the last one on: every axis of the array has
    extent one or the extent of the axis it meets. *)
Definition stretches (t s : list nat) : Prop :=
  forall n b, nth_error (rev t) n = Some b -> b = 1 \/ nth_error (rev s) n = Some b.

(** Entry [j] of an array of shape [t] meets entry [i] of the larger one. *)
Definition meets (t i j : list nat) : Prop :=
  length j = length t /\
  forall n b, nth_error (rev t) n = Some b ->
    (b = 1 /\ nth_error (rev j) n = Some 0) \/ (b <> 1 /\ nth_error (rev j) n = nth_error (rev i) n).
