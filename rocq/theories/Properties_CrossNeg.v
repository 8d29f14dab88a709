(** C117.  What is expected: cross_meaning in SpecProduct.v; model: CrossNeg.v, where [cross_from_end s0 s1 k]
    is cross along the axis -k.  Concrete cases: cross_end_cases in CrossNegProofs.v. *)
From Coq Require Import Reals List.
From Verif Require Import NdArray Component JacSpec CompProduct SpecProduct MatStack CrossNeg CrossNegProofs.
Import ListNotations.

(** C117 REFUTED: some axis from the end with extent three cannot be used. *)
Theorem C117_refuted : ~ (forall s k, 1 <= k -> k <= length s ->
  nth_error s (length s - k) = Some 3 ->
  exists c, cross_from_end s s k = Ready s c /\ correct c (cross_meaning (length s - k))).
Proof. exact cross_end_refuted. Qed.
Print Assumptions C117_refuted.

(** C117, what the code does: the call returns exactly for operands of one shape with extent three on that axis. *)
Theorem C117_returns : forall s0 s1 k, 1 <= k ->
  cross_from_end s0 s1 k <> CallRaises <->
  s0 = s1 /\ k <= length s0 /\ nth_error s0 (length s0 - k) = Some 3.
Proof. exact cross_end_returns. Qed.
Print Assumptions C117_returns.

(** Setup succeeds exactly for the axes -k, k > 1, of arrays with at least 11-k and at most 11 axes, and for
    the axis -1 of arrays with 11 axes. *)
Theorem C117_set_up : forall s k, 1 <= k -> k <= length s -> nth_error s (length s - k) = Some 3 ->
  ((exists c, cross_from_end s s k = Ready s c) <->
   (2 <= k /\ 11 <= length s + k /\ length s <= 11) \/ (k = 1 /\ length s = 11)) /\
  (~ ((2 <= k /\ 11 <= length s + k /\ length s <= 11) \/ (k = 1 /\ length s = 11)) ->
   cross_from_end s s k = SetupRaises s).
Proof. exact cross_end_set_up. Qed.
Print Assumptions C117_set_up.

(** So never for arrays with at most five axes. *)
Theorem C117_small : forall s k, 1 <= k -> length s <= 5 ->
  nth_error s (length s - k) = Some 3 -> k <= length s -> cross_from_end s s k = SetupRaises s.
Proof. exact cross_end_small. Qed.
Print Assumptions C117_small.

(** Once set up, value and derivatives are right exactly for arrays with ten axes, and for the first of eleven;
    then the component is that of the axis counted from the start. *)
Theorem C117_works : forall s k c, 1 <= k -> 0 < size s -> cross_from_end s s k = Ready s c ->
  (correct c (cross_meaning (length s - k)) <-> length s = 10 \/ k = 11) /\
  (length s = 10 \/ k = 11 -> cross_comp s s (length s - k) = Some c).
Proof. exact cross_end_works. Qed.
Print Assumptions C117_works.
