(** What the inner product along axes is. *)
From Coq Require Import Reals Arith List Bool ZArith.
From Verif Require Import RSum NdArray SpecReduce.
Import ListNotations.
Local Open Scope R_scope.

(** the numbers of the index [idx] on the axes [axes] *)
Definition on_axes (axes idx : list nat) : list nat := map (fun a => nth a idx 0%nat) axes.

Definition same (l m : list nat) : bool := if list_eq_dec Nat.eq_dec l m then true else false.

(** Entry [idx] of the result is the sum of the products of an element of [a] and
    an element of [b] over all pairs whose indices agree on the paired axes and
    whose remaining indices, one after the other, are [idx]. *)
Definition inner_meaning (ax bx : list nat) (ins : list (nd R)) (y : nd R) : Prop :=
  exists a b, ins = [a; b] /\ on_axes ax (shp a) = on_axes bx (shp b) /\
    shp y = drop_axes ax (shp a) ++ drop_axes bx (shp b) /\
    forall idx, inb (shp y) idx ->
      get y idx =
      rsum (size (shp a)) (fun p => rsum (size (shp b)) (fun q =>
        if same (on_axes ax (unravel (shp a) p)) (on_axes bx (unravel (shp b) q)) &&
           same (drop_axes ax (unravel (shp a) p) ++ drop_axes bx (unravel (shp b) q)) idx
        then dat a p * dat b q else 0)).

(** The axis numbers [z0] and [z1] name the distinct axes [a0] and [a1], paired
    with equal extents. *)
Definition paired (s0 s1 : list nat) (z0 z1 : list Z) (a0 a1 : list nat) : Prop :=
  Forall2 (axis_named (length s0)) z0 a0 /\ Forall2 (axis_named (length s1)) z1 a1 /\
  NoDup a0 /\ NoDup a1 /\ on_axes a0 s0 = on_axes a1 s1.

(** at least one operand is not a vector *)
Definition not_both_vectors (s0 s1 : list nat) : Prop := ~ (length s0 = 1%nat /\ length s1 = 1%nat).

(** the axes are all counted from the front, or all from the back *)
Definition one_signed (z : list Z) : Prop := Forall (fun a => 0 <= a)%Z z \/ Forall (fun a => a < 0)%Z z.

(** Shapes for which counting the axes of the first operand from the back does no
    harm: no entries at all; or one of the two groups of axes of the first operand
    (the summed ones and the others) has a single index, and so has the result's
    share of the second operand, unless the first operand has as many elements
    along its leading axes as along the axes that remain. *)
Definition first_harmless (s0 s1 : list nat) (a0 a1 : list nat) : Prop :=
  size s0 = 0%nat \/ size (drop_axes a1 s1) = 0%nat \/
  (size (drop_axes a0 s0) = 1%nat \/ size (on_axes a0 s0) = 1%nat) /\
  (size (drop_axes a1 s1) = 1%nat \/
   size (firstn (length (drop_axes a0 s0)) s0) = size (drop_axes a0 s0)).

(** The same for the second operand: no entries at all, or one of its two groups
    of axes has a single index. *)
Definition second_harmless (s0 s1 : list nat) (a0 a1 : list nat) : Prop :=
  size s1 = 0%nat \/ size (drop_axes a0 s0) = 0%nat \/
  size (drop_axes a1 s1) = 1%nat \/ size (on_axes a1 s1) = 1%nat.
