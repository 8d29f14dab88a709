(** What sum and average mean. *)
From Coq Require Import Reals Arith List Bool ZArith.
From Verif Require Import RSum NdArray.
Import ListNotations.
Local Open Scope R_scope.

(** The integer [z] (counted from the end when negative) names axis [a] of an
    array of rank [r]. *)
Definition axis_named (r : nat) (z : Z) (a : nat) : Prop :=
  (a < r)%nat /\ (Z.of_nat a = z \/ (Z.of_nat a = z + Z.of_nat r /\ (z < 0)%Z))%Z.

(** [idx] without the entries at the positions [axes] *)
Definition drop_axes (axes idx : list nat) : list nat :=
  map (fun i => nth i idx 0%nat)
      (filter (fun i => negb (existsb (Nat.eqb i) axes)) (seq 0 (length idx))).

(** The elements of [x] that belong to position [idx] of the result: those whose
    index, without the reduced axes, is [idx]. *)
Definition belongs (axes : list nat) (x : nd R) (idx : list nat) (k : nat) : bool :=
  if list_eq_dec Nat.eq_dec (drop_axes axes (unravel (shp x) k)) idx then true else false.

(** their sum and their number *)
Definition sum_over (axes : list nat) (x : nd R) (idx : list nat) : R :=
  rsum (size (shp x)) (fun k => if belongs axes x idx k then dat x k else 0).
Definition count_over (axes : list nat) (x : nd R) (idx : list nat) : R :=
  rsum (size (shp x)) (fun k => if belongs axes x idx k then 1 else 0).

(** the [p]-th operand *)
Definition operand_at (ins : list (nd R)) (p : nat) : nd R := nth p ins (Nd [] (fun _ => 0)).

(** sum of all elements of one array *)
Definition sum_all_meaning (ins : list (nd R)) (y : nd R) : Prop :=
  exists x, ins = [x] /\ shp y = [1%nat] /\ get y [0%nat] = rsum (size (shp x)) (dat x).

(** elementwise sum of several arrays *)
Definition sum_elementwise_meaning (ins : list (nd R)) (y : nd R) : Prop :=
  forall idx, inb (shp y) idx ->
    get y idx = rsum (length ins) (fun p => get (operand_at ins p) idx).

(** sum over the given axes, added up over all operands *)
Definition sum_axes_meaning (axes : list nat) (ins : list (nd R)) (y : nd R) : Prop :=
  (forall x, In x ins -> shp y = drop_axes axes (shp x)) /\
  forall idx, inb (shp y) idx ->
    get y idx = rsum (length ins) (fun p => sum_over axes (operand_at ins p) idx).

(** averages: the same divided by the number of elements added *)
Definition average_all_meaning (ins : list (nd R)) (y : nd R) : Prop :=
  exists x, ins = [x] /\ shp y = [1%nat] /\
    get y [0%nat] = rsum (size (shp x)) (dat x) / INR (size (shp x)).

Definition average_elementwise_meaning (ins : list (nd R)) (y : nd R) : Prop :=
  forall idx, inb (shp y) idx ->
    get y idx = rsum (length ins) (fun p => get (operand_at ins p) idx) / INR (length ins).

Definition average_axes_meaning (axes : list nat) (ins : list (nd R)) (y : nd R) : Prop :=
  (forall x, In x ins -> shp y = drop_axes axes (shp x)) /\
  forall idx, inb (shp y) idx ->
    get y idx = rsum (length ins) (fun p => sum_over axes (operand_at ins p) idx) /
                rsum (length ins) (fun p => count_over axes (operand_at ins p) idx).
