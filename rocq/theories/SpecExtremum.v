(** What the smooth maximum and minimum are. *)
From Coq Require Import Reals Arith List Bool ZArith.
From Verif Require Import RSum NdArray Component JacSpec SpecReduce.
Import ListNotations.
Local Open Scope R_scope.

Definition rlist_sum (l : list R) : R := fold_right Rplus 0 l.

(** [y] is the Kreisselmeier-Steinhauser maximum of the numbers [xs]: not below
    any of them, at most ln n / rho above one of them, and given by the formula
    exp (rho y) = sum of exp (rho x). *)
Definition smooth_max (rho : R) (xs : list R) (y : R) : Prop :=
  (forall x, In x xs -> x <= y) /\
  (exists x, In x xs /\ y <= x + ln (INR (length xs)) / rho) /\
  exp (rho * y) = rlist_sum (map (fun x => exp (rho * x)) xs).

Definition smooth_min (rho : R) (xs : list R) (y : R) : Prop :=
  (forall x, In x xs -> y <= x) /\
  (exists x, In x xs /\ x - ln (INR (length xs)) / rho <= y) /\
  exp (- (rho * y)) = rlist_sum (map (fun x => exp (- (rho * x))) xs).

Definition smooth (neg : bool) := if neg then smooth_min else smooth_max.

(** entry by entry *)
Definition ext_elementwise (neg : bool) (rho : R) (ins : list (nd R)) (y : nd R) : Prop :=
  (forall x, In x ins -> shp y = shp x) /\
  forall idx, inb (shp y) idx -> smooth neg rho (map (fun x => get x idx) ins) (get y idx).

(** the elements of [x] that belong to position [idx] of the result *)
Definition elements_over (axes : list nat) (x : nd R) (idx : list nat) : list R :=
  map (dat x) (filter (belongs axes x idx) (seq 0 (size (shp x)))).

(** along an axis *)
Definition ext_axis (neg : bool) (rho : R) (a : nat) (ins : list (nd R)) (y : nd R) : Prop :=
  exists x, ins = [x] /\ shp y = drop_axes [a] (shp x) /\
    forall idx, inb (shp y) idx -> smooth neg rho (elements_over [a] x idx) (get y idx).

(** all entries of one array *)
Definition ext_all (neg : bool) (rho : R) (ins : list (nd R)) (y : nd R) : Prop :=
  exists x, ins = [x] /\ shp y = [1%nat] /\
    smooth neg rho (map (dat x) (seq 0 (size (shp x)))) (get y [0%nat]).

(** The derivatives of every output entry are non-negative and sum to one over
    all entries of all operands. *)
Definition jac_entry (nin : nat) (j : jac) (o i : nat) : R :=
  match j with
  | Sparse c => coo_entry c o i
  | Dense v => dense_entry nin v o i
  end.

Definition convex_weights (c : component) : Prop :=
  forall v, exists js : nat -> jac,
    (forall p, (p < length (c_ins c))%nat -> c_partials c (inputs_of (c_ins c) v) p = Some (js p)) /\
    (forall p o i, (p < length (c_ins c))%nat -> (o < size (c_out c))%nat ->
       (i < size (nth p (c_ins c) []))%nat ->
       0 <= jac_entry (size (nth p (c_ins c) [])) (js p) o i) /\
    (forall o, (o < size (c_out c))%nat ->
       rsum (length (c_ins c)) (fun p => rsum (size (nth p (c_ins c) []))
         (fun i => jac_entry (size (nth p (c_ins c) [])) (js p) o i)) = 1).
