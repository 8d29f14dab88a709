(** What training data and limits of a surrogate model should be. *)
From Coq Require Import Reals Arith List.
From Verif Require Import NdArray.
Import ListNotations.
Local Open Scope R_scope.

(** Coordinate [k] of the grid point with index [idx]. *)
Definition coordinate (inputs : list (list R)) (idx : list nat) (k : nat) : R :=
  nth (nth k idx 0%nat) (nth k inputs []) 0.

(** Row [r] of the data is the grid point [idx]. *)
Definition row_is (inputs : list (list R)) (xt : nd R) (r : nat) (idx : list nat) : Prop :=
  forall k, (k < length inputs)%nat -> get xt [r; k] = coordinate inputs idx k.

(** The rows are the grid points, in the order of the flattened outputs. *)
Definition rows_are_points (inputs : list (list R)) (xt : nd R) : Prop :=
  forall idx, inb (map (@length R) inputs) idx ->
    row_is inputs xt (ravel (map (@length R) inputs) idx) idx.

(** [m] is the least (greatest) element. *)
Definition least (m : R) (l : list R) : Prop := In m l /\ forall x, In x l -> m <= x.
Definition greatest (m : R) (l : list R) : Prop := In m l /\ forall x, In x l -> x <= m.

(** The limits of input [k] are the least and the greatest of its values. *)
Definition limits_are_ranges (inputs : list (list R)) (xl : nd R) : Prop :=
  forall k, (k < length inputs)%nat ->
    least (get xl [k; 0%nat]) (nth k inputs []) /\ greatest (get xl [k; 1%nat]) (nth k inputs []).
