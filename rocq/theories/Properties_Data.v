(** Theorems about structure_data. *)
From Coq Require Import Reals Arith List.
From Verif Require Import RSum NdArray StructureData SpecData DataProofs.
Import ListNotations.
Local Open Scope R_scope.

(** C95: with one input the rows are the grid points. *)
Theorem C95_one_input : forall l out ny xt xl, structure_data [l] out ny = Some (xt, xl) ->
  rows_are_points [l] xt.
Proof. exact data_one_input. Qed.
Print Assumptions C95_one_input.

(** C95, what the code does: the coordinates of all points one input after the
    other, cut into rows. *)
Theorem C95_actual : forall inputs out ny xt xl, structure_data inputs out ny = Some (xt, xl) ->
  let n := length inputs in let N := size (map (@length R) inputs) in
  shp xt = [N; n] /\
  forall r k, (r < N)%nat -> (k < n)%nat ->
    get xt [r; k] = coordinate inputs (unravel (map (@length R) inputs) ((r * n + k) mod N)) ((r * n + k) / N).
Proof. exact data_rows. Qed.
Print Assumptions C95_actual.

(** C95 refuted: for two or more inputs of any lengths (and more than one point)
    there are values for which the first row is no grid point. *)
Theorem C95_refuted : forall ns, (2 <= length ns)%nat -> (2 <= size ns)%nat ->
  exists inputs xt xl, map (@length R) inputs = ns /\
    structure_data inputs ns 1 = Some (xt, xl) /\
    forall idx, inb ns idx -> ~ row_is inputs xt 0 idx.
Proof. exact data_refuted. Qed.
Print Assumptions C95_refuted.

(** C96, what the code does: the limits of every input are the least and the
    greatest value of all inputs. *)
Theorem C96_actual : forall inputs out ny xt xl, structure_data inputs out ny = Some (xt, xl) ->
  forall k, (k < length inputs)%nat ->
    least (get xl [k; 0%nat]) (concat inputs) /\ greatest (get xl [k; 1%nat]) (concat inputs).
Proof. exact data_limits. Qed.
Print Assumptions C96_actual.

(** C96 refuted: two inputs with different ranges. *)
Theorem C96_refuted : exists inputs xt xl,
  structure_data inputs [2; 2]%nat 1 = Some (xt, xl) /\ ~ limits_are_ranges inputs xl.
Proof. exact data_limits_refuted. Qed.
Print Assumptions C96_refuted.
