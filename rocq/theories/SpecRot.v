(** What rotmat means. *)
From Coq Require Import Reals Arith List Bool.
From Verif Require Import RSum NdArray.
Import ListNotations.
Local Open Scope R_scope.

(** Matrix times vector, 3x3. *)
Definition mat_vec3 (M : nat -> nat -> R) (v : nat -> R) (i : nat) : R :=
  rsum 3 (fun j => M i j * v j).

(** Unit vector along axis [k] (0 = x, 1 = y, 2 = z). *)
Definition e3 (k i : nat) : R := if Nat.eqb i k then 1 else 0.

(** determinant *)
Definition det3 (M : nat -> nat -> R) : R :=
  M 0%nat 0%nat * (M 1%nat 1%nat * M 2%nat 2%nat - M 1%nat 2%nat * M 2%nat 1%nat)
  - M 0%nat 1%nat * (M 1%nat 0%nat * M 2%nat 2%nat - M 1%nat 2%nat * M 2%nat 0%nat)
  + M 0%nat 2%nat * (M 1%nat 0%nat * M 2%nat 1%nat - M 1%nat 1%nat * M 2%nat 0%nat).

(** the axes following [k], cyclically: x -> y -> z -> x *)
Definition next (k : nat) : nat := match k with 0 => 1 | 1 => 2 | _ => 0 end%nat.

(** [M] is the right-handed rotation by [a] about axis [k]: it is orthogonal with
    determinant one, keeps the axis fixed, and turns the next axis towards the
    one after it by the angle [a]. *)
Definition rotation_about (k : nat) (a : R) (M : nat -> nat -> R) : Prop :=
  (forall i j, (i < 3)%nat -> (j < 3)%nat ->
     rsum 3 (fun l => M l i * M l j) = if Nat.eqb i j then 1 else 0) /\
  det3 M = 1 /\
  (forall i, (i < 3)%nat -> mat_vec3 M (e3 k) i = e3 k i) /\
  (forall i, (i < 3)%nat -> mat_vec3 M (e3 (next k)) i =
     cos a * e3 (next k) i + sin a * e3 (next (next k)) i).

(** One rotation matrix per angle; a single angle gives one 3x3 matrix. *)
Definition rotmat_meaning (k : nat) (ins : list (nd R)) (y : nd R) : Prop :=
  exists x, ins = [x] /\
  (shp x = [1%nat] -> shp y = [3; 3]%nat /\
     rotation_about k (get x [0%nat]) (fun i j => get y [i; j])) /\
  (shp x <> [1%nat] -> shp y = shp x ++ [3; 3]%nat /\
     forall idx, inb (shp x) idx ->
       rotation_about k (get x idx) (fun i j => get y (idx ++ [i; j]))).
