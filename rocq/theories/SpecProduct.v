(** What the products mean. *)
From Coq Require Import Reals Arith List Bool.
From Verif Require Import RSum NdArray.
Import ListNotations.
Local Open Scope R_scope.

(** y = A x *)
Definition matvec_meaning (m n : nat) (ins : list (nd R)) (y : nd R) : Prop :=
  exists A x, ins = [A; x] /\ shp A = [m; n] /\ shp x = [n] /\ shp y = [m] /\
  forall i, (i < m)%nat -> get y [i] = rsum n (fun j => get A [i; j] * get x [j]).

(** Y = A B; a result with one column may be a vector *)
Definition matmat_meaning (m n p : nat) (ins : list (nd R)) (y : nd R) : Prop :=
  exists A B, ins = [A; B] /\ shp A = [m; n] /\ shp B = [n; p] /\
  ((shp y = [m; p] /\ forall i k, (i < m)%nat -> (k < p)%nat ->
      get y [i; k] = rsum n (fun j => get A [i; j] * get B [j; k])) \/
   (p = 1%nat /\ shp y = [m] /\ forall i, (i < m)%nat ->
      get y [i] = rsum n (fun j => get A [i; j] * get B [j; 0%nat]))).

(** inner product of two vectors *)
Definition vector_inner_meaning (n : nat) (ins : list (nd R)) (y : nd R) : Prop :=
  exists a b, ins = [a; b] /\ shp a = [n] /\ shp b = [n] /\ shp y = [1%nat] /\
  get y [0%nat] = rsum n (fun i => get a [i] * get b [i]).

(** [q] inserted in the index [l] at position [a] *)
Definition with_axis (a q : nat) (l : list nat) : list nat := firstn a l ++ q :: skipn a l.

(** dot product along axis [a] (extent 3) of two arrays of one shape *)
Definition dot_meaning (a : nat) (ins : list (nd R)) (y : nd R) : Prop :=
  exists x1 x2, ins = [x1; x2] /\ shp x1 = shp x2 /\ shp x1 = with_axis a 3 (shp y) /\
  forall idx, inb (shp y) idx ->
    get y idx = rsum 3 (fun q => get x1 (with_axis a q idx) * get x2 (with_axis a q idx)).

(** outer product *)
Definition outer_meaning (ins : list (nd R)) (y : nd R) : Prop :=
  exists a b, ins = [a; b] /\ shp y = shp a ++ shp b /\
  forall i j, inb (shp a) i -> inb (shp b) j -> get y (i ++ j) = get a i * get b j.

(** cross product along axis [a] *)
Definition cross_meaning (a : nat) (ins : list (nd R)) (y : nd R) : Prop :=
  exists x1 x2 rest, ins = [x1; x2] /\ shp x1 = with_axis a 3 rest /\
  shp x2 = with_axis a 3 rest /\ shp y = with_axis a 3 rest /\
  forall idx, inb rest idx ->
    let u q := get x1 (with_axis a q idx) in
    let v q := get x2 (with_axis a q idx) in
    get y (with_axis a 0 idx) = u 1%nat * v 2%nat - u 2%nat * v 1%nat /\
    get y (with_axis a 1 idx) = u 2%nat * v 0%nat - u 0%nat * v 2%nat /\
    get y (with_axis a 2 idx) = u 0%nat * v 1%nat - u 1%nat * v 0%nat.
