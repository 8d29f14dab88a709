(** What reshape, transpose, reorder_axes and expand mean, independently of how
    the components compute it. *)
From Coq Require Import Reals Arith List Bool.
From Verif Require Import NdArray.
Import ListNotations.

(** reshape: elements keep their row-major position. *)
Definition reshape_meaning (ins : list (nd R)) (y : nd R) : Prop :=
  exists x, ins = [x] /\
  forall i j, inb (shp x) i -> inb (shp y) j -> ravel (shp x) i = ravel (shp y) j ->
    get y j = get x i.

(** transpose: y[i_n, ..., i_1] = x[i_1, ..., i_n]. *)
Definition transpose_meaning (ins : list (nd R)) (y : nd R) : Prop :=
  exists x, ins = [x] /\ shp y = rev (shp x) /\
  forall i, inb (shp x) i -> get y (rev i) = get x i.

(** An index string: whatever numbers the letters stand for ([e]),
    y[e(outs)] = x[e(ins)], and the left side is in range iff the right is. *)
Definition letters_meaning (ls outs : list nat) (ins : list (nd R)) (y : nd R) : Prop :=
  exists x, ins = [x] /\
  forall e : nat -> nat,
    (inb (shp y) (map e outs) <-> inb (shp x) (map e ls)) /\
    (inb (shp x) (map e ls) -> get y (map e outs) = get x (map e ls)).

(** Letters are not the separators of an index string. *)
Definition letters (l : list nat) : Prop :=
  forall c, In c l -> c <> 32 /\ c <> 44 /\ c <> 45 /\ c <> 62.

(** The string "ins->outs", written with any number of blanks. *)
Definition spells (op ins outs : list nat) : Prop :=
  filter (fun c => negb (Nat.eqb c 32)) op = ins ++ [45; 62] ++ outs.

(** expand: the new axes are the output letters that are not input letters;
    y[e(outs)] = x[e(ins)] for every reading [e] of the letters that is inside
    the requested shape. *)
Definition expand_meaning (ls outs : list nat) (ins : list (nd R)) (y : nd R) : Prop :=
  exists x, ins = [x] /\
  forall e : nat -> nat, inb (shp y) (map e outs) ->
    inb (shp x) (map e ls) /\ get y (map e outs) = get x (map e ls).

(** expand of a scalar: every element is that scalar. *)
Definition fill_meaning (ins : list (nd R)) (y : nd R) : Prop :=
  exists x, ins = [x] /\ forall j, inb (shp y) j -> get y j = get x [0].
