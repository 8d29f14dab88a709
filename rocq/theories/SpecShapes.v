(** What C55, C80 and C81 are about. *)
From Coq Require Import Arith List Bool.
From Verif Require Import PyBase NdArray Component CompElem CompCond StdCalls.
Import ListNotations.

(** A product by a matrix of one column, or by a vector. *)
Definition by_one_column (k : std_call) : Prop :=
  match k with
  | KMatmat x y => (exists n, x_shape y = [n]) \/ (exists n, x_shape y = [n; 1])
  | _ => False
  end.

(** Operands of one shape where the operation takes the shape from one of them;
    values of the shape of their expression where it reads the value. *)
Definition like_shapes (k : std_call) : Prop :=
  match k with
  | KSum xs _ | KAverage xs _ => forall x y, In x xs -> In y xs -> x_shape x = x_shape y
  | KInner x y _ => length (x_shape x) = 1 -> length (x_shape y) = 1 -> x_shape x = x_shape y
  | KMatmat x y => length (x_shape y) <> 1
  | KIfElse c t f => x_val c = x_shape c /\ x_val t = x_shape t /\ x_val f = x_shape f
  | _ => True
  end.

(** OpenMDAO connects arrays of equal size whose shapes agree up to extents of
    one at either end. *)
Fixpoint drop_ones (s : shape) : shape :=
  match s with
  | 1 :: r => drop_ones r
  | _ => s
  end.
Definition trim (s : shape) : shape := rev (drop_ones (rev (drop_ones s))).
Definition connectable (a b : shape) : Prop := size a = size b /\ trim a = trim b.

(** the entries of the input *)
Definition same_meaning (ins : list (nd Rdefinitions.R)) (y : nd Rdefinitions.R) : Prop :=
  match ins with
  | [x] => shp y = shp x /\ forall i, i < size (shp x) -> dat y i = dat x i
  | _ => False
  end.
