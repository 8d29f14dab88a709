(** Model of omtools/utils/get_shape_val.py L6-35, called by Input, IndepVar,
    ExplicitOutput and ImplicitOutput (core/input.py L33, core/indep.py L33,
    core/explicit_output.py L39, core/implicit_output.py L68). *)
From Coq Require Import Reals Lia Arith List Bool.
From Verif Require Import RSum NdArray.
Import ListNotations.

(** the shape argument: a tuple, an int, or a list *)
Inductive shape_arg := ShTuple (s : list nat) | ShInt (n : nat) | ShList (s : list nat).

(** the value: a number, a list of numbers (as the array np.array makes of it),
    an array, or anything else *)
Inductive val_arg := VNum (c : R) | VList (a : nd R) | VArray (a : nd R) | VOther.

(** the shape of np.ones(shape) *)
Definition ones_shape (s : shape_arg) : list nat :=
  match s with ShTuple s | ShList s => s | ShInt n => [n] end.

(** shape == t *)
Definition is_tuple (s : shape_arg) (t : list nat) : bool :=
  match s with
  | ShTuple s => if list_eq_dec Nat.eq_dec s t then true else false
  | _ => false
  end.

(** L26-35; [None]: raises (a value of another kind makes the function return
    None, which the callers cannot unpack) *)
Definition get_shape_val (s : shape_arg) (v : val_arg) : option (shape_arg * nd R) :=
  match v with
  | VNum c => Some (s, Nd (ones_shape s) (fun _ => (c * 1)%R))
  | VList a | VArray a =>
      if is_tuple s [1] then Some (ShTuple (shp a), a)
      else if is_tuple s (shp a) then Some (s, a)
      else None
  | VOther => None
  end.
