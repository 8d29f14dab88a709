(** NumPy's convention for axes: the number z and the tuple (z,) mean the axis z;
    a tuple means its entries.  A list is not an axis argument. *)
From Coq Require Import Reals List ZArith.
From Verif Require Import NdArray Component AxisForms.
Import ListNotations.

Definition stands_for (a : axes_arg) (zs : list Z) : Prop :=
  match a with
  | AInt z => zs = [z]
  | ATuple l => zs = l
  | AList _ => False
  end.

(** A function with an axis argument follows the convention: what is meant
    determines what is returned and built. *)
Definition follows_numpy (f : axes_arg -> option (shape * option component)) : Prop :=
  forall a b zs, stands_for a zs -> stands_for b zs -> f a = f b.

(** The call returns, and building the component raises. *)
Definition returns_unbuilt (r : option (shape * option component)) : Prop :=
  exists s, r = Some (s, None).

(** The call returns an expression of shape [s] whose component has [P]. *)
Definition built (r : option (shape * option component)) (s : shape) (P : component -> Prop) : Prop :=
  exists c, r = Some (s, Some c) /\ P c.
