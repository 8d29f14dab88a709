(** Creating an expression directly: Variable(name=..., shape=..., val=..., units=...).

    Simplification: names, values and units are objects (nat); [variable] gets the
    generated name as an argument. *)
From Coq Require Import Arith List.
Import ListNotations.

(** A keyword argument; [KwOther]: any keyword not looked at *)
Inductive kwarg :=
| KwName (n : nat) | KwShape (s : list nat) | KwVal (v : nat) | KwUnits (u : nat) | KwOther (key v : nat).

Record fields := Fields { f_name : nat; f_shape : list nat; f_val : option nat; f_units : option nat }.

(** omtools/core/variable.py L111-120: one pass of the loop.  L114 reads the
    name _id, which is local to __init__ (L124): NameError, [None]. *)
Definition init_step (f : fields) (k : kwarg) : option fields :=
  match k with
  | KwName _ => None
  | KwShape s => Some (Fields (f_name f) s (f_val f) (f_units f))
  | KwVal v => Some (Fields (f_name f) (f_shape f) (Some v) (f_units f))
  | KwUnits u => Some (Fields (f_name f) (f_shape f) (f_val f) (Some u))
  | KwOther _ _ => Some f
  end.

Fixpoint init_loop (f : fields) (l : list kwarg) : option fields :=
  match l with
  | [] => Some f
  | k :: l' => match init_step f k with Some f' => init_loop f' l' | None => None end
  end.

(** omtools/core/variable.py L122-135: the fields before initialize is called
    ([f_val] None: np.array([1])), then the call *)
Definition variable (id : nat) (l : list kwarg) : option fields :=
  init_loop (Fields id [1] None None) l.
