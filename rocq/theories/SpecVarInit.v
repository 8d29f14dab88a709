(** What creating an expression should do: each keyword sets its field, and a
    field that is not given has its default. *)
From Coq Require Import Arith List.
From Verif Require Import VarInit.
Import ListNotations.

(** the word a keyword argument is given with (0: name, 1: shape, 2: val, 3: units) *)
Definition word (k : kwarg) : nat :=
  match k with
  | KwName _ => 0 | KwShape _ => 1 | KwVal _ => 2 | KwUnits _ => 3 | KwOther key _ => 4 + key
  end.

(** [x] is what [given] holds for some argument, or the default if none is given *)
Definition field_is {A} (l : list kwarg) (given : A -> kwarg) (default x : A) : Prop :=
  In (given x) l \/ ((forall y, ~ In (given y) l) /\ x = default).

Definition fields_right (id : nat) (l : list kwarg) (f : fields) : Prop :=
  field_is l KwName id (f_name f) /\
  field_is l KwShape [1] (f_shape f) /\
  match f_val f with Some v => In (KwVal v) l | None => forall v, ~ In (KwVal v) l end /\
  match f_units f with Some u => In (KwUnits u) l | None => forall u, ~ In (KwUnits u) l end.

(** Python rejects a keyword given twice. *)
Definition kwargs_ok (l : list kwarg) : Prop := NoDup (map word l).
