(** What extending a parent's setup is meant to do. *)
From Verif Require Import PyBase GroupApi Inherit.

(** The calls of a hierarchy in the order Python makes them. *)
Fixpoint all_calls (classes : list (list item)) : list op :=
  match classes with
  | [] => []
  | b :: parents =>
    flat_map (fun x => match x with Call o => [o] | Super => all_calls parents end) b
  end.

(** The calls made before the first of the wrapped setups ends. *)
Fixpoint first_calls (classes : list (list item)) : list op :=
  match classes with
  | [] => []
  | b :: parents =>
    (fix upto (b : list item) :=
       match b with
       | [] => []
       | Call o :: r => o :: upto r
       | Super :: _ => first_calls parents
       end) b
  end.
