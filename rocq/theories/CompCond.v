(** omtools/std/if_else.py L7-77. *)
From Coq Require Import Reals Arith List Bool ZArith.
From Verif Require Import PyBase RSum NdArray Component CompReorder CompElem.
Import ListNotations.
Local Open Scope R_scope.

(** What if_else reads of an expression: its name, its shape, and the shape of
    its val attribute.  A declared input has both alike; an expression computed
    from others keeps the val np.array([1]) of Variable.__init__
    (core/variable.py L131-140). *)
Record expr_facts := Facts { x_name : nat; x_shape : list nat; x_val : list nat }.

(** bool(inputs[condition] < 0): an array of other than one entry has no truth
    value *)
Definition truth_neg (c : nd R) : option bool :=
  if Nat.eqb (size (shp c)) 1 then Some (if Rlt_dec (dat c 0%nat) 0 then true else false) else None.

(** no partials declared: zero *)
Definition no_entries : jac := Sparse (Coo 0 (fun _ => 0%nat) (fun _ => 0%nat) (fun _ => 0)).

(** L41-53, for the operand [p]: 0 the condition, 1 the branch for true, 2 the
    one for false; rows and columns of L22-27 *)
Definition cond_partials (n : nat) (ins : list (nd R)) (p : nat) : option jac :=
  match ins with
  | [c; t; f] =>
      match truth_neg c, p with
      | None, _ => None
      | Some _, 0%nat => Some no_entries
      | Some neg, 1%nat =>
          as_sparse (sparse_partials (np_arange n) (np_arange n) (if neg then scalar 0 else t))
      | Some neg, 2%nat =>
          as_sparse (sparse_partials (np_arange n) (np_arange n) (if neg then f else scalar 0))
      | _, _ => None
      end
  | _ => None
  end.

(** setup L14-27: inputs of the shapes of the vals, an output of shape (1,); two
    inputs of one name raise, and so do row indices past the only output entry *)
Definition cond_comp (c t f : expr_facts) : option component :=
  let n := size (x_shape t) in
  if names_ok [x_name c; x_name t; x_name f] && Nat.leb n 1 then
    Some (Comp [x_val c; x_val t; x_val f] [1%nat]
            (fun ins => match ins with
                        | [a; b; d] => match truth_neg a with
                                       | Some true => assign_output [1%nat] d
                                       | Some false => assign_output [1%nat] b
                                       | None => None
                                       end
                        | _ => None
                        end)
            (fun ins p => cond_partials n ins p))
  else None.

(** the call, L56-77: the recorded shape is that of Variable() *)
Definition if_else (c t f : expr_facts) : option (list nat * option component) :=
  if list_eq_dec Nat.eq_dec (x_shape t) (x_shape f) then Some ([1%nat], cond_comp c t f) else None.
