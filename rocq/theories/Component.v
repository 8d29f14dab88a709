(** The interface between a component and OpenMDAO.

    OpenMDAO itself is not in /repo; this file fixes how the model reads the
    calls the components make: add_input/add_output fix shapes, compute receives
    one array per input and delivers one array, compute_partials (or
    declare_partials with val=...) delivers for each input either a dense matrix
    or the values of a declared sparsity pattern. *)
From Coq Require Import Reals Lia Arith List Bool.
From Verif Require Import RSum NdArray.
Import ListNotations.
Local Open Scope R_scope.

(** A matrix in coordinate form: entry number [k] is [vals k] at row [rows k]
    and column [cols k]. *)
Record coo := Coo { nnz : nat; rows : nat -> nat; cols : nat -> nat; vals : nat -> R }.

(** Storing sparse partials: the value array must be one-dimensional with one
    entry per coordinate, or a scalar that is repeated (OpenMDAO raises
    otherwise; [None] here). *)
Definition sparse_partials (r c : nd nat) (v : nd R) : option coo :=
  if list_eq_dec Nat.eq_dec (shp r) [size (shp r)] then
    if list_eq_dec Nat.eq_dec (shp c) (shp r) then
      if list_eq_dec Nat.eq_dec (shp v) (shp r)
      then Some (Coo (size (shp r)) (dat r) (dat c) (dat v))
      else if list_eq_dec Nat.eq_dec (shp v) []
           then Some (Coo (size (shp r)) (dat r) (dat c) (fun _ => dat v 0%nat))
           else None
    else None
  else None.

(** A scalar value, such as val=1. *)
Definition scalar (c : R) : nd R := Nd [] (fun _ => c).

(** The derivative with respect to one input. *)
Inductive jac :=
| Sparse (c : coo)
| Dense (v : nd R).

(** A component after setup: input shapes, output shape, compute (None when it
    raises), and the partials with respect to input number [p]. *)
Record component := Comp {
  c_ins : list (list nat);
  c_out : list nat;
  c_compute : list (nd R) -> option (nd R);
  c_partials : list (nd R) -> nat -> option jac }.

(** The input arrays with flattened values [v 0], [v 1], ... *)
Definition inputs_of (ss : list (list nat)) (v : nat -> nat -> R) : list (nd R) :=
  map (fun p => Nd (nth p ss []) (v p)) (seq 0 (length ss)).

(** ---- NumPy: broadcasting of two shapes, from the last axis ---- *)
Fixpoint bcast_rev (s t : list nat) : option (list nat) :=
  match s, t with
  | [], _ => Some t
  | _, [] => Some s
  | a :: s', b :: t' =>
      match bcast_rev s' t' with
      | Some r =>
          if Nat.eqb a b then Some (a :: r)
          else if Nat.eqb a 1 then Some (b :: r)
          else if Nat.eqb b 1 then Some (a :: r)
          else None
      | None => None
      end
  end.

Definition bcast (s t : list nat) : option (list nat) :=
  match bcast_rev (rev s) (rev t) with
  | Some r => Some (rev r)
  | None => None
  end.

(** where the entry at [idx] of the broadcast result comes from *)
Fixpoint clip (s idx : list nat) : list nat :=
  match s, idx with
  | n :: s', i :: idx' => (if Nat.eqb n 1 then 0%nat else i) :: clip s' idx'
  | _, _ => []
  end.

Definition bcast_get (a : nd R) (idx : list nat) : R :=
  get a (clip (shp a) (skipn (length idx - length (shp a)) idx)).

(** outputs[name] = y for an output of shape [s].  OpenMDAO first lets NumPy
    broadcast the value into the output (axes of extent one in front of the
    value are dropped), then reshapes a value of the right size, and raises
    otherwise.  A value of the right size that can be broadcast keeps its order,
    and a single value fills the output, so these two cases come first. *)
Definition assign_output (s : list nat) (y : nd R) : option (nd R) :=
  if Nat.eqb (size (shp y)) (size s) then Some (np_reshape y s)
  else if Nat.eqb (size (shp y)) 1 then Some (Nd s (fun _ => dat y 0%nat))
  else match bcast (shp y) s with
       | Some r =>
           let k := (length r - length s)%nat in
           if list_eq_dec Nat.eq_dec r (repeat 1%nat k ++ s)
           then Some (of_fun s (fun idx => bcast_get y (repeat 0%nat k ++ idx)))
           else None
       | None => None
       end.
