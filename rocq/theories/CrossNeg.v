(** Model of std.cross for an axis counted from the end: the axis -k, k > 0.

    Simplification: the two operands have distinct names, as in CompProduct.v. *)
From Coq Require Import Reals Arith List Bool.
From Verif Require Import RSum NdArray NdEinsum Component CompReorder CompProduct MatStack.
Import ListNotations.
Local Open Scope nat_scope.

(** omtools/comps/cross_product_comp.py L7: ten letters, letter [i] is label [i] *)
Definition ten_letters : list nat := seq 0 10.

(** l[:-k], and l[-k:] for k > 0 *)
Definition before_end {A : Type} (k : nat) (l : list A) : list A := firstn (length l - k) l.
Definition from_end {A : Type} (k : nat) (l : list A) : list A := skipn (length l - k) l.

(** cross_product_comp.py L35: shape[:axis] + shape[axis + 1:]; for the axis -1
    the second slice is shape[0:] *)
Definition shape_without (s : shape) (k : nat) : shape :=
  before_end k s ++ match k with 1 => s | _ => from_end (k - 1) s end.

(** L41-53: alphabet[:axis] and alphabet[axis:rank] *)
Definition letters_before (k : nat) : list nat := before_end k ten_letters.
Definition letters_after (k rank : nat) : list nat := skipn (length ten_letters - k) (firstn rank ten_letters).

(** L55-79: rows and cols, y is 100 and z is 101; np.einsum raises unless the
    operand has one axis for each subscript *)
Definition neg_pattern (s : shape) (k : nat) (yz : list nat) : option (nd nat) :=
  let rank := length (shape_without s k) in
  let subs := letters_before k ++ [100] ++ letters_after k rank in
  if Nat.eqb (length subs) (length s) then
    Some (np_flatten (n_einsum [(subs, get_array_indices s); ([101], np_full1 3 1)]
                               (letters_before k ++ letters_after k rank ++ yz)))
  else None.

(** omtools/std/cross.py L24-46 with cross_product_comp.py L20-160.  NumPy's
    np.cross takes axes from the end.  For the axis -1, shape_without_axis has the
    entries of the shape squared over three, and storing the partials raises. *)
Definition cross_from_end (s0 s1 : shape) (k : nat) : called :=
  if list_eq_dec Nat.eq_dec s0 s1 then
    if Nat.leb k (length s0) then
      let axis := length s0 - k in
      match nth_error s0 axis with
      | Some 3 =>
          match neg_pattern s0 k [100; 101], neg_pattern s0 k [101; 100] with
          | Some r, Some c =>
              let stored v := match k with 1 => None | _ => as_sparse (sparse_partials r c v) end in
              Ready s0 (comp2 s0 s1 s0
                (fun a b => Some (np_cross (delete [axis] s0) a axis b axis axis))
                (fun _ b => stored (cross_vals1 s0 axis b))
                (fun a _ => stored (cross_vals2 s0 axis a)))
          | _, _ => SetupRaises s0
          end
      | _ => CallRaises
      end
    else CallRaises
  else CallRaises.
