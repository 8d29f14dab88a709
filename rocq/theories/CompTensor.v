(** omtools/std/inner.py L9-52 with omtools/comps/tensor_inner_product_comp.py
    L18-88; the two operands have distinct names, as in CompProduct.v. *)
From Coq Require Import Reals Lia Arith List Bool ZArith.
From Verif Require Import RSum NdArray NdEinsum Component CompReorder CompReduce CompProduct CompEinsum.
Import ListNotations.
Local Open Scope nat_scope.

(** the positions of [0 .. r) other than [axes], in order *)
Definition free_axes (r : nat) (axes : list nat) : list nat := delete axes (seq 0 r).

(** the index of rank [r] with the numbers [ks] on [axes] and [rest] on the other
    axes in order *)
Definition merge (r : nat) (axes ks rest : list nat) : list nat :=
  map (fun p => if mem p axes then nth (find_pos axes p) ks 0
                else nth (find_pos (free_axes r axes) p) rest 0) (seq 0 r).

Definition extents (s : shape) (axes : list nat) : list nat := map (fun a => nth a s 0) axes.

(** NumPy: np.tensordot(a, b, axes=(za, zb)).  Negative axes count from the end
    of the array they are applied to; axes of different extents, different
    numbers of axes and repeated axes raise. *)
Definition tensordot_core (a b : nd R) (ax bx : list nat) : nd R :=
  let ra := length (shp a) in
  let rb := length (shp b) in
  let cd := extents (shp a) ax in
  of_fun (delete ax (shp a) ++ delete bx (shp b))
    (fun idx => rsum (size cd) (fun k =>
       get a (merge ra ax (unravel cd k) (firstn (length (delete ax (shp a))) idx)) *
       get b (merge rb bx (unravel cd k) (skipn (length (delete ax (shp a))) idx)))%R).

Definition np_tensordot (a b : nd R) (za zb : list Z) : option (nd R) :=
  match norm_axes (length (shp a)) za, norm_axes (length (shp b)) zb with
  | Some ax, Some bx =>
      if nodupb ax && nodupb bx &&
         (if list_eq_dec Nat.eq_dec (extents (shp a) ax) (extents (shp b) bx) then true else false)
      then Some (tensordot_core a b ax bx) else None
  | _, _ => None
  end.

(** np.transpose(x, p); raises unless [p] is a permutation of the axes *)
Definition transpose_by (x : nd R) (p : list nat) : option (nd R) :=
  if axes_ok (length (shp x)) p then Some (np_transpose_axes x p) else None.

(** new_axes_locations, tensor_inner_product_comp.py L51-60 *)
Definition new_axes_locations (rem0 r0 r1 : nat) : list nat :=
  seq 0 rem0 ++ seq (rem0 + r0) (rem0 + rem0 + r1 - (rem0 + r0)) ++ seq rem0 r0.

(** tensor_inner_product_comp.py L18-88, np.delete applied to the axes as given *)
Definition tensor_inner_comp (s0 s1 : shape) (z0 z1 : list Z) : option component :=
  match norm_axes (length s0) z0, norm_axes (length s1) z1 with
  | Some a0, Some a1 =>
      let out := delete a0 s0 ++ delete a1 s1 in
      let rem0 := length (delete a0 s0) in
      Some (comp2 s0 s1 out
        (fun a b => match np_tensordot a b z0 z1 with
                    | Some y => assign_output out y
                    | None => None
                    end)
        (fun a b => match np_tensordot (identity_tensor s0) b z0 z1 with
                    | Some t => option_map Dense
                        (transpose_by t (new_axes_locations rem0 (length s0) (length s1)))
                    | None => None
                    end)
        (fun a b => option_map Dense (np_tensordot a (identity_tensor s1) z0 z1)))
  | _, _ => None
  end.

(** std/inner.py L9-52: the recorded shape and the component; [None]: raises.
    For two vectors the axes are ignored. *)
Definition inner (s0 s1 : shape) (axes : option (list Z * list Z)) : option (shape * component) :=
  match s0, s1 with
  | [n0], [n1] => Some ([1], vector_inner_comp n0)
  | _, _ =>
      match axes with
      | None => None
      | Some (z0, z1) => option_map (fun c => (c_out c, c)) (tensor_inner_comp s0 s1 z0 z1)
      end
  end.
