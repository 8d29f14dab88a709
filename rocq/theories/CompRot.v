(** Model of rotmat. *)
From Coq Require Import Reals Lia Arith List Bool.
From Verif Require Import RSum NdArray Component CompReorder.
Import ListNotations.
Local Open Scope nat_scope.

(** Positions of the entries of a rotation matrix: omtools/comps/
    rotation_matrix_comp.py L39-56 (attributes i_cos1, j_cos1, ...) *)
Record rot_table := Rot { cos1 : nat * nat; cos2 : nat * nat;
                          sin1 : nat * nat; sin2 : nat * nat; one1 : nat * nat }.

(** the axis names 'x', 'y', 'z' as character codes; for any other string the
    attributes stay undefined *)
Definition rot_positions (axis : nat) : option rot_table :=
  match axis with
  | 120 => Some (Rot (1, 1) (2, 2) (1, 2) (2, 1) (0, 0))
  | 121 => Some (Rot (0, 0) (2, 2) (2, 0) (0, 2) (1, 1))
  | 122 => Some (Rot (0, 0) (1, 1) (0, 1) (1, 0) (2, 2))
  | _ => None
  end.

(** m[i, j] = v *)
Definition set_entry (m : nat -> nat -> R) (ij : nat * nat) (v : R) : nat -> nat -> R :=
  fun i j => if Nat.eqb i (fst ij) && Nat.eqb j (snd ij) then v else m i j.

(** omtools/comps/rotation_matrix_comp.py L65-70, for one angle [a]: the last
    assignment is to [i_one, i_one] *)
Definition rot_matrix (t : rot_table) (a : R) : nat -> nat -> R :=
  set_entry (set_entry (set_entry (set_entry (set_entry (fun _ _ => 0%R)
    (cos1 t) (cos a)) (cos2 t) (cos a)) (sin1 t) (- sin a)%R) (sin2 t) (sin a))
    (fst (one1 t), fst (one1 t)) 1%R.

(** omtools/comps/rotation_matrix_comp.py L82-86, for one angle *)
Definition rot_deriv (t : rot_table) (a : R) : nat -> nat -> R :=
  set_entry (set_entry (set_entry (set_entry (fun _ _ => 0%R)
    (cos1 t) (- sin a)%R) (cos2 t) (- sin a)%R) (sin1 t) (- cos a)%R) (sin2 t) (cos a).

(** out[..., i, j] for an array of shape s + (3, 3), flattened *)
Definition per_angle (m : R -> nat -> nat -> R) (s : shape) (x : nd R) : nd R :=
  of_fun (s ++ [3; 3])
    (fun idx => let r := length s in
       m (get x (firstn r idx)) (nth r idx 0) (nth (r + 1) idx 0)).

(** omtools/std/rotmat.py L24-28 and rotation_matrix_comp.py L21-25 *)
Definition rot_out_shape (s : shape) : shape :=
  if list_eq_dec Nat.eq_dec s [1] then [3; 3] else s ++ [3; 3].

(** cols: np.einsum('...,ij->...ij', np.arange(n), np.ones((3, 3), int)).flatten()
    (L35-36): every number nine times *)
Definition rot_cols (n : nat) : nd nat :=
  np_flatten (of_fun [n; 3; 3] (fun idx => nth 0 idx 0)).

(** omtools/comps/rotation_matrix_comp.py L18-86.  The derivative array is
    written in place as an array of shape s + (3, 3), of which the stored values
    are the flattened view. *)
Definition rot_comp (s : shape) (axis : nat) : component :=
  let out := rot_out_shape s in
  comp1 s out
    (fun x => match rot_positions axis with
              | Some t => assign_output out (per_angle (rot_matrix t) s x)
              | None => None
              end)
    (fun x => match rot_positions axis with
              | Some t => as_sparse (sparse_partials (np_arange (size out)) (rot_cols (size s))
                                       (np_flatten (per_angle (rot_deriv t) s x)))
              | None => None
              end).
