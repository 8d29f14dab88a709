(** Model of omtools/utils/structure_data.py. *)
From Coq Require Import Reals Arith List Bool.
From Verif Require Import RSum NdArray.
Import ListNotations.
Local Open Scope R_scope.

(** np.array(np.meshgrid( *inputs, indexing='ij')) (L18-21) for one-dimensional
    inputs: the first axis selects the input, the others the grid point. *)
Definition meshgrid (inputs : list (list R)) : nd R :=
  of_fun (length inputs :: map (@length R) inputs)
    (fun idx => match idx with
                | k :: point => nth (nth k point 0%nat) (nth k inputs []) 0
                | [] => 0
                end).

(** a.reshape(n, m): ValueError unless the sizes agree *)
Definition reshaped (a : nd R) (s : list nat) : option (nd R) :=
  if Nat.eqb (size (shp a)) (size s) then Some (np_reshape a s) else None.

(** np.min and np.max: ValueError for an empty array *)
Definition reduced (op : R -> R -> R) (a : nd R) : option R :=
  match map (dat a) (seq 0 (size (shp a))) with
  | [] => None
  | x :: l => Some (fold_left op l x)
  end.

(** L4-31: the rows and the limits.  [out] is the shape of the array of outputs;
    int(np.prod(output.shape) / ny) raises for ny = 0. *)
Definition structure_data (inputs : list (list R)) (out : list nat) (ny : nat)
  : option (nd R * nd R) :=
  if Nat.eqb ny 0 then None
  else match reshaped (meshgrid inputs) [(size out / ny)%nat; length inputs] with
       | None => None
       | Some xt =>
         match reduced Rmin xt, reduced Rmax xt with
         | Some lo, Some hi =>
           Some (xt, of_fun [length inputs; 2%nat]
                       (fun idx => match idx with
                                   | [_; 0%nat] => lo
                                   | _ => hi
                                   end))
         | _, _ => None
         end
       end.
