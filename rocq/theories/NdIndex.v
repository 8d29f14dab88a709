(** Python's range and slices, and NumPy's basic indexing with slices.  Like
    NdArray.v this models what /repo depends on and is part of the trusted base. *)
From Coq Require Import Reals Lia Arith List Bool ZArith.
From Verif Require Import RSum NdArray.
Import ListNotations.
Local Open Scope Z_scope.

(** len(range(a, b, st)) for st <> 0 *)
Definition range_len (a b st : Z) : nat :=
  Z.to_nat (if 0 <? st then (b - a + st - 1) / st else (a - b - st - 1) / (- st)).

(** list(range(a, b, st)); a step of zero raises *)
Definition py_range (a b st : Z) : option (list Z) :=
  if st =? 0 then None else Some (map (fun k => a + Z.of_nat k * st) (seq 0 (range_len a b st))).

(** slice(start, stop, step); None where nothing is given *)
Record slice := Slice { sl_start : option Z; sl_stop : option Z; sl_step : option Z }.

Definition sl_all : slice := Slice None None None.

Definition or_else (o : option Z) (d : Z) : Z := match o with Some z => z | None => d end.

(** slice.indices(n), CPython's PySlice_AdjustIndices *)
Definition sl_clip (n st : Z) (o : option Z) (default : Z) : Z :=
  let lower := if st <? 0 then -1 else 0 in
  let upper := if st <? 0 then n - 1 else n in
  match o with
  | None => default
  | Some z => if z <? 0 then Z.max (z + n) lower else Z.min z upper
  end.

(** The positions a slice selects on an axis of extent [n]. *)
Definition sl_positions (n : nat) (s : slice) : option (list nat) :=
  let n := Z.of_nat n in
  let st := or_else (sl_step s) 1 in
  let lower := if st <? 0 then -1 else 0 in
  let upper := if st <? 0 then n - 1 else n in
  let a := sl_clip n st (sl_start s) (if st <? 0 then upper else lower) in
  let b := sl_clip n st (sl_stop s) (if st <? 0 then lower else upper) in
  option_map (map Z.to_nat) (py_range a b st).

(** the positions on each axis; axes without a slice are taken whole, more
    slices than axes raise *)
Fixpoint index_positions (s : list nat) (l : list slice) : option (list (list nat)) :=
  match s, l with
  | [], [] => Some []
  | [], _ :: _ => None
  | n :: s', sl :: l' =>
      match sl_positions n sl, index_positions s' l' with
      | Some p, Some r => Some (p :: r)
      | _, _ => None
      end
  | n :: s', [] =>
      match sl_positions n sl_all, index_positions s' [] with
      | Some p, Some r => Some (p :: r)
      | _, _ => None
      end
  end.

(** the index with entry [idx_j] of the [j]-th list of positions *)
Fixpoint pick (ls : list (list nat)) (idx : list nat) : list nat :=
  match ls, idx with
  | p :: ls', i :: idx' => nth i p 0%nat :: pick ls' idx'
  | _, _ => []
  end.

(** x[l0, l1, ...] with slices *)
Definition np_index {A : Type} (x : nd A) (l : list slice) : option (nd A) :=
  match index_positions (shp x) l with
  | Some ps => Some (of_fun (map (@length nat) ps) (fun idx => get x (pick ps idx)))
  | None => None
  end.

(** np.ravel_multi_index(np.meshgrid( *ls, indexing='ij'), s): raises unless
    there is one list for each axis and every index is in range; no axis at all
    is taken to raise as well *)
Fixpoint in_range (s : list nat) (ls : list (list nat)) : bool :=
  match s, ls with
  | [], [] => true
  | n :: s', p :: ls' => forallb (fun i => Nat.ltb i n) p && in_range s' ls'
  | _, _ => false
  end.

Definition mesh_ravel (s : list nat) (ls : list (list nat)) : option (nd nat) :=
  if negb (Nat.eqb (length s) 0) && in_range s ls then Some (of_fun (map (@length nat) ls) (fun idx => ravel s (pick ls idx)))
  else None.
