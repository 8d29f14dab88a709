(** Model of the components that move elements around: reshape, transpose,
    reorder_axes and expand.

    Inputs and outputs are the arrays OpenMDAO passes in and receives; names,
    units and initial values are not modelled.  [None] stands for an exception.
    Character strings are lists of character codes. *)
From Coq Require Import Reals Lia Arith List Bool Ascii.
From Coq Require String.
From Verif Require Import RSum NdArray NdEinsum Component.
Import ListNotations.
Local Open Scope nat_scope.
Local Open Scope list_scope.

(** The character codes of a string literal, for examples. *)
Fixpoint codes (s : String.string) : list nat :=
  match s with
  | String.EmptyString => []
  | String.String c s' => nat_of_ascii c :: codes s'
  end.

Definition c_space := 32.
Definition c_comma := 44.
Definition c_minus := 45.
Definition c_gt := 62.

(** Rows [a, b, ...] of a gather pattern: val = np.ones(size). *)
Definition np_ones (n : nat) : nd R := np_full1 n 1%R.

(** ---- reshape --------------------------------------------------------- *)

(** omtools/std/reshape.py L5-28: the declared shape is [new_shape] *)
Definition reshape_std (s s' : shape) : shape := s'.

(** omtools/comps/reshape_comp.py L32-50: setup; add_output at L42,
    partials at L44-50 *)
Definition reshape_out_shape (s s' : shape) : shape := s'.
Definition reshape_partials (s s' : shape) : option coo :=
  let r := np_arange (size s) in
  sparse_partials r r (np_ones (size s)).

(** omtools/comps/reshape_comp.py L52-58: compute; ndarray.reshape raises
    unless the sizes agree *)
Definition reshape_compute (s' : shape) (x : nd R) : option (nd R) :=
  if Nat.eqb (size (shp x)) (size s') then Some (np_reshape x s') else None.

(** A component with one input. *)
Definition comp1 (s s' : shape) (f : nd R -> option (nd R))
           (d : nd R -> option jac) : component :=
  Comp [s] s'
       (fun ins => match ins with [x] => f x | _ => None end)
       (fun ins p => match ins, p with [x], 0 => d x | _, _ => None end).

Definition as_sparse (c : option coo) : option jac := option_map Sparse c.

(** std.reshape on an expression of shape [s] *)
Definition reshape_comp (s s' : shape) : component :=
  comp1 s (reshape_out_shape s s') (reshape_compute s')
        (fun _ => as_sparse (reshape_partials s s')).

(** ---- transpose ------------------------------------------------------- *)

(** omtools/std/transpose.py L7-31: declared shape is the reversed shape *)
Definition transpose_std (s : shape) : shape := rev s.

(** omtools/comps/transpose_comp.py L17-48: setup.  The out_shape option is the
    declared shape; get_array reshape and transpose at L36-39 *)
Definition transpose_out_shape (s : shape) : shape := transpose_std s.
Definition transpose_partials (s : shape) : option coo :=
  let n := size s in
  let initial := np_reshape (np_arange n) s in
  sparse_partials (np_arange n) (np_flatten (np_transpose initial)) (np_ones n).

(** omtools/comps/transpose_comp.py L50-54: compute *)
Definition transpose_compute (x : nd R) : nd R := np_transpose x.

Definition transpose_comp (s : shape) : component :=
  comp1 s (transpose_out_shape s) (fun x => Some (transpose_compute x))
        (fun _ => as_sparse (transpose_partials s)).

(** ---- reorder_axes ---------------------------------------------------- *)

(** str.split('->'): the part before the first arrow and what follows it *)
Fixpoint split_arrow (l : list nat) : list nat * option (list nat) :=
  match l with
  | [] => ([], None)
  | c :: l' =>
      match l' with
      | d :: l'' =>
          if Nat.eqb c c_minus && Nat.eqb d c_gt then ([], Some l'')
          else let (a, b) := split_arrow l' in (c :: a, b)
      | [] => ([c], None)
      end
  end.

(** str.index, raising when the letter is missing *)
Definition str_index (l : list nat) (c : nat) : option nat :=
  if mem c l then Some (find_pos l c) else None.

Fixpoint map_opt {A B : Type} (f : A -> option B) (l : list A) : option (list B) :=
  match l with
  | [] => Some []
  | x :: l' =>
      match f x, map_opt f l' with
      | Some y, Some r => Some (y :: r)
      | _, _ => None
      end
  end.

(** omtools/utils/reorder_axes_utils.py L1-11: compute_new_axes_locations
    (in_shape is not used by the code either) *)
Definition new_axes (op : list nat) : option (list nat) :=
  let op := filter (fun c => negb (Nat.eqb c c_space)) op in
  match split_arrow op with
  | (ins, Some r) => map_opt (str_index ins) (fst (split_arrow r))
  | (_, None) => None
  end.

(** omtools/std/reorder_axes.py L8-41: the declared shape; in_shape[i] raises
    when [i] is out of range *)
Definition reorder_std (s : shape) (op : list nat) : option shape :=
  match new_axes op with
  | Some p => map_opt (fun i => nth_error s i) p
  | None => None
  end.

Fixpoint nodupb (l : list nat) : bool :=
  match l with
  | [] => true
  | x :: l' => negb (mem x l') && nodupb l'
  end.

(** np.transpose(a, p) raises unless [p] is a permutation of the axes *)
Definition axes_ok (r : nat) (p : list nat) : bool :=
  Nat.eqb (length p) r && forallb (fun i => Nat.ltb i r) p && nodupb p.

(** omtools/comps/reorder_axes_comp.py L20-56: setup (new_axes_locations and
    out_shape are always passed in by std.reorder_axes) *)
Definition reorder_out_shape (s : shape) (op : list nat) : option shape :=
  reorder_std s op.
Definition reorder_partials (s : shape) (op : list nat) : option coo :=
  match new_axes op with
  | Some p =>
      if axes_ok (length s) p then
        let n := size s in
        let initial := np_reshape (np_arange n) s in
        sparse_partials (np_arange n) (np_flatten (np_transpose_axes initial p))
                        (np_ones n)
      else None
  | None => None
  end.

(** omtools/comps/reorder_axes_comp.py L58-63: compute *)
Definition reorder_compute (op : list nat) (x : nd R) : option (nd R) :=
  match new_axes op with
  | Some p => if axes_ok (length (shp x)) p then Some (np_transpose_axes x p) else None
  | None => None
  end.

(** The component of std.reorder_axes; [None] when setup raises. *)
Definition reorder_comp (s : shape) (op : list nat) : option component :=
  match reorder_out_shape s op, reorder_partials s op with
  | Some s', Some c =>
      Some (comp1 s s' (reorder_compute op) (fun _ => Some (Sparse c)))
  | _, _ => None
  end.

(** ---- expand ---------------------------------------------------------- *)

(** omtools/std/expand.py L20-27: positions of the letters of the output that
    the input does not have *)
Definition expand_positions (ins outs : list nat) : list nat :=
  filter (fun i => negb (mem (nth i outs 0) ins)) (seq 0 (length outs)).

(** omtools/utils/decompose_shape_tuple.py L1-27: the letters of the alphabet
    are numbered, letter [i] is label [i]; selection and remainder, letters and
    shapes.  The alphabet has ten letters. *)
Definition select_positions (rank : nat) (sel : list nat) : list nat :=
  filter (fun i => negb (mem i sel)) (seq 0 rank).
Definition remain_positions (rank : nat) (sel : list nat) : list nat :=
  filter (fun i => mem i sel) (seq 0 rank).
Definition shape_at (s : shape) (p : list nat) : shape := map (fun i => nth i s 0) p.

Record decomposed := Decomposed {
  d_in : list nat; d_ones : list nat; d_out : list nat;
  d_in_shape : shape; d_ones_shape : shape; d_out_shape : shape }.

Definition decompose_shape_tuple (s : shape) (sel : list nat) : option decomposed :=
  let r := length s in
  if Nat.leb r 10 then
    Some (Decomposed (select_positions r sel) (remain_positions r sel) (seq 0 r)
                     (shape_at s (select_positions r sel))
                     (shape_at s (remain_positions r sel)) s)
  else None.

(** Which component std.expand builds. *)
Inductive expansion := ScalarExpansion | ArrayExpansion (d : decomposed).

(** omtools/std/expand.py L7-61: expand(expr, shape, indices) for an expression
    of shape [xs]; indices = None or a string.  Splitting into anything but two
    parts raises.  The declared shape is [s]. *)
Definition expand_std (xs s : shape) (indices : option (list nat)) : option expansion :=
  let parsed :=
    match indices with
    | None => Some None
    | Some str =>
        match split_arrow str with
        | (_, None) => None
        | (ins, Some r) =>
            match split_arrow r with
            | (outs, None) => Some (Some (expand_positions ins outs))
            | (_, Some _) => None
            end
        end
    end in
  match parsed with
  | None => None
  | Some e =>
      if list_eq_dec Nat.eq_dec xs [1] then Some ScalarExpansion
      else
        match e with
        | None => None
        | Some sel =>
            match decompose_shape_tuple s sel with
            | None => None
            | Some d =>
                if list_eq_dec Nat.eq_dec (d_in_shape d) xs
                then Some (ArrayExpansion d) else None
            end
        end
  end.

(** omtools/utils/get_array_indices.py L4-5 *)
Definition get_array_indices (s : shape) : nd nat := np_reshape (np_arange (size s)) s.

Definition expansion_out_shape (s : shape) (e : expansion) : shape :=
  match e with
  | ScalarExpansion => s
  | ArrayExpansion d => d_out_shape d
  end.

(** omtools/comps/array_expansion_comp.py L17-46 and scalar_expansion_comp.py
    L14-24: setup *)
Definition expansion_partials (s : shape) (e : expansion) : option coo :=
  match e with
  | ScalarExpansion =>
      sparse_partials (np_arange (size s)) (np_full1 (size s) 0) (scalar 1%R)
  | ArrayExpansion d =>
      sparse_partials
        (np_flatten (get_array_indices (d_out_shape d)))
        (np_flatten (n_einsum [(d_in d, get_array_indices (d_in_shape d));
                               (d_ones d, Nd (d_ones_shape d) (fun _ => 1))] (d_out d)))
        (scalar 1%R)
  end.

(** omtools/comps/array_expansion_comp.py L48-53 and scalar_expansion_comp.py
    L26-30: compute; assigning a value of shape (1,) fills the output *)
Definition expansion_compute (s : shape) (e : expansion) (x : nd R) : nd R :=
  match e with
  | ScalarExpansion => Nd s (fun _ => dat x 0)
  | ArrayExpansion d =>
      r_einsum [(d_in d, x); (d_ones d, Nd (d_ones_shape d) (fun _ => 1%R))] (d_out d)
  end.

(** The component of std.expand; [None] when the call raises.  An input of
    ScalarExpansionComp is declared by add_input(name) and so has shape (1,). *)
Definition expand_comp (xs s : shape) (indices : option (list nat)) : option component :=
  match expand_std xs s indices with
  | Some e =>
      Some (comp1 xs (expansion_out_shape s e)
                  (fun x => Some (expansion_compute s e x))
                  (fun _ => as_sparse (expansion_partials s e)))
  | None => None
  end.
