(** Model of einsum with sparse derivatives (partial_format='sparse').

    An index array of one axis is a list of numbers; the list of such arrays that
    selects entries of a partial (one array per axis) is a list of columns, and
    the two-dimensional array np.unique works on is the list of its rows. *)
From Coq Require Import Reals Lia Arith List Bool.
From Verif Require Import RSum NdArray NdEinsum Component CompReorder CompEinsum.
Import ListNotations.
Local Open Scope nat_scope.

(** ---- NumPy -------------------------------------------------------------- *)

(** np.unravel_index(np.arange(np.prod(s)), s): one array per axis *)
Definition unravel_columns (s : shape) : list (list nat) :=
  map (fun a => map (fun k => nth a (unravel s k) 0) (seq 0 (size s))) (seq 0 (length s)).

(** np.tile(l, m) and np.repeat(l, m) on one axis *)
Definition tile_list (l : list nat) (m : nat) : list nat := concat (repeat l m).
Definition repeat_list (l : list nat) (m : nat) : list nat := flat_map (fun x => repeat x m) l.

(** the lexicographic order of rows *)
Fixpoint row_compare (a b : list nat) : comparison :=
  match a, b with
  | [], [] => Eq
  | [], _ :: _ => Lt
  | _ :: _, [] => Gt
  | x :: a', y :: b' =>
      match Nat.compare x y with Eq => row_compare a' b' | c => c end
  end.

Fixpoint row_insert (r : list nat) (l : list (list nat)) : list (list nat) :=
  match l with
  | [] => [r]
  | x :: l' =>
      match row_compare r x with
      | Eq => l
      | Lt => r :: l
      | Gt => x :: row_insert r l'
      end
  end.

(** np.unique(a, axis=0): the distinct rows in order *)
Definition unique_rows (l : list (list nat)) : list (list nat) := fold_right row_insert [] l.

(** inb as a test *)
Fixpoint inbb (s idx : list nat) : bool :=
  match s, idx with
  | [], [] => true
  | n :: s', i :: idx' => Nat.ltb i n && inbb s' idx'
  | _, _ => false
  end.

(** a[cols] for a list of index arrays, one per axis, given by its rows: the
    indexed entries.  Indexing with a list instead of a tuple is read as NumPy
    before 1.23 reads it; None when NumPy raises (or when there are fewer index
    arrays than axes, where the entries are not numbers). *)
Definition fancy_index (a : nd R) (rws : list (list nat)) : option (nd R) :=
  if forallb (inbb (shp a)) rws
  then Some (Nd [length rws] (fun k => get a (nth k rws []))) else None.

(** ---- setup -------------------------------------------------------------- *)

(** omtools/comps/einsum_comp_sparse_derivs.py L119-125: the values of
    surviving_axes_map, the places in the output of an operand's letters *)
Definition surviving (rep out : list nat) : list nat :=
  flat_map (fun axis => if mem axis out then [find_pos out axis] else []) rep.

(** L216-223: the index arrays of the output axes for one place of the operand,
    None standing for the number left by np.arange(...).tolist().  The letters of
    the output are taken to be distinct (np.einsum raises otherwise). *)
Definition out_columns (rep out : list nat) (ind : list (list nat)) : list (option (list nat)) :=
  map (fun idx => if mem idx (surviving rep out)
                  then Some (nth (find_pos rep (nth idx out 0)) ind [])
                  else None)
      (seq 0 (length out)).

(** L209-219: remainder_output_shape *)
Definition remainder_shape (rep out : list nat) (out_shape : shape) : shape :=
  flat_map (fun idx => if mem idx (surviving rep out) then [] else [nth idx out_shape 0])
           (seq 0 (length out)).

(** L246-256: [rem] are the arrays of remainder_output_ind still unused *)
Fixpoint fill_columns (cols : list (option (list nat))) (rem : list (list nat))
         (rem_size size : nat) : list (list nat) :=
  match cols with
  | [] => []
  | Some c :: cols' => tile_list c rem_size :: fill_columns cols' rem rem_size size
  | None :: cols' =>
      repeat_list (hd [] rem) size :: fill_columns cols' (tl rem) rem_size size
  end.

(** L209-256: the index arrays for one place with subscripts [rep] of an operand
    of shape [s] *)
Definition place_columns (rep out : list nat) (s out_shape : shape) : list (list nat) :=
  let ind := unravel_columns s in
  let rs := remainder_shape rep out out_shape in
  fill_columns (out_columns rep out ind ++ map Some ind) (unravel_columns rs) (size rs) (size s).

(** the rows of the array with the given columns, L263-272 *)
Definition rows_of (cols : list (list nat)) : list (list nat) :=
  map (fun r => map (fun c => nth r c 0) cols) (seq 0 (length (hd [] cols))).

(** L189-191 and L258-261: np.append, column by column, starting from zeros *)
Definition append_columns (acc cols : list (list nat)) : list (list nat) :=
  map (fun p => fst p ++ snd p) (combine acc cols).

(** One iteration of the loop of setup, L128-294, for the name number [q].  None:
    raises (np.ravel_multi_index for an index out of bounds, L280-283; the cases
    of too few letters and of subscripts that do not fit the shape are also put
    here, where the code raises here or later).  Some None: dense; Some (Some l):
    sparse with the index arrays whose rows are [l]. *)
Definition sparse_pattern (op : list nat) (names : list nat) (shapes : list shape)
           (out_shape : shape) (q : nat) : option (option (list (list nat))) :=
  let aslist := subscripts_tolist op in
  let out := last aslist [] in
  let n := nth q (distinct names) 0 in
  let s := shape_of_name names shapes n in
  let locs := locations names n in
  let first := nth (find_pos names n) aslist [] in
  if forallb (fun i => match surviving (nth i aslist []) out with [] => false | _ => true end) locs
  then
    if Nat.eqb (length first) (length s) && Nat.leb (length first) (length (unused_chars op)) then
      let zeros := repeat [0] (length out + length s) in
      let cols := fold_left (fun acc i => append_columns acc
                               (place_columns (nth i aslist []) out s out_shape)) locs zeros in
      let rws := unique_rows (rows_of cols) in
      if forallb (inbb (out_shape ++ s)) rws then Some (Some rws) else None
    else None
  else Some None.

(** L280-288: the declared rows and columns; the last len(shape) index arrays are
    the input's *)
Definition flat_rows (out_shape s : shape) (rws : list (list nat)) : nd nat :=
  Nd [length rws] (fun k => let r := nth k rws [] in
                            ravel out_shape (firstn (length r - length s) r)).
Definition flat_cols (s : shape) (rws : list (list nat)) : nd nat :=
  Nd [length rws] (fun k => let r := nth k rws [] in
                            ravel s (skipn (length r - length s) r)).

(** ---- compute_partials --------------------------------------------------- *)

(** partial += ..., L368-372, on arrays of one shape *)
Definition add_same (a b : option (nd R)) : option (nd R) :=
  match a, b with
  | Some a, Some b =>
      if list_eq_dec Nat.eq_dec (shp a) (shp b) then Some (np_map2 Rplus a b) else None
  | _, _ => None
  end.

(** L314-372: the dense partial for the name number [q]; like the dense component
    the first term uses self.I[in_name_index], the others
    self.I[len(completed_in_names) - 1].  [rank] is the number of letters, L330. *)
Definition full_partial (op : list nat) (names : list nat) (shapes : list shape)
           (ins : list (nd R)) (q : nat) : option (nd R) :=
  let n := nth q (distinct names) 0 in
  let ids := map (fun m => identity_tensor (shape_of_name names shapes m)) (distinct names) in
  let first := find_pos names n in
  let rank := length (nth first (subscripts_tolist op) []) in
  match nth_error ids first with
  | None => None
  | Some id =>
      fold_left (fun acc i => add_same acc
                   (match nth_error ids q with
                    | Some id' => deriv_einsum op names ins i rank id'
                    | None => None
                    end))
                (tl (locations names n))
                (deriv_einsum op names ins first rank id)
  end.

(** self.partial_indices_list, L289: appended to for the sparse names only *)
Definition indices_list (pats : list (option (list (list nat)))) : list (list (list nat)) :=
  flat_map (fun o => match o with Some l => [l] | None => [] end) pats.

(** L374-387: the entry of partial_indices_list number len(completed_in_names)-1
    is read, the values are stored in the pattern declared for the name. *)
Definition sparse_partial (op : list nat) (names : list nat) (shapes : list shape)
           (out_shape : shape) (pats : list (option (list (list nat)))) (ins : list (nd R))
           (q : nat) : option jac :=
  let s := shape_of_name names shapes (nth q (distinct names) 0) in
  match full_partial op names shapes ins q with
  | None => None
  | Some a =>
      match nth q pats None with
      | Some own =>
          match nth_error (indices_list pats) q with
          | None => None
          | Some rws =>
              match fancy_index a rws with
              | Some v => option_map Sparse (sparse_partials (flat_rows out_shape s own)
                                                             (flat_cols s own) v)
              | None => None
              end
          end
      | None => if Nat.eqb (size (shp a)) (size out_shape * size s) then Some (Dense a) else None
      end
  end.

(** omtools/std/einsum.py L46-54 and omtools/comps/einsum_comp_sparse_derivs.py
    L42-387.  The second declare_partials of a name replaces the first.
    compute_partials fills all blocks in one call, so it raises for every input
    when one block raises. *)
Definition einsum_sparse_comp (op : list nat) (names : list nat) (shapes : list shape)
  : option component :=
  match compute_einsum_shape (subscripts_tolist op) shapes with
  | None => None
  | Some out_shape =>
      match map_opt (sparse_pattern op names shapes out_shape) (seq 0 (length (distinct names))) with
      | None => None
      | Some pats =>
          Some (Comp (map (shape_of_name names shapes) (distinct names)) out_shape
            (fun ins =>
               match np_einsum_str op (inputs_named names ins) with
               | Some y => assign_output out_shape y
               | None => None
               end)
            (fun ins p =>
               match map_opt (sparse_partial op names shapes out_shape pats ins)
                             (seq 0 (length (distinct names))) with
               | Some l => nth_error l p
               | None => None
               end))
      end
  end.
