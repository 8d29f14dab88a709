(** Model of x[key]: omtools/core/variable.py L15-20 and L142-212,
    omtools/utils/slice_to_list.py L5-30 and omtools/comps/decompose_comp.py
    L13-46.

    Simplifications: a value is represented by its shape (only the shape of val
    matters); True and False as indices, and arrays and lists in a key, are not
    represented; an expression is a number, given out in order. *)
From Coq Require Import Reals Lia Arith List Bool ZArith.
From Verif Require Import RSum NdArray NdIndex Component CompReorder.
Import ListNotations.
Local Open Scope Z_scope.

(** One entry of a key: an integer, a slice, None, Ellipsis, or something NumPy
    rejects too. *)
Inductive key1 := KInt (z : Z) | KSlice (s : slice) | KNone | KDots | KOther.
Inductive key := KOne (k : key1) | KTuple (l : list key1).

(** The normalised form of a key: (start, stop, step). *)
Definition bounds := (Z * Z * option Z)%type.

(** core/variable.py slice_to_tuple L15-20 *)
Definition slice_to_tuple (s : slice) (size : Z) : bounds :=
  (or_else (sl_start s) 0, or_else (sl_stop s) size, sl_step s).

(** core/variable.py L159-176, entry number [i] of a tuple; self.shape[i] raises
    for a slice past the last axis; entries of other kinds are skipped *)
Fixpoint norm_entries (s : list nat) (i : nat) (l : list key1) : option (list bounds) :=
  match l with
  | [] => Some []
  | k :: l' =>
      match norm_entries s (S i) l' with
      | None => None
      | Some r =>
          match k with
          | KSlice sl => match nth_error s i with
                         | Some n => Some (slice_to_tuple sl (Z.of_nat n) :: r)
                         | None => None
                         end
          | KInt z => Some ((z, z + 1, None) :: r)
          | _ => Some r
          end
      end
  end.

(** core/variable.py L155-181; [None]: raises *)
Definition norm_key (s : list nat) (k : key) : option (list bounds) :=
  match k with
  | KOne (KInt z) => Some [(z, z + 1, None)]
  | KOne (KSlice sl) => Some [slice_to_tuple sl (Z.of_nat (size s))]
  | KOne _ => None
  | KTuple l => norm_entries s 0 l
  end.

(** utils/slice_to_list.py L5-30.  [size = None] is the default; comparing the
    minimum of an empty list raises, and so does None + stop. *)
Definition slice_to_list (start stop step : option Z) (size : option Z) : option (list nat) :=
  let stop' :=
    match start, stop with
    | None, None => option_map Some size
    | _, Some b =>
        if b <? 0 then
          match size with
          | Some n => if n + b <? 0 then None else Some (Some (n + b))
          | None => None
          end
        else Some (Some b)
    | _, None => Some None
    end in
  match stop' with
  | None => None
  | Some stop' =>
      match (match stop' with Some b => Some b | None => size end) with
      | None => None
      | Some b =>
          match py_range (or_else start 0) b (or_else step 1) with
          | None => None
          | Some [] => None
          | Some l => if forallb (fun z => 0 <=? z) l then Some (map Z.to_nat l) else None
          end
      end
  end.

(** core/variable.py L188-192 *)
Definition key_positions (k : list bounds) : option (list (list nat)) :=
  map_opt (fun b => match b with (a, e, st) => slice_to_list (Some a) (Some e) st None end) k.

Definition src_indices (s : list nat) (k : list bounds) : option (nd nat) :=
  match key_positions k with
  | Some ls => option_map np_flatten (mesh_ravel s ls)
  | None => None
  end.

(** core/variable.py L199: the shape of val[slices] for val of shape [vs] *)
Definition index_shape (vs : list nat) (k : list bounds) : option (list nat) :=
  option_map (map (@length nat))
    (index_positions vs (map (fun b => match b with (a, e, st) => Slice (Some a) (Some e) st end) k)).

(** self.val[key], L148, does not raise.  [axes]: the axes not yet indexed. *)
Fixpoint entries_ok (axes : list nat) (dots : bool) (l : list key1) : bool :=
  match l with
  | [] => true
  | KNone :: l' => entries_ok axes dots l'
  | KOther :: _ => false
  | KDots :: l' =>
      let n := length (filter (fun k => match k with KInt _ | KSlice _ => true | _ => false end) l') in
      negb dots && Nat.leb n (length axes) && entries_ok (skipn (length axes - n) axes) true l'
  | KInt z :: l' =>
      match axes with
      | [] => false
      | n :: axes' => (- Z.of_nat n <=? z) && (z <? Z.of_nat n) && entries_ok axes' dots l'
      end
  | KSlice s :: l' =>
      match axes with
      | [] => false
      | _ :: axes' => negb (or_else (sl_step s) 1 =? 0) && entries_ok axes' dots l'
      end
  end.

Definition val_key_ok (vs : list nat) (k : key) : bool :=
  match k with
  | KOne k => entries_ok vs false [k]
  | KTuple l => entries_ok vs false l
  end.

(** What x remembers: an entry for each expression handed out. *)
Record piece := Piece { pc_key : list bounds; pc_id : nat; pc_shape : list nat; pc_src : nd nat }.

Record array_var := ArrayVar {
  av_shape : list nat;           (* self.shape *)
  av_val : list nat;             (* self.val.shape *)
  av_called : bool;              (* self._getitem_called *)
  av_decomp : option (list piece); (* self._decomp, its indexed_exprs and src_indices *)
  av_next : nat                  (* number of the next new expression *)
}.

(** a variable nobody has indexed *)
Definition fresh_var (s vs : list nat) : array_var := ArrayVar s vs false None 0.

Definition same_bounds (b c : bounds) : bool :=
  match b, c with
  | (a, e, st), (a', e', st') =>
      (a =? a') && (e =? e') &&
      match st, st' with
      | None, None => true
      | Some x, Some y => x =? y
      | _, _ => false
      end
  end.

Fixpoint same_key (k l : list bounds) : bool :=
  match k, l with
  | [], [] => true
  | b :: k', c :: l' => same_bounds b c && same_key k' l'
  | _, _ => false
  end.

Definition find_piece (ps : list piece) (k : list bounds) : option piece :=
  find (fun p => same_key (pc_key p) k) ps.

(** core/variable.py __getitem__ L142-212: the state afterwards and the
    expression returned, or [None] for an exception.  self.shape is compared in
    L195 again, which np.ravel_multi_index has done. *)
Definition getitem (x : array_var) (k : key) : array_var * option nat :=
  let x1 :=
    if av_called x then x
    else ArrayVar (av_shape x) (av_val x) true
                  (if val_key_ok (av_val x) k then Some [] else None) (av_next x) in
  if negb (av_called x) && negb (val_key_ok (av_val x) k) then (x1, None)
  else
    match norm_key (av_shape x) k with
    | None => (x1, None)
    | Some nk =>
        match av_decomp x1 with
        | None => (x1, None)
        | Some ps =>
            match find_piece ps nk with
            | Some p => (x1, Some (pc_id p))
            | None =>
                match src_indices (av_shape x) nk, index_shape (av_val x) nk with
                | Some src, Some sh =>
                    (ArrayVar (av_shape x) (av_val x) true
                       (Some (ps ++ [Piece nk (av_next x) sh src])) (S (av_next x)),
                     Some (av_next x))
                | _, _ => (x1, None)
                end
            end
        end
    end.

(** one request after the other, exceptions being caught *)
Fixpoint getitems (x : array_var) (ks : list key) : array_var * list (option nat) :=
  match ks with
  | [] => (x, [])
  | k :: ks' => let (x1, r) := getitem x k in
                let (x2, rs) := getitems x1 ks' in (x2, r :: rs)
  end.

(** the piece with a given expression *)
Definition piece_of (x : array_var) (e : nat) : option piece :=
  match av_decomp x with
  | Some ps => find (fun p => Nat.eqb (pc_id p) e) ps
  | None => None
  end.

(** comps/decompose_comp.py L13-46: the part that makes one output (outputs do
    not influence each other).  Rows past the last output entry raise in setup. *)
Definition decompose_comp (s : list nat) (p : piece) : option component :=
  let n := size (shp (pc_src p)) in
  if Nat.leb n (size (pc_shape p)) then
    Some (comp1 s (pc_shape p)
            (fun x => assign_output (pc_shape p) (Nd [n] (fun k => dat x (dat (pc_src p) k))))
            (fun _ => as_sparse (sparse_partials (np_arange n) (pc_src p) (scalar 1%R))))
  else None.
