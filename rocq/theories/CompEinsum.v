(** Model of einsum with dense derivatives, and of the translation of the tuple
    form.  Strings are lists of character codes; an operand is named by a
    number, and the same number means the same expression. *)
From Coq Require Import Reals Lia Arith List Bool.
From Verif Require Import RSum NdArray NdEinsum Component CompReorder.
Import ListNotations.
Local Open Scope nat_scope.

(** str.isalpha, for ASCII *)
Definition isalpha (c : nat) : bool :=
  (Nat.leb 65 c && Nat.leb c 90) || (Nat.leb 97 c && Nat.leb c 122).

(** 'abcdefghijklmnopqrstuvwxyz' *)
Definition alphabet : list nat := seq 97 26.

(** ---- strings: the code of /repo -------------------------------------- *)

(** omtools/utils/einsum_utils.py L26-44 (and the same loop in
    einsum_comp_dense_derivs.py L62-80); [acc] is tensor_rep.  subscripts[-1]
    raises for the empty string, where np.einsum raises anyway. *)
Fixpoint tolist (acc : list nat) (str : list nat) : list (list nat) :=
  match str with
  | [] => [acc]
  | c :: r =>
      if isalpha c then tolist (acc ++ [c]) r
      else if Nat.eqb c c_comma || Nat.eqb c c_minus then acc :: tolist [] r
      else tolist acc r
  end.
Definition subscripts_tolist (str : list nat) : list (list nat) := tolist [] str.

(** omtools/utils/einsum_utils.py L14-19, the inner loop: the extent of [c] read
    off the first subscripts that have it.  None: in_shapes[i][shape_ind] raises;
    Some None: no subscripts have it. *)
Fixpoint shape_of_char (reps : list (list nat)) (shapes : list shape) (c : nat)
  : option (option nat) :=
  match reps with
  | [] => Some None
  | rep :: reps' =>
      if mem c rep then
        match shapes with
        | s :: _ => option_map Some (nth_error s (find_pos rep c))
        | [] => None
        end
      else shape_of_char reps' (tl shapes) c
  end.

(** omtools/utils/einsum_utils.py L4-23; the list ends with the output *)
Definition compute_einsum_shape (aslist : list (list nat)) (shapes : list shape) : option shape :=
  let out := last aslist [] in
  match out with
  | [] => Some [1]
  | _ =>
      option_map (flat_map (fun o => match o with Some d => [d] | None => [] end))
                 (map_opt (shape_of_char (removelast aslist) shapes) out)
  end.

(** omtools/comps/einsum_comp_dense_derivs.py L55-60 *)
Definition unused_chars (op : list nat) : list nat :=
  filter (fun c => negb (mem c op)) alphabet.

(** omtools/comps/einsum_comp_dense_derivs.py L173-179: the string made from a
    list of subscripts; new_operation[:-1] drops the last comma *)
Definition to_string (aslist : list (list nat)) : list nat :=
  removelast (flat_map (fun r => r ++ [c_comma]) (removelast aslist))
  ++ [c_minus; c_gt] ++ last aslist [].

(** ---- np.einsum on a string -------------------------------------------- *)

(** The parts of a string between commas. *)
Fixpoint split_commas (acc : list nat) (str : list nat) : list (list nat) :=
  match str with
  | [] => [acc]
  | c :: r => if Nat.eqb c c_comma then acc :: split_commas [] r
              else split_commas (acc ++ [c]) r
  end.

(** NumPy's reading of a subscript string in explicit form; blanks are ignored.
    The implicit form and the ellipsis are not modelled. *)
Definition np_subscripts (str : list nat) : option (list (list nat) * list nat) :=
  let str := filter (fun c => negb (Nat.eqb c c_space)) str in
  match split_arrow str with
  | (ins, Some out) =>
      let reps := split_commas [] ins in
      if forallb (forallb isalpha) reps && forallb isalpha out
      then Some (reps, out) else None
  | (_, None) => None
  end.

(** einsum_ok as a test *)
Definition einsum_okb (ops : list (list nat * nd R)) (out : list nat) : bool :=
  forallb (fun op => Nat.eqb (length (fst op)) (length (shp (snd op)))) ops &&
  forallb (fun op => forallb (fun j => Nat.eqb (nth j (shp (snd op)) 0)
                                               (dim_of ops (nth j (fst op) 0)))
                             (seq 0 (length (fst op)))) ops &&
  nodupb out && forallb (fun l => mem l (in_labels ops)) out.

(** np.einsum(str, *arrays); None when it raises (or when it would broadcast an
    axis of extent one, which is not modelled) *)
Definition np_einsum_str (str : list nat) (arrays : list (nd R)) : option (nd R) :=
  match np_subscripts str with
  | Some (reps, out) =>
      let ops := combine reps arrays in
      if Nat.eqb (length reps) (length arrays) && einsum_okb ops out
      then Some (r_einsum ops out) else None
  | None => None
  end.

(** ---- the component ---------------------------------------------------- *)

(** the distinct names in order of first appearance (completed_in_names) *)
Definition distinct (names : list nat) : list nat := dedup names.

(** in_shapes[in_name_index] at the first appearance of a name *)
Definition shape_of_name (names : list nat) (shapes : list shape) (n : nat) : shape :=
  nth (find_pos names n) shapes [].

(** L109-126: the identity tensor of shape 2 * shape *)
Definition identity_tensor (s : shape) : nd R :=
  of_fun (s ++ s)
    (fun idx => if list_eq_dec Nat.eq_dec (firstn (length s) idx) (skipn (length s) idx)
                then 1%R else 0%R).

(** inputs[in_name] for in_name in in_names; [ins] are the arrays of the distinct
    names *)
Definition inputs_named (names : list nat) (ins : list (nd R)) : list (nd R) :=
  map (fun n => nth (find_pos (distinct names) n) ins (Nd [] (fun _ => 0%R))) names.

Fixpoint replace_nth {A : Type} (i : nat) (x : A) (l : list A) : list A :=
  match l, i with
  | [], _ => []
  | _ :: l', 0 => x :: l'
  | y :: l', S i' => y :: replace_nth i' x l'
  end.

(** L164-185 and L188-206: the einsum with operand [i] replaced by [id], both
    its subscripts and the output's extended by fresh letters *)
Definition deriv_einsum (op : list nat) (names : list nat) (ins : list (nd R))
           (i rank : nat) (id : nd R) : option (nd R) :=
  let aslist := subscripts_tolist op in
  let fresh := firstn rank (unused_chars op) in
  let aslist' := replace_nth i (nth i aslist [] ++ fresh) (removelast aslist)
                 ++ [last aslist [] ++ fresh] in
  np_einsum_str (to_string aslist') (replace_nth i id (inputs_named names ins)).

(** L187 with L158-162: the positions of a name *)
Definition locations (names : list nat) (n : nat) : list nat :=
  filter (fun i => Nat.eqb (nth i names 0) n) (seq 0 (length names)).

(** partials[...] += ....reshape(partials[...].shape), which raises for another
    size *)
Definition add_partial (a b : option (nd R)) : option (nd R) :=
  match a, b with
  | Some a, Some b =>
      if Nat.eqb (size (shp a)) (size (shp b))
      then Some (np_map2 Rplus a (np_reshape b (shp a))) else None
  | _, _ => None
  end.

(** One iteration of the loop of compute_partials, L147-206, for the name number
    [q]: the first term uses self.I[in_name_index], the other terms
    self.I[len(completed_in_names) - 1].  Storing a matrix of the wrong size
    raises. *)
Definition einsum_partial (op : list nat) (names : list nat) (shapes : list shape)
           (out_shape : shape) (ins : list (nd R)) (q : nat) : option (nd R) :=
  let n := nth q (distinct names) 0 in
  let s := shape_of_name names shapes n in
  let ids := map (fun m => identity_tensor (shape_of_name names shapes m)) (distinct names) in
  let first := find_pos names n in
  match nth_error ids first with
  | None => None
  | Some id =>
      match deriv_einsum op names ins first (length s) id with
      | Some a =>
          if Nat.eqb (size (shp a)) (size out_shape * size s) then
            fold_left (fun acc i => add_partial acc
                         (match nth_error ids q with
                          | Some id' => deriv_einsum op names ins i (length s) id'
                          | None => None
                          end))
                      (tl (locations names n)) (Some a)
          else None
      | None => None
      end
  end.

(** omtools/std/einsum.py L8-54 and omtools/comps/einsum_comp_dense_derivs.py
    L42-206.  compute_partials fills all blocks in one call, so it raises for
    every input when one block raises. *)
Definition einsum_comp (op : list nat) (names : list nat) (shapes : list shape)
  : option component :=
  match compute_einsum_shape (subscripts_tolist op) shapes with
  | None => None
  | Some out_shape =>
      Some (Comp (map (shape_of_name names shapes) (distinct names)) out_shape
        (fun ins =>
           match np_einsum_str op (inputs_named names ins) with
           | Some y => assign_output out_shape y
           | None => None
           end)
        (fun ins p =>
           match map_opt (einsum_partial op names shapes out_shape ins)
                         (seq 0 (length (distinct names))) with
           | Some l => option_map Dense (nth_error l p)
           | None => None
           end))
  end.

(** ---- the tuple form ---------------------------------------------------- *)

(** The dictionary axis_map as the list of the axis names in order of insertion:
    a name's letter is the alphabet at its position.  unused_chars[0] raises when
    the alphabet is used up. *)
Definition letter_of (axes : list nat) (a : nat) : option nat :=
  if mem a axes then nth_error alphabet (find_pos axes a) else None.

(** omtools/utils/einsum_utils.py L62-67: one tuple; the result is the axis map
    and the letters *)
Fixpoint name_axes (axes : list nat) (tuple : list nat) : option (list nat * list nat) :=
  match tuple with
  | [] => Some (axes, [])
  | a :: r =>
      let axes' := if mem a axes then axes else axes ++ [a] in
      match letter_of axes' a, name_axes axes' r with
      | Some c, Some (axes'', rep) => Some (axes'', c :: rep)
      | _, _ => None
      end
  end.

(** L59-71 *)
Fixpoint name_tuples (axes : list nat) (tuples : list (list nat))
  : option (list nat * list (list nat)) :=
  match tuples with
  | [] => Some (axes, [])
  | t :: r =>
      match name_axes axes t with
      | Some (axes', rep) =>
          match name_tuples axes' r with
          | Some (axes'', reps) => Some (axes'', rep :: reps)
          | None => None
          end
      | None => None
      end
  end.

(** omtools/utils/einsum_utils.py L47-84: the list and the string;
    axis_map[axis] raises for an unknown output axis.  With scalar_output every
    tuple is an input. *)
Definition new_subscripts (tuples : list (list nat)) (scalar_output : bool)
  : option (list (list nat) * list nat) :=
  let num := if scalar_output then length tuples else length tuples - 1 in
  match name_tuples [] (firstn num tuples) with
  | None => None
  | Some (axes, reps) =>
      let out := if Nat.eqb (length tuples) (num + 1)
                 then map_opt (letter_of axes) (last tuples []) else Some [] in
      match out with
      | None => None
      | Some out =>
          let aslist := reps ++ [out] in
          Some (aslist, to_string aslist)
      end
  end.

(** omtools/std/einsum_new_api.py L31-40 *)
Definition einsum_new_comp (tuples : list (list nat)) (names : list nat) (shapes : list shape)
  : option component :=
  match new_subscripts tuples (Nat.eqb (length shapes) (length tuples)) with
  | Some (_, str) => einsum_comp str names shapes
  | None => None
  end.
