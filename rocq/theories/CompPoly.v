(** Model of omtools/comps/linearpowercombination.py: a constant plus a sum of
    products of powers of the inputs. *)
From Coq Require Import Reals Arith List Bool ZArith.
From Verif Require Import RSum NdArray Component CompReorder CompElem.
Import ListNotations.
Local Open Scope R_scope.

(** One entry of the option terms_list: a coefficient and a dict from input names
    to powers, in insertion order. *)
Definition term := (R * list (nat * R))%type.

(** L35-42: the keys after [dict.update] with each dict in turn: a key keeps the
    place of its first insertion. *)
Fixpoint add_keys (acc : list nat) (l : list nat) : list nat :=
  match l with
  | [] => acc
  | k :: l' => add_keys (if existsb (Nat.eqb k) acc then acc else acc ++ [k]) l'
  end.

Definition in_names (terms : list term) : list nat :=
  add_keys [] (flat_map (fun t => map fst (snd t)) terms).

(** L44-49: one row of [powers]; zero where the dict has no such key. *)
Fixpoint power_of (d : list (nat * R)) (name : nat) : R :=
  match d with
  | [] => 0
  | (k, p) :: d' => if Nat.eqb k name then p else power_of d' name
  end.

Definition powers_row (names : list nat) (t : term) : R * list expo :=
  (fst t, map (fun nm => expo_of (power_of (snd t) nm)) names).

(** a += b: the result must have the shape of [a] *)
Definition inplace_add (a b : nd R) : option (nd R) :=
  match np_bcast2 Rplus a b with
  | Some r => if list_eq_dec Nat.eq_dec (shp r) (shp a) then Some r else None
  | None => None
  end.

(** L84-91: outputs[out_name] += term for every row of [powers]. *)
Fixpoint poly_sum (s : list nat) (acc : nd R) (rows : list (R * list expo)) (ins : list (nd R))
  : option (nd R) :=
  match rows with
  | [] => Some acc
  | (c, row) :: rest =>
    match value_loop (Nd s (fun _ => c)) (combine ins row) with
    | Some t => match inplace_add acc t with
                | Some acc' => poly_sum s acc' rest ins
                | None => None
                end
    | None => None
    end
  end.

(** L103-113: [term] starts as a number, so every [*=] makes a new array. *)
Fixpoint poly_factor (me q : nat) (d : nd R) (l : list (nd R * expo)) : option (nd R) :=
  match l with
  | [] => Some d
  | (x, p) :: l' =>
      let a := if Nat.eqb me q then expo_val p else 1 in
      let b := if Nat.eqb me q then expo_pred p else p in
      match np_power x b with
      | Some y => match np_bcast2 Rmult d (np_map (fun t => a * t) y) with
                  | Some d' => poly_factor me (S q) d' l'
                  | None => None
                  end
      | None => None
      end
  end.

(** L100-115 *)
Fixpoint poly_deriv (me : nat) (acc : nd R) (rows : list (R * list expo)) (ins : list (nd R))
  : option (nd R) :=
  match rows with
  | [] => Some acc
  | (c, row) :: rest =>
    match poly_factor me 0 (scalar c) (combine ins row) with
    | Some t => match inplace_add acc t with
                | Some acc' => poly_deriv me acc' rest ins
                | None => None
                end
    | None => None
    end
  end.

(** L30-117, with terms_list given: the names of the inputs in order, and the
    component.  An empty list counts as not given (L32), and then in_names is
    None and iterating over it raises (L70).  Giving in_names, powers and
    coeffs directly: CompDirect.v. *)
Definition poly_comp (s : list nat) (terms : list term) (constant : nd R)
  : option (list nat * component) :=
  match terms with
  | [] => None
  | _ :: _ =>
    let names := in_names terms in
    let rows := map (powers_row names) terms in
    Some (names,
      Comp (repeat s (length names)) s
        (fun ins => match assign_output s constant with
                    | Some y => poly_sum s y rows ins
                    | None => None
                    end)
        (fun ins me => match poly_deriv me (Nd s (fun _ => 0)) rows ins with
                       | Some d => as_sparse (sparse_partials (np_arange (size s)) (np_arange (size s))
                                                              (np_flatten d))
                       | None => None
                       end))
  end.
