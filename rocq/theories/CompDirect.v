(** Model of the components LinearCombinationComp, PowerCombinationComp and
    LinearPowerCombinationComp when a model adds them directly with their options,
    with the processing of the options (omtools/utils/process_options.py). *)
From Coq Require Import Reals Arith List Bool ZArith.
From Verif Require Import RSum NdArray Component CompReorder CompElem CompPoly.
Import ListNotations.
Local Open Scope R_scope.

(** The option in_names: None, a string or a list of strings. *)
Inductive names_opt := NNone | NStr (n : nat) | NList (l : list nat).

(** The options coeffs and powers: a number, or a list or one-dimensional array.
    Not modelled: lists of arrays, arrays of another dimension. *)
Inductive scalars := SNum (c : R) | SList (l : list R).

(** omtools/utils/process_options.py L6-14 *)
Definition get_names_list (n : names_opt) : option (list nat) :=
  match n with
  | NNone => None
  | NStr n => Some [n]
  | NList l => Some l
  end.

(** omtools/utils/process_options.py L20-28 *)
Definition get_scalars_list (c : scalars) (names : list nat) : list R :=
  match c with
  | SNum c => repeat c (length names)
  | SList l => l
  end.

(** linearcombination_comp.py L28-38, power_combination_comp.py L36-46: names and
    numbers; an empty dict counts as not given. *)
Definition processed (names : names_opt) (numbers : scalars) (dict : list (nat * R))
  : option (list nat * list R) :=
  match dict with
  | _ :: _ => Some (map fst dict, map snd dict)
  | [] => match get_names_list names with
          | Some l => Some (l, get_scalars_list numbers l)
          | None => None
          end
  end.

(** inputs[name]: the input declared with that name; KeyError without one. *)
Fixpoint lookup (declared : list nat) (ins : list (nd R)) (nm : nat) : option (nd R) :=
  match declared, ins with
  | n :: declared', x :: ins' => if Nat.eqb n nm then Some x else lookup declared' ins' nm
  | _, _ => None
  end.

(** The inputs that a loop over names and numbers reads. *)
Fixpoint reads {A : Type} (declared : list nat) (ins : list (nd R)) (l : list (nat * A))
  : option (list (nd R * A)) :=
  match l with
  | [] => Some []
  | (nm, k) :: l' =>
    match lookup declared ins nm, reads declared ins l' with
    | Some x, Some r => Some ((x, k) :: r)
    | _, _ => None
    end
  end.

(** ---- LinearCombinationComp ---- *)

(** omtools/comps/linearcombination_comp.py L24-65.  [vals] is the length of the
    option in_vals, which has no default: reading it raises when it is not given
    (L41).  Inputs are declared for the names that have both a coefficient and a
    value (L49), and compute reads those that have a coefficient (L64). *)
Definition linear_direct (s : list nat) (names : names_opt) (coeffs : scalars)
           (dict : list (nat * R)) (vals : option nat) (constant : nd R) : option component :=
  match processed names coeffs dict, vals with
  | Some (names, coeffs), Some n =>
    let declared := firstn (Nat.min (length coeffs) n) names in
    if names_ok declared then
      Some (Comp (repeat s (length declared)) s
              (fun ins =>
                 match assign_output s constant, reads declared ins (combine names coeffs) with
                 | Some y, Some l => Some (linear_loop y l)
                 | _, _ => None
                 end)
              (fun ins p =>
                 match nth_error coeffs p with
                 | Some k => as_sparse (sparse_partials (np_arange (size s)) (np_arange (size s)) (scalar k))
                 | None => None
                 end))
    else None
  | _, _ => None
  end.

(** ---- PowerCombinationComp ---- *)

(** power_combination_comp.py L84-91: the loop compares names *)
Fixpoint deriv_named (me : nat) (d : nd R) (l : list (nat * (nd R * expo))) : option (nd R) :=
  match l with
  | [] => Some d
  | (nm, (x, p)) :: l' =>
      let a := if Nat.eqb me nm then expo_val p else 1 in
      let b := if Nat.eqb me nm then expo_pred p else p in
      match np_power x b with
      | Some y => match inplace_mul d (np_map (fun t => a * t) y) with
                  | Some d' => deriv_named me d' l'
                  | None => None
                  end
      | None => None
      end
  end.

(** power_combination_comp.py L33-93: inputs are declared for the names that have a
    value (L56), with or without a power; compute and compute_partials read those
    that have a power (L65, L80, L86), and partials are written for all names
    (L83, L93), which raises when one is not declared. *)
Definition power_direct (s : list nat) (names : names_opt) (powers : scalars)
           (dict : list (nat * R)) (vals : option nat) (c : R) : option component :=
  match processed names powers dict, vals with
  | Some (names, powers), Some n =>
    let declared := firstn n names in
    let exps := map expo_of powers in
    if names_ok declared then
      Some (Comp (repeat s (length declared)) s
              (fun ins =>
                 match assign_output s (scalar c), reads declared ins (combine names exps) with
                 | Some y, Some l => power_loop y l
                 | _, _ => None
                 end)
              (fun ins p =>
                 match reads declared ins (combine names exps),
                       np_bcast2 Rmult (scalar c) (Nd s (fun _ => 1)) with
                 | Some l, Some d =>
                   if forallb (fun nm => existsb (Nat.eqb nm) declared) names then
                     match deriv_named (nth p declared 0%nat) d (combine names l) with
                     | Some d' => as_sparse (sparse_partials (np_arange (size s)) (np_arange (size s))
                                                             (np_flatten d'))
                     | None => None
                     end
                   else None
                 | _, _ => None
                 end))
    else None
  | _, _ => None
  end.

(** ---- LinearPowerCombinationComp without terms_list ---- *)

(** The option in_names as linearpowercombination.py uses it: it is iterated over
    as it is (L70, L85, L100), so a string gives one name for each character. *)
Inductive iterable := IStr (characters : list nat) | IList (l : list nat).

Definition iterated (n : iterable) : list nat :=
  match n with IStr l => l | IList l => l end.

(** powers[iterm, ivar] for the rows of a matrix with [m] columns and coeffs[iterm]
    (L82-87): an IndexError when a column or coefficient is missing. *)
Definition poly_rows (names : list nat) (m : nat) (powers : list (list R)) (coeffs : list R)
  : option (list (R * list expo)) :=
  if (match powers with [] => true | _ => (length names <=? m)%nat end) &&
     (length powers <=? length coeffs)%nat
  then Some (combine coeffs (map (fun row => map expo_of (firstn (length names) row)) powers))
  else None.

(** linearpowercombination.py L30-117 with in_names, powers and coeffs given.
    [powers] has rows of length [m]. *)
Definition poly_direct (s : list nat) (names : iterable) (m : nat) (powers : list (list R))
           (coeffs : list R) (constant : nd R) : option (list nat * component) :=
  let names := iterated names in
  if names_ok names then
    Some (names,
      Comp (repeat s (length names)) s
        (fun ins => match assign_output s constant, poly_rows names m powers coeffs with
                    | Some y, Some rows => poly_sum s y rows ins
                    | _, _ => None
                    end)
        (fun ins me => match poly_rows names m powers coeffs with
                       | Some rows =>
                         match poly_deriv me (Nd s (fun _ => 0)) rows ins with
                         | Some d => as_sparse (sparse_partials (np_arange (size s)) (np_arange (size s))
                                                                (np_flatten d))
                         | None => None
                         end
                       | None => None
                       end))
  else None.
