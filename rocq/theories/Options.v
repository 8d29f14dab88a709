(** Model of omtools/utils/options_dictionary.py. *)
From Coq Require Import String QArith.
From Verif Require Import PyBase.
Open Scope nat_scope.

(** Python values an option may hold.  Not modelled: containers, NumPy arrays and
    classes with their own comparison methods. *)
Inductive fl := Fin (q : Q) | PInf | NInf | NaN.
Inductive pyval :=
| VNone
| VBool (b : bool)
| VInt (z : Z)
| VFloat (f : fl)
| VStr (s : string)
| VObj (id cls : nat) (hashable : bool).   (* any other object: compared by identity *)

(** Built-in and user classes; [TObj c] has [TObj c'] for c' in [supers] above it. *)
Inductive pytype := TNoneType | TBool | TInt | TFloat | TStr | TObj (cls : nat) | TObject.

Definition number (v : pyval) : option fl :=
  match v with
  | VBool b => Some (Fin (if b then 1 else 0)%Q)
  | VInt z => Some (Fin (inject_Z z))
  | VFloat f => Some f
  | _ => None
  end.

(** Comparison of floats; false whenever NaN is involved. *)
Definition fl_lt (a b : fl) : bool :=
  match a, b with
  | NaN, _ | _, NaN => false
  | Fin x, Fin y => negb (Qle_bool y x)
  | NInf, NInf => false
  | NInf, _ => true
  | _, NInf => false
  | PInf, _ => false
  | _, PInf => true
  end.
Definition fl_eq (a b : fl) : bool :=
  match a, b with
  | Fin x, Fin y => Qeq_bool x y
  | PInf, PInf | NInf, NInf => true
  | _, _ => false
  end.

(** [a == b]. *)
Definition py_eq (a b : pyval) : bool :=
  match number a, number b with
  | Some x, Some y => fl_eq x y
  | None, None =>
    match a, b with
    | VNone, VNone => true
    | VStr s, VStr t => String.eqb s t
    | VObj i _ _, VObj j _ _ => Nat.eqb i j
    | _, _ => false
    end
  | _, _ => false
  end.

(** [a < b]; TypeError between unrelated types. *)
Definition py_lt (a b : pyval) : res bool :=
  match number a, number b with
  | Some x, Some y => Ok (fl_lt x y)
  | _, _ => match a, b with
            | VStr s, VStr t => Ok (String.ltb s t)
            | _, _ => Raise TypeError
            end
  end.

Definition is_hashable (v : pyval) : bool := match v with VObj _ _ h => h | _ => true end.

Section Classes.
Variable supers : nat -> list nat.   (* the user classes above a user class, itself included *)

Definition instance_of (v : pyval) (t : pytype) : bool :=
  match t, v with
  | TObject, _ => true
  | TNoneType, VNone => true
  | TBool, VBool _ => true
  | TInt, (VInt _ | VBool _) => true
  | TFloat, VFloat _ => true
  | TStr, VStr _ => true
  | TObj c, VObj _ d _ => existsb (Nat.eqb c) (supers d)
  | _, _ => false
  end.

(** Arguments [values] and [types] of declare. *)
Inductive values_arg := ValuesSeq (l : list pyval)   (* list or tuple *)
                      | ValuesSet (l : list pyval)   (* set *)
                      | ValuesOther.                  (* anything else *)
Inductive types_arg := TypesOne (t : pytype)
                     | TypesTuple (l : list pytype)
                     | TypesListOrSet (l : list pytype)
                     | TypesOther.                    (* anything else *)

Record decl := Decl {
  d_default : option pyval;           (* None: no default *)
  d_values : option values_arg;
  d_types : option types_arg;
  d_upper : option pyval;             (* None: no bound (Python None) *)
  d_lower : option pyval;
  d_check : option (pyval -> option exn);   (* check_valid: the exception it raises *)
  d_allow_none : bool
}.

Record meta := Meta {
  m_decl : decl;                      (* values, types, upper, lower, check_valid, allow_none *)
  m_value : option pyval;             (* 'value'; None: the _undefined object *)
  m_set : bool                        (* 'has_been_set' *)
}.

Definition dict := list (nat * meta).
Fixpoint dget (d : dict) (name : nat) : option meta :=
  match d with
  | [] => None
  | (k, m) :: r => if Nat.eqb k name then Some m else dget r name
  end.
Fixpoint dset (d : dict) (name : nat) (m : meta) : dict :=
  match d with
  | [] => [(name, m)]
  | (k, m') :: r => if Nat.eqb k name then (k, m) :: r else (k, m') :: dset r name m
  end.
Fixpoint ddel (d : dict) (name : nat) : dict :=
  match d with
  | [] => []
  | (k, m) :: r => if Nat.eqb k name then r else (k, m) :: ddel r name
  end.

Definition bind_unit (a b : res unit) : res unit := match a with Ok _ => b | Raise e => Raise e end.

(** L216-222: value in values. *)
Definition check_values (v : pyval) (va : values_arg) : res unit :=
  match va with
  | ValuesSeq l => if existsb (py_eq v) l then Ok tt else Raise ValueError
  | ValuesSet l => if is_hashable v then if existsb (py_eq v) l then Ok tt else Raise ValueError
                   else Raise TypeError
  | ValuesOther => Raise TypeError
  end.
(** L224-230: isinstance(value, types); a list or set of types makes isinstance raise. *)
Definition check_types (v : pyval) (ta : types_arg) : res unit :=
  match ta with
  | TypesOne t => if instance_of v t then Ok tt else Raise TypeError
  | TypesTuple l => if existsb (instance_of v) l then Ok tt else Raise TypeError
  | TypesListOrSet _ | TypesOther => Raise TypeError
  end.
(** L232-242. *)
Definition check_upper (v : pyval) (u : option pyval) : res unit :=
  match u with
  | None => Ok tt
  | Some u => match py_lt u v with                       (* value > upper *)
              | Raise e => Raise e
              | Ok true => Raise ValueError
              | Ok false => Ok tt
              end
  end.
Definition check_lower (v : pyval) (l : option pyval) : res unit :=
  match l with
  | None => Ok tt
  | Some l => match py_lt v l with
              | Raise e => Raise e
              | Ok true => Raise ValueError
              | Ok false => Ok tt
              end
  end.

(** L196-247 *)
Definition assert_valid (m : decl) (v : pyval) : res unit :=
  bind_unit
    (if match v with VNone => d_allow_none m | _ => false end then Ok tt
     else
       bind_unit
         (match d_values m with
          | Some va => check_values v va
          | None => match d_types m with
                    | Some ta => check_types v ta
                    | None => Ok tt
                    end
          end)
         (bind_unit (check_upper v (d_upper m)) (check_lower v (d_lower m))))
    (match d_check m with
     | Some f => match f v with Some e => Raise e | None => Ok tt end
     | None => Ok tt
     end).

Record options := Options { odict : dict; read_only : bool }.

(** L249-307 *)
Definition declare (o : options) (name : nat) (dc : decl) : options * res unit :=
  match d_values dc, d_types dc with
  | Some ValuesOther, _ => (o, Raise TypeError)                     (* L281-283 *)
  | _, Some TypesOther => (o, Raise TypeError)                      (* L284-286 *)
  | Some _, Some _ => (o, Raise RuntimeError)                       (* L288-290 *)
  | _, _ =>
    let provided := match d_default dc with Some _ => true | None => false end in
    let o' := Options (dset (odict o) name (Meta dc (d_default dc) provided)) (read_only o) in
    (o', match d_default dc with
         | Some v => assert_valid dc v                              (* L305-307 *)
         | None => Ok tt
         end)
  end.

(** L309-320 *)
Definition undeclare (o : options) (name : nat) : options :=
  Options (ddel (odict o) name) (read_only o).

(** L361-385 *)
Definition setitem (o : options) (name : nat) (v : pyval) : options * res unit :=
  match dget (odict o) name with
  | None => (o, Raise KeyError)
  | Some m =>
    if read_only o then (o, Raise KeyError)
    else match assert_valid (m_decl m) v with
         | Raise e => (o, Raise e)
         | Ok _ => (Options (dset (odict o) name (Meta (m_decl m) (Some v) true)) (read_only o), Ok tt)
         end
  end.

(** L322-332 *)
Fixpoint update (o : options) (l : list (nat * pyval)) : options * res unit :=
  match l with
  | [] => (o, Ok tt)
  | (k, v) :: r => match setitem o k v with
                   | (o', Ok _) => update o' r
                   | (o', Raise e) => (o', Raise e)
                   end
  end.

(** L387-409; [m_value] is a value whenever [m_set] (proved). *)
Definition getitem (o : options) (name : nat) : res pyval :=
  match dget (odict o) name with
  | None => Raise KeyError
  | Some m => if m_set m then match m_value m with Some v => Ok v | None => Raise AttributeError end
              else Raise RuntimeError
  end.

(** L348-359 *)
Definition contains (o : options) (name : nat) : bool :=
  match dget (odict o) name with Some _ => true | None => false end.

(** Histories of calls; exceptions are caught by the caller. *)
Inductive oop :=
| ODeclare (name : nat) (d : decl)
| OUndeclare (name : nat)
| OSet (name : nat) (v : pyval)
| OUpdate (l : list (nat * pyval)).

Definition ostep (o : options) (c : oop) : options * res unit :=
  match c with
  | ODeclare n d => declare o n d
  | OUndeclare n => (undeclare o n, Ok tt)
  | OSet n v => setitem o n v
  | OUpdate l => update o l
  end.

(** OptionsDictionary(read_only): L29-45, without keyword arguments. *)
Definition onew (ro : bool) : options := Options [] ro.
Fixpoint orun (o : options) (h : list oop) : options * list (res unit) :=
  match h with
  | [] => (o, [])
  | c :: r => let '(o1, x) := ostep o c in let '(o2, xs) := orun o1 r in (o2, x :: xs)
  end.
End Classes.
