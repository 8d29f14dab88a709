(** Model of omtools/comps/conditional_component.py: setup of ConditionalComponent.
    Simplifications: values and the n2 option are left out; after L77 only the
    variables and partials that setup declares (up to L88) are kept. *)
From Verif Require Import PyBase Graph Replace GroupApi Implicit.
Import ListNotations.

(** Python's set(...): it takes at most one positional argument. *)
Definition py_set (args : list (list nat)) : res (list nat) :=
  match args with
  | [] => Ok []
  | [l] => Ok (nodup Nat.eq_dec l)
  | _ => Raise TypeError
  end.

(** isinstance(x, Input) *)
Definition is_input (st : api) (x : nat) : bool :=
  match akind st x with KInput => true | _ => false end.

Record conditional := Conditional {
  cc_out : name * list nat;
  cc_ins : list name;
  cc_partials : list (name * name)
}.

(** conditional_component.py L38-88; the collected sets (L66-70) and the set of all
    inputs (L77), which may come in any order, are given by the oracle. *)
Definition conditional_setup (O : oracle) (fuel : nat) (st : api) (shape : nat -> list nat)
           (out : name) (c t f : nat) : option (res conditional) :=
  if is_input st c then Some (Raise TypeError)                                  (* L41-42 *)
  else if is_input st t then Some (Raise TypeError)                             (* L44-47 *)
  else if is_input st f then Some (Raise TypeError)                             (* L49-52 *)
  else if negb (if list_eq_dec Nat.eq_dec (shape t) (shape f) then true else false)
  then Some (Raise ValueError)                                                  (* L54-57 *)
  else
    match collect_input_exprs fuel st c c [], collect_input_exprs fuel st t t [],
          collect_input_exprs fuel st f f [] with                               (* L66-70 *)
    | Some lc, Some lt, Some lf =>
        Some (do ins <- py_set [O (atick st) lc; O (S (atick st)) lt; O (S (S (atick st))) lf] ;;  (* L77-78 *)
              let names := filter (fun n => negb (name_eqb n out)) (map (aname st) ins) in  (* L79 *)
              Ok (Conditional (out, shape t) names (map (fun n => (out, n)) names)))        (* L59-63, L80-88 *)
    | _, _, _ => None
    end.
