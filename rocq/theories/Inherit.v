(** Model of classes that extend the setup of another class
    (omtools/core/group.py L20-128).  The metaclass [_ComponentBuilder] wraps the
    setup of every class of the hierarchy, so [super().setup()] runs the passes
    of the parent's wrapper in the middle of the child's own code. *)
From Verif Require Import PyBase Graph GroupApi.

(** One instance: the Variable objects with the attributes the passes leave on
    them (variable.py L122-140), Group.nodes (group.py L152) and the systems
    OpenMDAO has been handed so far (by object, in order). *)
Record inst := Inst {
  iapi : api;
  idependents : nat -> list nat;
  ivisited : nat -> nat;
  icost : nat -> nat;
  itick : nat;
  inodes : list (nat * nat);
  isys : list nat
}.

(** group.py L150-161, variable.py L122-140: a new instance. *)
Definition inst0 : inst :=
  Inst api0 (fun _ => []) (fun _ => 0) (fun _ => 1) 0 [] [].

Definition set_api (i : inst) (st : api) : inst :=
  Inst st (idependents i) (ivisited i) (icost i) (itick i) (inodes i) (isys i).

(** What the body of a user's setup does. *)
Inductive item :=
| Call (o : op)    (* any call of GroupApi *)
| Super.           (* super().setup() *)

Section Inherit.
Variable O : oracle.
Variable iset : list nat -> list nat.
Variable uid : nat -> nat.
Variable reverse : bool.
Variable fuel : nat.

(** group.py L41-120: what the wrapper does after the class's own code. *)
Definition pass (i : inst) : option (res inst) :=
  let st := iapi i in
  match setup_graph O iset uid (akind st) fuel root reverse (inodes i)
          (GS (adeps st) (idependents i) (ivisited i) (icost i) (itick i)) with
  | None => None
  | Some (Raise e) => Some (Raise e)
  | Some (Ok (nodes, l, s)) =>
    Some (do sys <- build_all st (rev l) (isys i) ;;
          Ok (Inst (set_adeps st (deps s) (atick st)) (dependents s) (visited s)
                   (dag_cost s) (tick s) nodes sys))
  end.

(** The code of one class; an exception ends it.  [super] is the parent's
    (wrapped) setup. *)
Fixpoint body (super : inst -> option (res inst)) (b : list item) (i : inst)
  : option (res inst) :=
  match b with
  | [] => Some (Ok i)
  | Call o :: r =>
    match step O fuel (iapi i) o with
    | None => None
    | Some (_, Raise e) => Some (Raise e)
    | Some (st, Ok _) => body super r (set_api i st)
    end
  | Super :: r =>
    match super i with
    | Some (Ok i') => body super r i'
    | other => other
    end
  end.

(** Wrapped setup of the first class of the list, the others being its
    ancestors; the last ancestor is Group itself, whose setup is [pass]
    (group.py L169-170) and wrapped like any other (L125-128). *)
Fixpoint run_setup (classes : list (list item)) (i : inst) : option (res inst) :=
  match classes with
  | [] => pass i
  | b :: parents =>
    match body (run_setup parents) b i with
    | Some (Ok i') => pass i'
    | other => other
    end
  end.
End Inherit.

(** group.py L123-128: creating a class, with or without a setup of its own.
    [attr['setup']] is looked up in the class's own namespace. *)
Definition make_class (own_setup : option (list item)) (parents : list (list item))
  : res (list (list item)) :=
  match own_setup with
  | Some b => Ok (b :: parents)
  | None => Raise KeyError
  end.
