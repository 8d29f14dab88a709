(** Classes that extend the setup of another class (C85).
    [run_setup O set_list uid reverse fuel classes inst0]: setup of a new instance
    of the first class, the others being its ancestors up to Group. *)
From Verif Require Import PyBase PySet Graph GroupApi Inherit SpecInherit InheritProofs.

(** The systems of a hierarchy are not those of the same calls in one class. *)
Theorem C85_refuted :
  ~ (forall O uid reverse fuel classes i j,
       run_setup O set_list uid reverse fuel classes inst0 = Some (Ok i) ->
       run_setup O set_list uid reverse fuel [map Call (all_calls classes)] inst0 = Some (Ok j) ->
       forall n, In n (isys j) -> In n (isys i)).
Proof. exact extends_fails. Qed.
Print Assumptions C85_refuted.

(** Whatever the hierarchy, the systems are those of the calls made before the
    first wrapped setup ends; all later calls are dropped without an error. *)
Theorem C85_first_setup_decides : forall O iset uid reverse fuel classes i,
  run_setup O iset uid reverse fuel classes inst0 = Some (Ok i) ->
  exists st rs, run_ops O fuel api0 (first_calls classes) = Some (st, map Ok rs)
    /\ group_setup O iset uid fuel reverse st = Some (Ok (isys i)).
Proof. exact first_pass_decides. Qed.
Print Assumptions C85_first_setup_decides.

(** In particular a class whose setup starts with super().setup() of Group
    itself is empty, whatever it goes on to define. *)
Theorem C85_super_first_drops_all : forall O iset uid reverse fuel b i,
  run_setup O iset uid reverse fuel [Super :: b] inst0 = Some (Ok i) -> isys i = [].
Proof. exact super_first_drops. Qed.
Print Assumptions C85_super_first_drops_all.

(** A class that does not call its parent's setup gets its own calls, all of them. *)
Theorem C85_own_setup : forall O iset uid reverse fuel b parents i,
  run_setup O iset uid reverse fuel (map Call b :: parents) inst0 = Some (Ok i) ->
  exists st rs, run_ops O fuel api0 b = Some (st, map Ok rs)
    /\ group_setup O iset uid fuel reverse st = Some (Ok (isys i)).
Proof. exact own_only. Qed.
Print Assumptions C85_own_setup.

(** A class without a setup of its own cannot be created, even if its parent has one. *)
Theorem C85_setup_not_inherited : forall own parents,
  (forall c, make_class own parents = Ok c <-> exists b, own = Some b /\ c = b :: parents) /\
  (own = None -> make_class own parents = Raise KeyError).
Proof. exact class_needs_setup. Qed.
Print Assumptions C85_setup_not_inherited.
