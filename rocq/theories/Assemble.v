(** What Group.setup hands to OpenMDAO beyond the order of the systems: promotions
    and design variables (omtools/core/group.py L80-125), and setup run more than
    once on the same group (group.py L33-125, L150-171). *)
From Verif Require Import PyBase PySet Graph Replace GroupApi.

(** One entry of a list of variables to promote: '*' or another pattern. *)
Inductive pattern := Everything | Pattern (s : nat).

(** The keywords promotes, promotes_inputs, promotes_outputs; [None]: left out. *)
Record request := Request {
  promotes : option (list pattern);
  promotes_inputs : option (list pattern);
  promotes_outputs : option (list pattern)
}.

(** A call with its keyword arguments: [wanted] is read by add_subsystem only
    (group.py L349-395), [as_dv] by create_indep_var only (group.py L213-252). *)
Record call := Call { call_op : op; wanted : request; as_dv : bool }.

(** Subsystem.promotes* (subsystem.py L21-23) and Indep.dv (indep.py L35) of each
    object, set when the object is made and never changed. *)
Record attrs := Attrs { kept_request : nat -> request; kept_dv : nat -> bool }.
Definition no_request : request := Request None None None.
Definition attrs0 : attrs := Attrs (fun _ => no_request) (fun _ => false).

Definition note_call (c : call) (r : res nat) (a : attrs) : attrs :=
  match call_op c, r with
  | AddSubsystem _ _ _, Ok n => Attrs (upd (kept_request a) n (wanted c)) (kept_dv a)
  | CreateIndep _, Ok n => Attrs (kept_request a) (upd (kept_dv a) n (as_dv c))
  | _, _ => a
  end.
Fixpoint attributes (cs : list call) (rs : list (res nat)) (a : attrs) : attrs :=
  match cs, rs with
  | c :: cs', r :: rs' => attributes cs' rs' (note_call c r a)
  | _, _ => a
  end.

(** group.py L91-100: the promotions given to OpenMDAO's add_subsystem. *)
Definition passed_request (st : api) (a : attrs) (n : nat) : request :=
  match abuild st n with
  | BSub _ true => kept_request a n                        (* L97-100 *)
  | _ => Request (Some [Everything]) None None             (* L93-95 *)
  end.

(** group.py L115-118: names given to add_design_var, in the order of the loop. *)
Definition design_vars (st : api) (a : attrs) (order : list nat) : list name :=
  flat_map (fun n => if is_indep (akind st n) && kept_dv a n then [aname st n] else []) order.

(** Group.setup after the user's own code: each system added, with its name and
    promotions, and the design variables. *)
Definition assemble (O : oracle) (iset : list nat -> list nat) (uid : nat -> nat)
    (fuel : nat) (reverse : bool) (st : api) (a : attrs)
  : option (res (list ((bool * name) * request) * list name)) :=
  match setup_graph O iset uid (akind st) fuel root reverse [] (fresh (adeps st)) with
  | None => None
  | Some (Raise e) => Some (Raise e)
  | Some (Ok (_, l, _)) =>
    Some (do added <- build_all st (rev l) [] ;;
          Ok (map (fun n => (label st n, passed_request st a n)) added, design_vars st a (rev l)))
  end.

(** * Setup run again *)
(** A group between two runs of setup: its objects, Group.nodes and the attributes
    the passes write (dependents, times_visited, _dag_cost). *)
Record group := MkGroup { g_api : api; g_nodes : list (nat * nat); g_passes : gstate }.
(** Group.__init__ (group.py L151-163). *)
Definition group0 : group := MkGroup api0 [] (fresh (adeps api0)).

(** One run of setup, as OpenMDAO makes at each Problem.setup: the user's calls
    (group.py L39), the passes over the same objects (L42-77), the systems added
    (L80-108; OpenMDAO has dropped those of the run before).  The passes leave the
    dependencies as they pruned and sorted them.  The second part of the result
    lists the objects whose systems were added. *)
Definition setup_once (O : oracle) (uid : nat -> nat) (fuel : nat) (reverse : bool)
    (g : group) (h : list op) : option (res (group * list nat)) :=
  match run_ops O fuel (g_api g) h with
  | None => None
  | Some (st, _) =>
    let s := g_passes g in
    match setup_graph O set_list uid (akind st) fuel root reverse (g_nodes g)
            (GS (adeps st) (dependents s) (visited s) (dag_cost s) (atick st)) with
    | None => None
    | Some (Raise e) => Some (Raise e)
    | Some (Ok (nodes, l, s')) =>
      Some (do added <- build_all st (rev l) [] ;;
            Ok (MkGroup (set_adeps st (deps s') (tick s')) nodes s', added))
    end
  end.
