(** ImplicitComponent.setup run any number of times on the same component
    (omtools/comps/implicit_component.py L38-113, L147-162), with the passes that
    prob.setup() makes over the internal group (omtools/core/group.py L33-125).

    Simplifications, besides those of Implicit.v and Assemble.v: whether the
    internal problem has the variable that a value is given to (L109-113) is looked
    at only as far as this: it has none at all when no system was added to it.
    Design variables and constraints (L87-100) stay left out; OpenMDAO refuses a
    second constraint on the same name, which can only add failures to a later run. *)
From Coq Require Import Reals.
From Verif Require Import PyBase PySet Graph Replace GroupApi RSum NdArray Assemble Implicit.
Import ListNotations.
Local Open Scope nat_scope.

(** What a component keeps between two runs of setup: the internal group with its
    nodes and what the passes wrote, and all_inputs (L155-162).  OpenMDAO drops the
    component's own variables and partials before each run. *)
Record icomponent := MkComponent {
  k_group : igroup;
  k_nodes : list (nat * nat);
  k_passes : gstate;
  k_all : list (name * list nat)
}.
Definition icomponent0 : icomponent := MkComponent igroup0 [] (fresh (adeps api0)) [].

Definition with_api (G : igroup) (st : api) : igroup :=
  IG st (ig_shape G) (ig_val G) (ig_isres G) (ig_map G) (ig_brackets G) (ig_outvals G).

(** L104-113: values are given to variables of the internal problem. *)
Definition start_values (added : list nat) (G : igroup) (rs : list nat) : res (list (name * nd R)) :=
  match initial_values G rs, added with
  | Ok (_ :: _), [] => Raise KeyError
  | x, _ => x
  end.

(** One run: the user's calls [h] (L40), the roots that are not residuals dropped
    (L44), the variables declared (L48-85), prob.setup() (L101) and the values
    given (L104-113).  The result carries the roots kept, the component's
    variables and the values. *)
Definition isetup_once (O : oracle) (uid : nat -> nat) (fuel : nat) (k : icomponent) (h : list iop)
  : option (res (icomponent * (list nat * icomp * list (name * nd R)))) :=
  match run_iops O fuel (k_group k) h with
  | None => None
  | Some (G0, _) =>
    let st0 := ig_api G0 in
    let rs := remove_nonresiduals (ig_isres G0) (adeps st0 root) in
    let st := set_adeps st0 (upd (adeps st0) root rs) (atick st0) in
    let G := with_api G0 st in
    match declare_residuals O fuel G rs (atick st) (IC (k_all k) [] [] []) with
    | None => None
    | Some (Raise e) => Some (Raise e)
    | Some (Ok c) =>
      let s := k_passes k in
      match setup_graph O set_list uid (akind st) fuel root false (k_nodes k)
              (GS (adeps st) (dependents s) (visited s) (dag_cost s) (atick st + length rs)) with
      | None => None
      | Some (Raise e) => Some (Raise e)
      | Some (Ok (nodes, l, s')) =>
        Some (do added <- build_all st (rev l) [] ;;
              do vs <- start_values added G rs ;;
              Ok (MkComponent (with_api G (set_adeps st (deps s') (tick s'))) nodes s' (ic_all c),
                  (rs, c, vs)))
      end
    end
  end.
