(** C103: an implicit component set up again (models: ImplicitAgain.v); C104, C105:
    groups made by create_group (model: CreateGroup.v). *)
From Coq Require Import Reals.
From Verif Require Import PyBase PySet SpecGraph Graph GroupApi NdArray Assemble Implicit SpecImplicit ImplicitAgain ImplicitAgainProofs
  GraphTick CreateGroup CreateGroupProofs.
Import ListNotations.
Local Open Scope nat_scope.

(** C103.  Once a component has been set up with at least one residual, no later
    setup of it succeeds, whatever calls are made in it. *)
Theorem C103_actual : forall O uid fuel h k x G xs i o out r,
  isetup_once O uid fuel icomponent0 h = Some (Ok (k, x)) ->
  run_iops O fuel igroup0 h = Some (G, xs) -> succeeded h xs i o -> gives_residual o out r ->
  forall O' fuel' h' z, isetup_once O' uid fuel' k h' <> Some (Ok z).
Proof. exact no_second_setup. Qed.
Print Assumptions C103_actual.

Theorem C103_refuted : exists O uid fuel model e k x,
  isetup_once O uid fuel icomponent0 (model (anext (ig_api (k_group icomponent0)))) = Some (Ok (k, x))
  /\ isetup_once O uid fuel k (model (anext (ig_api (k_group k)))) = Some (Raise e).
Proof. exact component_twice. Qed.
Print Assumptions C103_refuted.

Example C103_instance : exists O uid fuel h xs,
  (exists k x G, isetup_once O uid fuel icomponent0 h = Some (Ok (k, x)) /\ run_iops O fuel igroup0 h = Some (G, xs))
  /\ succeeded h xs 3 (DefineResidual 1 3).
Proof. exact component_instance. Qed.

(** C104.  The systems of a group made by create_group are those its body describes
    (what group_setup, the subject of C01 - C12, C20 and C99, computes), and they are
    the same after any number of Problem.setup. *)
Theorem C104_block_systems : forall O uid fuel h c,
  create_group O uid fuel h = Some (Ok c) ->
  exists st rs, run_ops O fuel api0 h = Some (st, rs)
    /\ group_setup (oracle_from (atick st) O) set_list uid fuel false st = Some (Ok (ch_systems c))
    /\ (acyclic (adeps st) -> exists N, forall O' fuel' k, N <= fuel' -> exists c',
          problem_setups O' uid fuel' k c = Some (Ok c') /\ ch_systems c' = ch_systems c).
Proof. exact create_group_steady. Qed.
Print Assumptions C104_block_systems.

Example C104_instance : exists O uid fuel h st rs c,
  create_group O uid fuel h = Some (Ok c) /\ run_ops O fuel api0 h = Some (st, rs)
  /\ acyclic (adeps st) /\ ch_systems c = [1; 3].
Proof. exact create_group_instance. Qed.

(** C105.  The exception that leaves a block is the one raised in it only when the
    half-finished group can be set up; otherwise it is the exception of that setup. *)
Theorem C105_actual : forall O uid fuel h1 o h2 st e st',
  run_until O fuel api0 h1 = Some (st, None) -> step O fuel st o = Some (st', Raise e) ->
  create_group O uid fuel (h1 ++ o :: h2) =
    match group_setup (oracle_from (atick st') O) set_list uid fuel false st' with
    | None => None
    | Some (Raise e') => Some (Raise e')
    | Some (Ok _) => Some (Raise e)
    end.
Proof. exact block_exception. Qed.
Print Assumptions C105_actual.

Theorem C105_refuted : exists O uid fuel h st st' o,
  run_until O fuel api0 h = Some (st, None) /\ step O fuel st o = Some (st', Raise TypeError)
  /\ create_group O uid fuel (h ++ [o]) = Some (Raise ValueError).
Proof. exact block_exception_masked. Qed.
Print Assumptions C105_refuted.
