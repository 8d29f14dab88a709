(** C99: promotions of subsystems; C100: design variables; C101: setup run again.
    [assemble O set_list uid f reverse st a]: the systems Group.setup adds, each with
    its name ([true]: 'comp_' in front) and promotions, and the design variables. *)
From Verif Require Import PyBase PySet SpecGraph Graph SpecSetup GroupApi SpecApi Assemble SpecAssemble
  AssembleProofs AssembleWitness SetupAgain.

(** C99.  A subsystem that is a Group gets its name and the promotions asked for; any
    other subsystem gets another name and all its variables promoted. *)
Theorem C99_actual :
  forall O uid reverse fuel cs st rs,
  run_ops O fuel api0 (map call_op cs) = Some (st, rs) -> schedulable uid st ->
  (forall out, created_output (map call_op cs) rs out -> exists i, given_value (map call_op cs) rs i out) ->
  labels_distinct st ->
  exists parts dvs,
    eventually (fun f => assemble O set_list uid f reverse st (attributes cs rs attrs0)) (Ok (parts, dvs))
    /\ (forall i s k c, called cs i (AddSubsystem s k true) c -> added_once parts (false, User s) (wanted c))
    /\ (forall i s k c, called cs i (AddSubsystem s k false) c ->
          added_once parts (true, User s) (Request (Some [Everything]) None None)).
Proof. intros. exact (promotions O uid reverse fuel cs st rs H H0 H1 H2). Qed.
Print Assumptions C99_actual.

Theorem C99_refuted :
  exists O uid fuel cs st rs i s k c parts dvs,
  run_ops O fuel api0 (map call_op cs) = Some (st, rs) /\ schedulable uid st /\ labels_distinct st
  /\ called cs i (AddSubsystem s k false) c
  /\ eventually (fun f => assemble O set_list uid f false st (attributes cs rs attrs0)) (Ok (parts, dvs))
  /\ forall pfx r, In ((pfx, User s), r) parts -> pfx = true /\ r <> wanted c.
Proof. exact promotion_ignored. Qed.
Print Assumptions C99_refuted.

(** C100.  The design variables are the independent variables created with dv=True,
    each once, and each is the output of a component that is added. *)
Theorem C100_design_variables :
  forall O uid reverse fuel cs st rs,
  run_ops O fuel api0 (map call_op cs) = Some (st, rs) -> schedulable uid st ->
  (forall out, created_output (map call_op cs) rs out -> exists i, given_value (map call_op cs) rs i out) ->
  labels_distinct st ->
  exists parts dvs,
    eventually (fun f => assemble O set_list uid f reverse st (attributes cs rs attrs0)) (Ok (parts, dvs))
    /\ NoDup dvs
    /\ (forall nm, In nm dvs <-> exists i s c, called cs i (CreateIndep s) c /\ as_dv c = true /\ nm = User s)
    /\ (forall nm, In nm dvs -> added_once parts (true, nm) (Request (Some [Everything]) None None)).
Proof. intros. exact (design_variables O uid reverse fuel cs st rs H H0 H1 H2). Qed.
Print Assumptions C100_design_variables.

(** C101.  Once a group has been set up, no later setup adds any system, whatever
    calls the user makes in it. *)
Theorem C101_actual :
  forall O uid fuel reverse g h g' added, set_up uid g ->
  setup_once O uid fuel reverse g h = Some (Ok (g', added)) -> added = [].
Proof. exact setup_again. Qed.
Print Assumptions C101_actual.

Theorem C101_refuted :
  exists O uid fuel model g g',
  setup_once O uid fuel false group0 (model (anext (g_api group0))) = Some (Ok (g, [2]))
  /\ setup_once O uid fuel false g (model (anext (g_api g))) = Some (Ok (g', [])).
Proof. exact set_up_twice_empty. Qed.
Print Assumptions C101_refuted.
