(** A model with design variables and both kinds of subsystems. *)
From Verif Require Import PyBase PySet SpecGraph Graph SpecSetup GraphTheorems GroupApi SpecApi GroupApiProofs
  ApiCheck ApiTheorems ApiWitness Assemble SpecAssemble AssembleProofs.

Definition plain (o : op) : call := Call o no_request false.
(** Two independent variables, the first a design variable; an expression of both;
    a group promoting one variable and a component promoting one output. *)
Definition demo_calls : list call :=
  [Call (CreateIndep 1) no_request true; plain (CreateIndep 2); plain (Expr 0 [1; 2]); plain (Register 3 3);
   Call (AddSubsystem 5 0 true) (Request (Some [Pattern 3]) None None) false;
   Call (AddSubsystem 6 1 false) (Request None None (Some [Pattern 9])) false].
Definition demo_history : list op := map call_op demo_calls.

Lemma demo_runs : run_ops O 60 api0 (map call_op demo_calls) = Some (state_of demo_history, results_of demo_history).
Proof. apply runs_ok. vm_compute. reflexivity. Qed.
Lemma demo_schedulable : schedulable (fun n => n) (state_of demo_history).
Proof.
  apply setup_check_ok; [exact (proj1 (proj1 (history_inv O 60 _ _ _ demo_runs)))|vm_compute; reflexivity].
Qed.
Lemma demo_labels : labels_distinct (state_of demo_history).
Proof. apply labels_check_ok. vm_compute. reflexivity. Qed.
Lemma demo_given : forall out, created_output (map call_op demo_calls) (results_of demo_history) out ->
  exists i, given_value (map call_op demo_calls) (results_of demo_history) i out.
Proof.
  intros out (i & s & H1 & _). exfalso. do 6 (destruct i as [|i]; [cbn in H1; discriminate H1|]).
  cbn in H1. destruct i; discriminate H1.
Qed.

Definition demo_parts : list ((bool * name) * request) :=
  [((true, User 1), Request (Some [Everything]) None None); ((true, User 2), Request (Some [Everything]) None None);
   ((true, User 3), Request (Some [Everything]) None None); ((false, User 5), Request (Some [Pattern 3]) None None);
   ((true, User 6), Request (Some [Everything]) None None)].
Lemma demo_assembled :
  assemble O set_list (fun n => n) 60 false (state_of demo_history) (attributes demo_calls (results_of demo_history) attrs0) = Some (Ok (demo_parts, [User 1])).
Proof. vm_compute. reflexivity. Qed.

Lemma assemble_eventually uid reverse st a fuel r :
  assemble O set_list uid fuel reverse st a = Some r ->
  eventually (fun f => assemble O set_list uid f reverse st a) r.
Proof.
  intros E. exists fuel. intros f L. unfold assemble in *.
  destruct (setup_graph O set_list uid (akind st) fuel root reverse [] (fresh (adeps st))) as [x|] eqn:Q; [|discriminate].
  now rewrite (setup_graph_mono _ _ _ _ _ _ _ _ _ _ Q f L).
Qed.

(** The hypotheses of the theorems and their outcome, for this model. *)
Example demo_case :
  run_ops O 60 api0 (map call_op demo_calls) = Some (state_of demo_history, results_of demo_history)
  /\ schedulable (fun n => n) (state_of demo_history) /\ labels_distinct (state_of demo_history)
  /\ called demo_calls 4 (AddSubsystem 5 0 true) (Call (AddSubsystem 5 0 true) (Request (Some [Pattern 3]) None None) false)
  /\ called demo_calls 0 (CreateIndep 1) (Call (CreateIndep 1) no_request true)
  /\ assemble O set_list (fun n => n) 60 false (state_of demo_history) (attributes demo_calls (results_of demo_history) attrs0) = Some (Ok (demo_parts, [User 1])).
Proof.
  split; [exact demo_runs|]. split; [exact demo_schedulable|]. split; [exact demo_labels|].
  split; [split; reflexivity|]. split; [split; reflexivity|exact demo_assembled].
Qed.

(** The component asked for one output to be promoted, under its own name. *)
Lemma promotion_ignored : exists O uid fuel cs st rs i s k c parts dvs,
  run_ops O fuel api0 (map call_op cs) = Some (st, rs) /\ schedulable uid st /\ labels_distinct st
  /\ called cs i (AddSubsystem s k false) c
  /\ eventually (fun f => assemble O set_list uid f false st (attributes cs rs attrs0)) (Ok (parts, dvs))
  /\ forall pfx r, In ((pfx, User s), r) parts -> pfx = true /\ r <> wanted c.
Proof.
  exists O, (fun n => n), 60, demo_calls, (state_of demo_history), (results_of demo_history), 5, 6, 1,
    (Call (AddSubsystem 6 1 false) (Request None None (Some [Pattern 9])) false), demo_parts, [User 1].
  split; [exact demo_runs|]. split; [exact demo_schedulable|]. split; [exact demo_labels|].
  split; [split; reflexivity|]. split; [apply assemble_eventually with (fuel := 60); exact demo_assembled|].
  intros pfx r H. unfold demo_parts in H. simpl in H.
  do 4 (destruct H as [H|H]; [discriminate H|]). destruct H as [H|[]].
  split; [congruence|]. intros Q. assert (X : r = Request (Some [Everything]) None None) by congruence.
  rewrite X in Q. discriminate Q.
Qed.
