(** Properties of Group.setup's graph passes (C01-C05, C07-C10, C15).
    [setup O set_list uid kd fuel root reverse defined has_build [] (fresh d)] is
    the code of Group.setup after the user's own part, on the graph [d]:
    - [O]: any iteration order of object sets, [set_list]: CPython's for int sets;
    - [defined n]: the output was defined; [has_build n]: the node builds a component;
    - the result lists the components added, in order. *)
From Coq Require Import Sorted.
From Verif Require Import PyBase PySet PySetProofs PySetWide SpecGraph Graph SpecSetup
  GraphTheorems GraphCycle GraphWitness GraphPruneSharp.

(** C01: every component is added after all components it depends on. *)
Theorem C01_order_respects_dependencies :
  forall O uid kd root reverse defined has_build d,
  graph_ok kd root d -> uid_distinct root uid d ->
  (forall n, dep_on d root n -> kd n = KExplicit \/ kd n = KImplicit -> defined n = true) ->
  exists added rest,
    eventually (fun fuel => setup O set_list uid kd fuel root reverse defined has_build [] (fresh d))
               (Ok (added, rest))
    /\ forall u v, In u added -> In v added -> dep_on d u v -> before added v u.
Proof.
  intros O uid kd root reverse defined has_build d ok UD DEF.
  destruct (setup_ok O uid kd root reverse set_list set_list_placed defined has_build d ok UD DEF)
    as (added & rest & E & _ & _ & BF & _).
  exact (ex_intro _ added (ex_intro _ rest (conj E BF))).
Qed.
Print Assumptions C01_order_respects_dependencies.

Example C01_instance :
  graph_ok demo_kd 0 (adj demo_rows) /\ uid_distinct 0 (fun n => n) (adj demo_rows)
  /\ (dep_on (adj demo_rows) 0 3 /\ dep_on (adj demo_rows) 3 6)
  /\ match run_rows demo_kd demo_rows 30 with
     | Some (Ok (added, _)) => added = [6; 7; 4; 5; 3; 1; 2] | _ => False end.
Proof. split; [exact demo_ok|split; [exact (uid_id_distinct _ _)|split; [exact demo_reaches|exact demo_run]]]. Qed.

(** wide nodes are allowed: many inputs at one output, many independent variables *)
Example C01_instance_wide :
  (graph_ok all_vars 0 (adj wide_rows) /\ width (adj wide_rows) [] 1 = 13
   /\ match run_rows all_vars wide_rows 80 with
      | Some (Ok (added, _)) => added = seq 4 11 ++ [3; 2; 1] | _ => False end)
  /\ (graph_ok many_kd 0 (adj many_rows) /\ width (adj many_rows) (indeps_of many_kd (adj many_rows) 0) 1 = 14
   /\ match run_rows many_kd many_rows 80 with
      | Some (Ok (added, _)) => added = seq 4 12 ++ [3; 2; 1] | _ => False end).
Proof.
  split; split; [exact wide_ok|split; [exact (proj1 wide_width)|exact wide_run]
                |exact many_ok|split; [exact (proj1 many_width)|exact many_run]].
Qed.

(** C02: exactly the components of nodes some registered output depends on, once each. *)
Theorem C02_scheduled_exactly_once :
  forall O uid kd root reverse defined has_build d,
  graph_ok kd root d -> uid_distinct root uid d ->
  (forall n, dep_on d root n -> kd n = KExplicit \/ kd n = KImplicit -> defined n = true) ->
  exists added rest,
    eventually (fun fuel => setup O set_list uid kd fuel root reverse defined has_build [] (fresh d))
               (Ok (added, rest))
    /\ NoDup added
    /\ forall n, In n added <-> dep_on d root n /\ has_build n = true.
Proof.
  intros O uid kd root reverse defined has_build d ok UD DEF.
  destruct (setup_ok O uid kd root reverse set_list set_list_placed defined has_build d ok UD DEF)
    as (added & rest & E & ND & SP & _ & _).
  exact (ex_intro _ added (ex_intro _ rest (conj E (conj ND SP)))).
Qed.
Print Assumptions C02_scheduled_exactly_once.

(** C03: pruning any list of nodes keeps the must-run-before relation. *)
Theorem C03_pruning_keeps_order :
  forall ns s,
  (exists N, finite_graph N (deps s)) -> acyclic (deps s) -> simple_graph (deps s) ->
  (forall n, In n ns -> length (deps s n) <= 8 \/ shortcuts (deps s) [] n <= 1) ->
  forall u v, dep_on (deps (fold_left (remove_indirect_dependencies set_list) ns s)) u v
              <-> dep_on (deps s) u v.
Proof. exact prune_pass_safe. Qed.
Print Assumptions C03_pruning_keeps_order.

(** ... and it does remove what is implied by a two-step path, nothing else. *)
Theorem C03_pruning_exact :
  forall n s,
  (exists N, finite_graph N (deps s)) -> acyclic (deps s) -> simple_graph (deps s) ->
  let len := length (deps s n) in let r := shortcuts (deps s) [] n in
  len <= 8 \/ r <= 1 \/ (5 <= r /\ len <= 32) \/ (19 <= r /\ len <= 128) ->
  forall v, In v (deps (remove_indirect_dependencies set_list s n) n) <->
            In v (deps s n) /\ ~ (exists c, In c (deps s n) /\ In v (deps s c)).
Proof. exact prune_node_exact. Qed.
Print Assumptions C03_pruning_exact.

Example C03_instance :
  (exists N, finite_graph N (adj demo_rows)) /\ acyclic (adj demo_rows) /\ simple_graph (adj demo_rows)
  /\ deps (remove_indirect_dependencies set_list (fresh (adj demo_rows)) 1) 1 = [3].
Proof.
  destruct demo_ok as [F A S _ _ _]. exact (conj F (conj A (conj S eq_refl))).
Qed.

(** C04 is false: with nine direct dependencies setup can schedule an expression
    before something it depends on ... *)
Theorem C04_pruning_any_width_refuted :
  exists kd root d added rest u v,
    ((exists N, finite_graph N d) /\ acyclic d /\ simple_graph d /\ forall n, width d [] n <= 9)
    /\ uid_distinct root (fun n => n) d
    /\ eventually (fun fuel => setup nodup_oracle set_list (fun n => n) kd fuel root false
                                 (fun _ => true) (fun _ => true) [] (fresh d)) (Ok (added, rest))
    /\ dep_on d u v /\ before added u v.
Proof.
  destruct nine_wrong_order as (added & rest & E & BF & D).
  exact (ex_intro _ all_vars (ex_intro _ 0 (ex_intro _ (adj (nine_rows [1; 6])) (ex_intro _ added
    (ex_intro _ rest (ex_intro _ 1 (ex_intro _ 6
      (conj (nine_ok _ (or_intror eq_refl)) (conj (uid_id_distinct _ _) (conj E (conj D BF))))))))))).
Qed.
Print Assumptions C04_pruning_any_width_refuted.

(** Pruning a node removes exactly the redundant dependencies if and only if
    CPython lists their positions (graph.py L18-25) in ascending order. *)
Theorem C04_actual : forall n s,
  (exists N, finite_graph N (deps s)) -> acyclic (deps s) -> simple_graph (deps s) ->
  length (deps s n) <= 128 ->
  ((forall v, In v (deps (remove_indirect_dependencies set_list s n) n) <->
              In v (deps s n) /\ ~ (exists c, In c (deps s n) /\ In v (deps s c)))
   <-> StronglySorted lt (set_list (indirect_indices (deps s) n))).
Proof. exact prune_exact_iff. Qed.
Print Assumptions C04_actual.

Example C04_instance :
  (exists N, finite_graph N (adj (nine_rows [1; 6]))) /\ acyclic (adj (nine_rows [1; 6]))
  /\ simple_graph (adj (nine_rows [1; 6]))
  /\ set_list (indirect_indices (adj (nine_rows [1; 6])) 1) = [0; 8; 2; 1].
Proof.
  destruct (nine_ok [1; 6] (or_intror eq_refl)) as (F & A & S & _). exact (conj F (conj A (conj S eq_refl))).
Qed.

(** C05 (graph part): independent variables registered on the group run before
    everything that is not an independent variable. *)
Theorem C05_indeps_run_first :
  forall O uid kd root reverse defined has_build d,
  graph_ok kd root d -> uid_distinct root uid d ->
  (forall n, dep_on d root n -> kd n = KExplicit \/ kd n = KImplicit -> defined n = true) ->
  exists added rest,
    eventually (fun fuel => setup O set_list uid kd fuel root reverse defined has_build [] (fresh d))
               (Ok (added, rest))
    /\ forall i n, In i (d root) -> kd i = KIndep -> In i added ->
         In n added -> kd n <> KIndep -> before added i n.
Proof.
  intros O uid kd root reverse defined has_build d ok UD DEF.
  destruct (setup_ok O uid kd root reverse set_list set_list_placed defined has_build d ok UD DEF)
    as (added & rest & E & _ & _ & _ & IND).
  exact (ex_intro _ added (ex_intro _ rest (conj E IND))).
Qed.
Print Assumptions C05_indeps_run_first.

Example C05_instance : In 6 (adj demo_rows 0) /\ In 7 (adj demo_rows 0) /\ demo_kd 6 = KIndep
  /\ ~ dep_on (adj demo_rows) 5 7.
Proof.
  split; [vm_compute; tauto|]. split; [vm_compute; tauto|]. split; [reflexivity|].
  intros H. inversion H as [a b X|a w b X Y]; subst; vm_compute in X; destruct X as [X|[]]; [discriminate|].
  subst. inversion Y as [a b Z|a w b Z W]; subst; vm_compute in Z; contradiction.
Qed.

(** C07: no error other than the one for undefined outputs; in particular not
    the TypeError of the unused-node removal. *)
Theorem C07_no_internal_error :
  forall O uid kd root reverse defined has_build d,
  graph_ok kd root d -> uid_distinct root uid d ->
  forall fuel e,
  setup O set_list uid kd fuel root reverse defined has_build [] (fresh d) = Some (Raise e) ->
  e = ValueError
  /\ exists n, dep_on d root n /\ (kd n = KExplicit \/ kd n = KImplicit) /\ defined n = false.
Proof.
  intros O uid kd root reverse defined has_build d ok UD.
  exact (setup_no_other_error O uid kd root reverse set_list set_list_placed defined has_build d ok UD).
Qed.
Print Assumptions C07_no_internal_error.

(** ... but with nine dependencies the TypeError does occur. *)
Theorem C07_wide_nodes_refuted :
  exists kd root d,
    ((exists N, finite_graph N d) /\ acyclic d /\ simple_graph d /\ forall n, width d [] n <= 9)
    /\ uid_distinct root (fun n => n) d
    /\ eventually (fun fuel => setup nodup_oracle set_list (fun n => n) kd fuel root false
                                 (fun _ => true) (fun _ => true) [] (fresh d)) (Raise TypeError).
Proof.
  exact (ex_intro _ all_vars (ex_intro _ 0 (ex_intro _ (adj (nine_rows [1]))
    (conj (nine_ok _ (or_introl eq_refl)) (conj (uid_id_distinct _ _) nine_type_error))))).
Qed.
Print Assumptions C07_wide_nodes_refuted.

(** C08: a second run on the state left by the first adds nothing. *)
Theorem C08_second_setup_adds_nothing :
  forall O uid kd root reverse defined has_build d,
  graph_ok kd root d -> uid_distinct root uid d ->
  forall added nodes l s',
  eventually (fun fuel => setup O set_list uid kd fuel root reverse defined has_build [] (fresh d))
             (Ok (added, (nodes, l, s'))) ->
  exists rest,
    eventually (fun fuel => setup O set_list uid kd fuel root reverse defined has_build nodes s')
               (Ok ([], rest)).
Proof.
  intros O uid kd root reverse defined has_build d.
  exact (setup_twice O set_list uid kd root reverse defined has_build d set_list_placed).
Qed.
Print Assumptions C08_second_setup_adds_nothing.

(** C09: on acyclic graphs setup terminates (successfully when all outputs are
    defined): see C01.  On a graph with a reachable cycle it never succeeds. *)
Theorem C09_cyclic_graphs_rejected :
  forall O uid kd root reverse defined has_build d,
  (exists N, finite_graph N d) -> simple_graph d -> uid_distinct root uid d ->
  (forall n, ~ In n (d n)) -> (forall n, ~ In root (d n)) ->
  (forall n, dep_on d root n -> width d (filter (fun i => is_indep (kd i)) (d root)) n <= 8) ->
  (exists n, dep_on d root n /\ dep_on d n n) ->
  forall fuel r, setup O set_list uid kd fuel root reverse defined has_build [] (fresh d) <> Some (Ok r).
Proof.
  intros O uid kd root reverse defined has_build d F S U NS RF W C fuel r.
  exact (setup_cyclic set_list 8 set_list_ok O uid kd root reverse defined has_build d F S U NS RF W C fuel r).
Qed.
Print Assumptions C09_cyclic_graphs_rejected.

Example C09_instance : (exists N, finite_graph N (adj cyclic_rows)) /\ simple_graph (adj cyclic_rows)
  /\ (forall n, ~ In n (adj cyclic_rows n)) /\ (forall n, ~ In 0 (adj cyclic_rows n))
  /\ (forall n, width (adj cyclic_rows) [] n <= 8)
  /\ dep_on (adj cyclic_rows) 0 1 /\ dep_on (adj cyclic_rows) 1 1.
Proof. exact cyclic_demo. Qed.

(** C09: the forward-edge pass itself terminates exactly on graphs without a
    cycle reachable from where it starts. *)
Theorem C09_forward_pass_terminates_iff_acyclic :
  forall O root s, (exists N, finite_graph N (deps s)) ->
  ((exists fuel s', add_fwd_edges O fuel root s = Some s')
   <-> forall n, n = root \/ dep_on (deps s) root n -> ~ dep_on (deps s) n n).
Proof. exact fwd_terminates_iff. Qed.
Print Assumptions C09_forward_pass_terminates_iff_acyclic.

(** C10: an undefined output reachable from the group is always reported ... *)
Theorem C10_undefined_output_rejected :
  forall O uid kd root reverse defined has_build d,
  graph_ok kd root d -> uid_distinct root uid d ->
  forall n, dep_on d root n -> kd n = KExplicit \/ kd n = KImplicit -> defined n = false ->
  eventually (fun fuel => setup O set_list uid kd fuel root reverse defined has_build [] (fresh d))
             (Raise ValueError).
Proof.
  intros O uid kd root reverse defined has_build d ok UD.
  exact (setup_undefined O uid kd root reverse set_list set_list_placed defined has_build d ok UD).
Qed.
Print Assumptions C10_undefined_output_rejected.

(** ... and nothing is reported when all are defined: the conclusion of C01. *)

(** C15 *)
Theorem C15_branch_sort_stable_permutation :
  forall reverse s n,
  let s' := sort_dependency_branches reverse s n in
  Permutation (deps s' n) (deps s n)
  /\ StronglySorted (fun x y => if reverse then dag_cost s y <= dag_cost s x
                                else dag_cost s x <= dag_cost s y) (deps s' n)
  /\ (forall c, filter (fun x => Nat.eqb (dag_cost s x) c) (deps s' n)
                = filter (fun x => Nat.eqb (dag_cost s x) c) (deps s n))
  /\ (forall m, m <> n -> deps s' m = deps s m)
  /\ (forall u v, dep_on (deps s') u v <-> dep_on (deps s) u v).
Proof. exact sort_branches_spec. Qed.
Print Assumptions C15_branch_sort_stable_permutation.

Example C15_instance :
  let s := GS (adj [[1; 2; 3; 4]]) (fun _ => []) (fun _ => 0) (adj_cost [0; 5; 2; 5; 1]) 0 in
  deps (sort_dependency_branches false s 0) 0 = [4; 2; 1; 3]
  /\ deps (sort_dependency_branches true s 0) 0 = [1; 3; 2; 4].
Proof. exact (conj eq_refl eq_refl). Qed.
