(** Properties of the Group API (C01, C02, C05, C06, C10, C11, C14, C16, C25, C27,
    C28, C65).  [run_ops O fuel api0 h = Some (st, rs)]: the calls [h] on a new
    group end in state [st] with results [rs] (a failing call is a [Raise] and the
    history goes on).  [group_setup O set_list uid f reverse st]: Group.setup then. *)
From Verif Require Import PyBase PySet SpecGraph Graph SpecSetup SpecVisit Replace ReplaceVisit GroupApi SpecApi SpecRun Run
  ReplaceProofs GroupApiAcyclic GroupApiSetup GroupApiHistory GroupApiLast ApiTheorems ApiWitness.

(** C01, C02, C05, C10 together, for every history of calls. *)
Theorem C01_group_setup_schedules :
  forall O uid reverse fuel h st rs,
  run_ops O fuel api0 h = Some (st, rs) -> schedulable uid st ->
  (forall out, created_output h rs out -> exists i, given_value h rs i out) ->
  labels_distinct st ->
  exists added,
    eventually (fun f => group_setup O set_list uid f reverse st) (Ok added)
    /\ NoDup added
    /\ (forall n, In n added <-> dep_on (adeps st) root n /\ has_build st n = true)
    /\ (forall u v, In u added -> In v added -> dep_on (adeps st) u v -> before added v u)
    /\ (forall i n, akind st i = KIndep -> In n added -> akind st n <> KIndep -> before added i n).
Proof. intros. exact (group_ok O uid reverse fuel h st rs H H0 H1 H2). Qed.
Print Assumptions C01_group_setup_schedules.

Example C01_group_instance :
  run_ops O 60 api0 full_history = Some (state_of full_history, results_of full_history)
  /\ schedulable (fun n => n) (state_of full_history)
  /\ (forall out, created_output full_history (results_of full_history) out ->
        exists i, given_value full_history (results_of full_history) i out)
  /\ labels_distinct (state_of full_history)
  /\ group_setup O set_list (fun n => n) 60 false (state_of full_history) = Some (Ok [2; 3; 4; 7; 6; 9; 10; 12]).
Proof.
  split; [exact full_runs|split; [exact full_schedulable|split; [exact full_given|split; [exact full_labels|exact full_setup]]]].
Qed.

(** Calls keep the graph acyclic, and end, unless an output is assigned from
    something that depends on it. *)
Theorem C09_calls_keep_graph_acyclic :
  forall O fuel h st rs,
  throughout O no_self_assign fuel api0 h -> run_ops O fuel api0 h = Some (st, rs) -> acyclic (adeps st).
Proof. intros. exact (run_acyclic O fuel h api0 st rs GroupApiProofs.ainv0 acyclic0 H H0). Qed.
Print Assumptions C09_calls_keep_graph_acyclic.

Theorem C09_calls_terminate :
  forall O h, (forall fuel, throughout O no_self_assign fuel api0 h) ->
  exists st rs, eventually (fun fuel => run_ops O fuel api0 h) (st, rs).
Proof.
  intros O h T.
  destruct (run_total O h api0 0 GroupApiProofs.ainv0 acyclic0 (fun fuel _ => T fuel)) as [[st rs] E].
  exact (ex_intro _ st (ex_intro _ rs E)).
Qed.
Print Assumptions C09_calls_terminate.

(** C06. [h1]: calls before add_subsystem, [h2]: calls after; [b]: the subsystem. *)
Theorem C06_subsystem_order :
  forall O uid reverse fuel h1 s k g h2 st1 rs1 st2 b st rs2,
  run_ops O fuel api0 h1 = Some (st1, rs1) ->
  step O fuel st1 (AddSubsystem s k g) = Some (st2, Ok b) ->
  run_ops O fuel st2 h2 = Some (st, rs2) ->
  schedulable uid st -> labels_distinct st ->
  (forall n, akind st n = KExplicit -> adefined st n = true) ->
  exists added, eventually (fun f => group_setup O set_list uid f reverse st) (Ok added)
    /\ In b added
    /\ (forall v, In v (adeps st1 root) -> In v added -> ~ lost_in O fuel st2 h2 b v -> before added v b)
    /\ (forall j s' i n, returned h2 rs2 j (DeclareInput s') i -> In n added -> dep_on (adeps st) n i ->
          before added b n).
Proof. intros. exact (subsystem_order O uid reverse fuel h1 s k g h2 st1 rs1 st2 b st rs2 H H0 H1 H2 H3 H4). Qed.
Print Assumptions C06_subsystem_order.

(** Without definitions in terms of themselves, every output registered before. *)
Theorem C06_subsystem_order_plain :
  forall O uid reverse fuel h1 s k g h2 st1 rs1 st2 b st rs2,
  throughout O no_self_reference fuel api0 (h1 ++ AddSubsystem s k g :: h2) ->
  run_ops O fuel api0 h1 = Some (st1, rs1) ->
  step O fuel st1 (AddSubsystem s k g) = Some (st2, Ok b) ->
  run_ops O fuel st2 h2 = Some (st, rs2) ->
  schedulable uid st -> labels_distinct st ->
  (forall n, akind st n = KExplicit -> adefined st n = true) ->
  exists added, eventually (fun f => group_setup O set_list uid f reverse st) (Ok added)
    /\ In b added
    /\ (forall v, In v (adeps st1 root) -> In v added -> before added v b)
    /\ (forall j s' i n, returned h2 rs2 j (DeclareInput s') i -> In n added -> dep_on (adeps st) n i ->
          before added b n).
Proof. intros. exact (subsystem_order_plain O uid reverse fuel h1 s k g h2 st1 rs1 st2 b st rs2 H H0 H1 H2 H3 H4 H5). Qed.
Print Assumptions C06_subsystem_order_plain.

Example C06_instance :
  exists st1 st2 rs1 rs2, run_ops O 60 api0 (firstn 10 full_history) = Some (st1, rs1)
  /\ step O 60 st1 (AddSubsystem 5 0 true) = Some (st2, Ok 10)
  /\ run_ops O 60 st2 (skipn 11 full_history) = Some (state_of full_history, rs2)
  /\ adeps st1 root = [2; 6; 9] /\ returned (skipn 11 full_history) rs2 0 (DeclareInput 6) 11
  /\ dep_on (adeps (state_of full_history)) 12 11.
Proof. exact full_split. Qed.

(** C10. *)
Theorem C10_group_undefined_output_rejected :
  forall O uid reverse fuel h st rs out,
  run_ops O fuel api0 h = Some (st, rs) -> schedulable uid st ->
  created_output h rs out -> (forall i, ~ given_value h rs i out) ->
  exists e, eventually (fun f => group_setup O set_list uid f reverse st) (Raise e)
    /\ (e = ValueError \/ e = RuntimeError) /\ (labels_distinct st -> e = ValueError).
Proof. intros. exact (group_undefined O uid reverse fuel h st rs H H0 out H1 H2). Qed.
Print Assumptions C10_group_undefined_output_rejected.

Example C10_group_instance :
  run_ops O 60 api0 undefined_history = Some (state_of undefined_history, results_of undefined_history)
  /\ schedulable (fun n => n) (state_of undefined_history)
  /\ results_of undefined_history = [Ok 1; Ok 2; Ok 3; Ok 3]
  /\ group_setup O set_list (fun n => n) 60 false (state_of undefined_history) = Some (Raise ValueError).
Proof. split; [exact undefined_runs|split; [exact undefined_schedulable|exact undefined_facts]]. Qed.

(** C11. *)
Theorem C11_registered_at_most_once :
  forall O fuel h st rs i j s s' n m m', run_ops O fuel api0 h = Some (st, rs) ->
  returned h rs i (Register s n) m -> returned h rs j (Register s' n) m' -> i = j.
Proof. intros. exact (register_once O fuel h st rs i j s s' n m m' H H0 H1). Qed.
Print Assumptions C11_registered_at_most_once.

Theorem C11_inputs_never_registered :
  forall O fuel h st rs i j s s' n m, run_ops O fuel api0 h = Some (st, rs) ->
  returned h rs i (DeclareInput s) n -> ~ returned h rs j (Register s' n) m.
Proof. intros. exact (register_input O fuel h st rs i j s s' n m H H0). Qed.
Print Assumptions C11_inputs_never_registered.

Theorem C11_failed_register_changes_nothing :
  forall O fuel st s n st' e, step O fuel st (Register s n) = Some (st', Raise e) -> st' = st.
Proof. intros. exact (register_failed O fuel st s n st' e H). Qed.
Print Assumptions C11_failed_register_changes_nothing.

(** A successful call does register: the expression is an output of the group,
    under the given name. *)
Theorem C11_register_effect :
  forall O fuel h st rs s n st' m, run_ops O fuel api0 h = Some (st, rs) ->
  step O fuel st (Register s n) = Some (st', Ok m) ->
  m = n /\ ~ In n (adeps st root)
  /\ aname st' n = User s /\ (forall k, k <> n -> aname st' k = aname st k)
  /\ (forall v, In v (adeps st' root) <-> In v (adeps st root) \/ v = n)
  /\ (forall k, k <> root -> adeps st' k = adeps st k).
Proof. intros. exact (register_effect O fuel h st rs s n st' m H H0). Qed.
Print Assumptions C11_register_effect.

Example C11_instance :
  results_of [DeclareInput 1; Expr 0 [1]; Register 2 2; Register 3 2; Register 4 1]
  = [Ok 1; Ok 2; Ok 2; Raise ValueError; Raise TypeError].
Proof. vm_compute. reflexivity. Qed.

(** C14: outputs of the same name are detected ... *)
Theorem C14_equal_output_names_rejected :
  forall O uid reverse fuel h st rs u v,
  run_ops O fuel api0 h = Some (st, rs) -> schedulable uid st ->
  u <> v -> dep_on (adeps st) root u -> dep_on (adeps st) root v ->
  has_build st u = true -> has_build st v = true ->
  (forall k, abuild st u <> BSub k true) -> (forall k, abuild st v <> BSub k true) ->
  aname st u = aname st v ->
  exists e, eventually (fun f => group_setup O set_list uid f reverse st) (Raise e)
    /\ (e = ValueError \/ e = RuntimeError).
Proof. intros. exact (group_clash O uid reverse fuel h st rs u v H H0 H1 H2 H3 H4 H5 H6 H7 H8). Qed.
Print Assumptions C14_equal_output_names_rejected.

Example C14_instance :
  run_ops O 60 api0 double_history = Some (state_of double_history, results_of double_history)
  /\ schedulable (fun n => n) (state_of double_history)
  /\ dep_on (adeps (state_of double_history)) root 2 /\ dep_on (adeps (state_of double_history)) root 3
  /\ aname (state_of double_history) 2 = aname (state_of double_history) 3
  /\ group_setup O set_list (fun n => n) 60 false (state_of double_history) = Some (Raise RuntimeError).
Proof. split; [exact double_runs|split; [exact double_schedulable|exact double_facts]]. Qed.

(** ... but an input and an output of the same name are not. *)
Theorem C14_equal_names_refuted :
  exists h st rs u v added, run_ops O 60 api0 h = Some (st, rs)
    /\ u <> v /\ aname st u = User 1 /\ aname st v = User 1
    /\ dep_on (adeps st) root u /\ dep_on (adeps st) root v
    /\ eventually (fun f => group_setup O set_list (fun n => n) f false st) (Ok added).
Proof. exact clash_refutes. Qed.
Print Assumptions C14_equal_names_refuted.

(** Setup succeeds exactly when every output is given a value and no two systems
    get the same name; names of inputs do not matter. *)
Theorem C14_actual :
  forall O uid reverse fuel h st rs,
  run_ops O fuel api0 h = Some (st, rs) -> schedulable uid st ->
  ((exists added, eventually (fun f => group_setup O set_list uid f reverse st) (Ok added)) <->
   (forall out, created_output h rs out -> exists i, given_value h rs i out) /\ labels_distinct st).
Proof. intros. exact (group_setup_iff O uid reverse fuel h st rs H H0). Qed.
Print Assumptions C14_actual.

(** C16: after one pass in the order setup produced, the variable of every
    expression a registered output depends on holds the value of its tree,
    evaluated on the values of the inputs, for every meaning of the operations. *)
Theorem C16_run_computes_expressions :
  forall (V : Type) op_sem indep_sem asm_sem part_sem sub_sem sub_reads sub_writes
         O uid reverse fuel h st rs (s : store V),
  run_ops O fuel api0 h = Some (st, rs) ->
  throughout O no_self_reference fuel api0 h ->
  all_tidy st -> uid_distinct root uid (adeps st) ->
  (forall out, created_output h rs out -> exists i, given_value h rs i out) ->
  labels_distinct st -> names_ok sub_reads sub_writes st ->
  (forall k vals, length vals = length (sub_reads k) -> length (sub_sem k vals) = length (sub_writes k)) ->
  exists added, eventually (fun f => group_setup O set_list uid f reverse st) (Ok added)
    /\ let fin := run_model V op_sem indep_sem asm_sem part_sem sub_sem sub_reads sub_writes st added s in
       let inp i := fin (aname st i) in
       (forall n v, dep_on (adeps st) root n -> value_object st n ->
          (tree_value V op_sem indep_sem asm_sem part_sem st inp n v <-> v = fin (aname st n)))
       /\ (forall x, (forall n, dep_on (adeps st) root n -> ~ In x (comp_writes sub_writes st n)) -> fin x = s x)
       /\ (forall b k g, dep_on (adeps st) root b -> abuild st b = BSub k g ->
             map fin (sub_writes k) = sub_sem k (map fin (sub_reads k))).
Proof.
  intros V op_sem indep_sem asm_sem part_sem sub_sem sub_reads sub_writes O uid reverse fuel h st rs s E T NW UD G LD NO SL.
  exact (run_computes O V op_sem indep_sem asm_sem part_sem sub_sem sub_reads sub_writes uid reverse fuel h st rs s
           E T NW UD G LD NO SL).
Qed.
Print Assumptions C16_run_computes_expressions.

Example C16_instance :
  throughout O no_self_reference 60 api0 full_history
  /\ names_ok full_reads full_writes (state_of full_history)
  /\ (let fin := run_model nat ex_op (fun n => 10 * n) (fun n l => 100 + ex_op 0 l) (fun k v => k + 2 * v)
        (fun _ l => [ex_op 1000 l]) full_reads full_writes (state_of full_history) [2; 3; 4; 7; 6; 9; 10; 12]
        (fun x => if name_eqb x (User 1) then 7 else 0) in
      map fin [User 1; User 2; Auto 3; Auto 5; User 3; User 4; User 6; User 7]
      = [7; 20; 27; 14; 42; 141; 1042; 1044]).
Proof. split; [exact full_reference|split; [exact full_names|exact full_values]]. Qed.

(** C25: define after any successful definition raises ... *)
Theorem C25_define_after_definition_rejected :
  forall O fuel h st rs i j out e r, run_ops O fuel api0 h = Some (st, rs) ->
  given_value h rs i out -> i < j -> nth_error h j = Some (Define out e) -> nth_error rs j = Some r ->
  exists x, r = Raise x.
Proof. intros. exact (define_after O fuel h st rs i j out e r H H0 H1 H2 H3). Qed.
Print Assumptions C25_define_after_definition_rejected.

Example C25_instance :
  results_of [DeclareInput 1; CreateOutput 2; Setitem 2 1 (Ok [0]); Define 2 1; CreateOutput 3; Define 3 1; Define 3 1]
  = [Ok 1; Ok 2; Ok 2; Raise ValueError; Ok 3; Ok 3; Raise ValueError].
Proof. vm_compute. reflexivity. Qed.

(** ... but an indexed assignment after define does not. *)
Theorem C25_assign_after_define_refuted :
  exists h st rs out e e' k, run_ops O 60 api0 h = Some (st, rs)
    /\ returned h rs 3 (Define out e) out /\ returned h rs 4 (Setitem out e' k) out /\ e <> e'.
Proof. exact twice_refutes. Qed.
Print Assumptions C25_assign_after_define_refuted.

(** What counts in the end: the assignments by index as soon as there is one,
    whatever was given to define. *)
Theorem C25_actual :
  forall sub_reads O fuel h st rs out, run_ops O fuel api0 h = Some (st, rs) ->
  ((exists i e k m, returned h rs i (Setitem out e k) m) ->
     abuild st out = BIndexed /\ comp_reads sub_reads st out = map fst (atgt st out)
     /\ (forall nm e, In (nm, e) (atgt st out) -> exists i idx, nth_error h i = Some (Setitem out e (Ok idx))))
  /\ (forall i e m, returned h rs i (Define out e) m -> ~ (exists i e k m, returned h rs i (Setitem out e k) m) ->
     abuild st out = BPass e /\ comp_reads sub_reads st out = [aname st e]).
Proof. intros sub_reads O fuel h st rs out E. exact (last_definition O sub_reads fuel h st rs out E). Qed.
Print Assumptions C25_actual.

Example C25_actual_instance :
  let st := state_of [DeclareInput 1; Expr 0 [1]; Expr 1 [1]; CreateOutput 2; Define 4 2; Setitem 4 3 (Ok [0])] in
  results_of [DeclareInput 1; Expr 0 [1]; Expr 1 [1]; CreateOutput 2; Define 4 2; Setitem 4 3 (Ok [0])]
    = [Ok 1; Ok 2; Ok 3; Ok 4; Ok 4; Ok 4]
  /\ comp_reads (fun _ => []) st 4 = [Auto 3].
Proof. vm_compute. split; reflexivity. Qed.

(** C27. *)
Theorem C27_define_leaves_no_cycle :
  forall O fuel0 h st rs out expr, run_ops O fuel0 api0 h = Some (st, rs) -> acyclic (adeps st) ->
  akind st out = KExplicit -> visible st expr = true -> expr <> out -> adefined st out = false ->
  exists st', eventually (fun fuel => step O fuel st (Define out expr)) (st', Ok out)
    /\ akind st' (anext st) = KInput /\ aname st' (anext st) = aname st out
    /\ (forall n, ~ dep_on (adeps st') n n)
    /\ (forall m, m = out \/ m = expr \/ dep_on (adeps st) out m \/ dep_on (adeps st) expr m ->
          forall v, In v (adeps st' m) <->
            (v <> out /\ (In v (adeps st m) \/ m = out /\ v = expr)) \/ (v = anext st /\ In out (adeps st m)))
    /\ (forall m, m <> out -> m <> expr -> ~ dep_on (adeps st) out m -> ~ dep_on (adeps st) expr m ->
          adeps st' m = adeps st m)
    /\ (forall n, n < anext st -> akind st' n = akind st n /\ aname st' n = aname st n)
    /\ (forall n, n < anext st -> n <> out -> abuild st' n = abuild st n)
    /\ abuild st' out = BPass expr.
Proof. intros. exact (define_step O fuel0 h st rs out expr H H0 H1 H2 H3 H4). Qed.
Print Assumptions C27_define_leaves_no_cycle.

Example C27_instance :
  run_ops O 60 api0 recursive_history = Some (state_of recursive_history, results_of recursive_history)
  /\ acyclic (adeps (state_of recursive_history)) /\ akind (state_of recursive_history) 2 = KExplicit
  /\ visible (state_of recursive_history) 4 = true /\ adefined (state_of recursive_history) 2 = false
  /\ map (adeps (state_of recursive_history)) [2; 3; 4; 5] = [[]; [1; 2]; [3; 2]; [3]]
  /\ map (adeps (state_of (recursive_history ++ [Define 2 4]))) [2; 3; 4; 5; 6] = [[4]; [1; 6]; [3; 6]; [3]; []].
Proof. exact recursive_facts. Qed.

(** C28: holds when no node depends on the output both directly and through
    another dependency ... *)
Theorem C28_residual_uses_replaced_partial :
  forall O out residual leaf d N t,
  finite_graph N d -> simple_graph d -> acyclic d -> d out = [] ->
  out < N -> residual < N -> N <= leaf ->
  (forall m v, In out (d m) -> In v (d m) -> ~ dep_on d v out) ->
  exists d', eventually (fun fuel => residual_graph O fuel out residual leaf d t) d'
    /\ (forall m, m = residual \/ dep_on d' residual m -> ~ In out (d' m))
    /\ (forall m v, m = residual \/ dep_on d residual m ->
          In v (d' m) <-> (v <> out /\ In v (d m)) \/ (v = leaf /\ In out (d m)))
    /\ (forall m, m <> residual -> ~ dep_on d residual m -> d' m = d m).
Proof. intros. exact (residual_graph_single O out residual leaf d N t H H0 H1 H2 H3 H4 H5 H6). Qed.
Print Assumptions C28_residual_uses_replaced_partial.

Example C28_instance : let d := fun n => nth n [[]; [3; 2]; [0; 3]; []] [] in
  finite_graph 4 d /\ simple_graph d /\ acyclic d /\ d 0 = [] /\ dep_on d 1 0
  /\ (forall m v, In 0 (d m) -> In v (d m) -> ~ dep_on d v 0).
Proof. exact single_facts. Qed.

(** ... and fails otherwise: some use stays. *)
Theorem C28_residual_uses_refuted :
  exists d, finite_graph 4 d /\ simple_graph d /\ acyclic d /\ d 0 = []
    /\ forall fuel, 5 <= fuel -> exists d', residual_graph O fuel 0 1 4 d 0 = Some d'
         /\ dep_on d' 1 2 /\ In 0 (d' 2).
Proof. exact skip_refutes. Qed.
Print Assumptions C28_residual_uses_refuted.

(** Exactly which uses are replaced, for every acyclic graph: those of the nodes
    reached from the residual without going to an entry listed right after the
    output.  If every node that leads to the output is used once, nothing else
    changes. *)
Theorem C28_actual :
  forall O out residual leaf d N t,
  finite_graph N d -> simple_graph d -> acyclic d -> d out = [] ->
  out < N -> residual < N -> N <= leaf ->
  exists d', eventually (fun fuel => residual_graph O fuel out residual leaf d t) d'
    /\ (forall m, visited d out residual m ->
          forall v, In v (d' m) <-> (v <> out /\ In v (d m)) \/ (v = leaf /\ In out (d m)))
    /\ (used_once d out -> forall m, ~ visited d out residual m -> d' m = d m).
Proof. exact residual_graph_visited. Qed.
Print Assumptions C28_actual.

Example C28_actual_instance : finite_graph 5 four /\ simple_graph four /\ acyclic four /\ four 0 = []
  /\ used_once four 0
  /\ visited four 0 1 1 /\ visited four 0 1 2 /\ visited four 0 1 4 /\ ~ visited four 0 1 3
  /\ forall fuel, 10 <= fuel -> exists d', residual_graph nodup_oracle fuel 0 1 5 four 0 = Some d'
       /\ map d' [1; 2; 3; 4] = [[2; 3; 4; 5]; [5]; [0]; [5]].
Proof. exact four_case. Qed.

(** C65: whatever the order of use and registration, a component reads the name
    under which its argument's value is written ... *)
Theorem C65_renaming_keeps_connections :
  forall sub_reads sub_writes O fuel h st rs n a,
  run_ops O fuel api0 h = Some (st, rs) ->
  (forall out, created_output h rs out -> exists i, given_value h rs i out) ->
  uses st n a -> akind st a <> KInput ->
  In (aname st a) (comp_reads sub_reads st n)
  /\ exists m, has_build st m = true /\ In (aname st a) (comp_writes sub_writes st m)
       /\ (m = a \/ exists k, In (k, a) (aparts st m)).
Proof. intros. exact (used_name_written O sub_reads sub_writes fuel h st rs n a H H0 H1 H2). Qed.
Print Assumptions C65_renaming_keeps_connections.

Example C65_instance :
  let st := state_of [DeclareInput 1; Expr 0 [1]; Expr 1 [2]; Register 7 2; Register 8 3] in
  uses st 3 2 /\ comp_reads (fun _ => []) st 3 = [User 7] /\ comp_writes (fun _ => []) st 2 = [User 7].
Proof.
  cbv zeta. split; [apply (uses_arg _ _ 1 [2]); [vm_compute; reflexivity|now left]|vm_compute; auto].
Qed.

(** ... except a source of an indexed assignment: nothing writes the name read. *)
Theorem C65_renaming_indexed_source_refuted :
  exists h st rs added n a, run_ops O 60 api0 h = Some (st, rs)
    /\ eventually (fun f => group_setup O set_list (fun n => n) f false st) (Ok added)
    /\ uses_indexed st n a /\ akind st a <> KInput
    /\ exists x, comp_reads (fun _ => []) st n = [x] /\ x <> aname st a
         /\ forall m, In m added -> ~ In x (comp_writes (fun _ => []) st m).
Proof. exact stale_refutes. Qed.
Print Assumptions C65_renaming_indexed_source_refuted.
