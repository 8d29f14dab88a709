(** Concrete histories: counterexamples and instances of the theorems. *)
From Verif Require Import PyBase PySet PySetProofs SpecGraph GraphLemmas Graph SpecSetup GraphSetup GraphTheorems Replace
  GroupApi SpecApi SpecRun Run GroupApiProofs GroupApiAcyclic GroupApiShape GroupApiSetup GroupApiHistory ApiCheck ApiTheorems.

Definition O := nodup_oracle.

(** Monotonicity of setup in the fuel gives [eventually] from one run. *)
Lemma group_setup_eventually iset uid reverse st fuel r :
  group_setup O iset uid fuel reverse st = Some r ->
  eventually (fun f => group_setup O iset uid f reverse st) r.
Proof.
  intros E. exists fuel. intros f L. unfold group_setup in *.
  destruct (setup_graph O iset uid (akind st) fuel root reverse [] (fresh (adeps st))) as [x|] eqn:Q; [|discriminate].
  now rewrite (setup_graph_mono _ _ _ _ _ _ _ _ _ _ Q f L).
Qed.

Definition state_of (h : list op) : api :=
  match run_ops O 60 api0 h with Some (st, _) => st | None => api0 end.
Definition results_of (h : list op) : list (res nat) :=
  match run_ops O 60 api0 h with Some (_, rs) => rs | None => [] end.
Definition runs (h : list op) : bool := match run_ops O 60 api0 h with Some _ => true | None => false end.
Lemma runs_ok h : runs h = true -> run_ops O 60 api0 h = Some (state_of h, results_of h).
Proof. unfold runs, state_of, results_of. destruct (run_ops O 60 api0 h) as [[st rs]|]; [reflexivity|discriminate]. Qed.

(** All kinds of objects: inputs 1 and 11, indep 2, expressions 3, 7, 12, part 5
    of the decomposition 4 of 1, outputs 6 (defined) and 9 (assigned by index),
    subsystem 10 reading output 6 and producing what input 11 reads. *)
Definition full_history : list op :=
  [DeclareInput 1; CreateIndep 2; Expr 0 [1; 2]; Getitem 1 0; CreateOutput 3; Expr 1 [3; 5]; Define 6 7;
   CreateOutput 4; Setitem 9 3 (Ok [0]); Setitem 9 5 (Ok [1]); AddSubsystem 5 0 true; DeclareInput 6;
   Expr 2 [11]; Register 7 12].
Definition full_reads (k : nat) : list name := [User 3].
Definition full_writes (k : nat) : list name := [User 6].

Lemma full_runs : run_ops O 60 api0 full_history = Some (state_of full_history, results_of full_history).
Proof. apply runs_ok. vm_compute. reflexivity. Qed.
Lemma full_results : results_of full_history =
  [Ok 1; Ok 2; Ok 3; Ok 5; Ok 6; Ok 7; Ok 6; Ok 9; Ok 9; Ok 9; Ok 10; Ok 11; Ok 12; Ok 12].
Proof. vm_compute. reflexivity. Qed.
Lemma full_base : base (state_of full_history).
Proof. exact (proj1 (proj1 (history_inv O 60 _ _ _ full_runs))). Qed.
Lemma full_schedulable : schedulable (fun n => n) (state_of full_history).
Proof. apply setup_check_ok; [exact full_base|vm_compute; reflexivity]. Qed.
Lemma full_labels : labels_distinct (state_of full_history).
Proof. apply labels_check_ok. vm_compute. reflexivity. Qed.
Lemma full_reference : throughout O no_self_reference 60 api0 full_history.
Proof. apply reference_check_ok. vm_compute. reflexivity. Qed.
Lemma full_names : names_ok full_reads full_writes (state_of full_history).
Proof.
  apply names_check_ok; [|vm_compute; reflexivity]. intros n L.
  destruct (history_inv O _ _ _ _ full_runs) as [_ S]. now apply (s_fresh _ S).
Qed.
Lemma full_given : forall out, created_output full_history (results_of full_history) out ->
  exists i, given_value full_history (results_of full_history) i out.
Proof.
  rewrite full_results. intros out (i & s & H1 & H2).
  do 14 (destruct i as [|i]; [cbn in H1, H2; try discriminate H1; injection H2 as <-;
    first [exists 6; left; exists 7, 6; split; reflexivity
          |exists 8; right; exists 3, (Ok [0]), 9; split; reflexivity]|]).
  exfalso. clear H2. cbn in H1. destruct i; discriminate.
Qed.
Lemma full_setup : group_setup O set_list (fun n => n) 60 false (state_of full_history)
  = Some (Ok [2; 3; 4; 7; 6; 9; 10; 12]).
Proof. vm_compute. reflexivity. Qed.

(** A value semantics for the example: operation f adds f and its arguments. *)
Definition ex_op (f : nat) (l : list nat) : nat := f + fold_right Nat.add 0 l.
Lemma full_values :
  let st := state_of full_history in
  let fin := run_model nat ex_op (fun n => 10 * n) (fun n l => 100 + ex_op 0 l) (fun k v => k + 2 * v)
     (fun _ l => [ex_op 1000 l]) full_reads full_writes st [2; 3; 4; 7; 6; 9; 10; 12]
     (fun x => if name_eqb x (User 1) then 7 else 0) in
  map fin [User 1; User 2; Auto 3; Auto 5; User 3; User 4; User 6; User 7]
  = [7; 20; 27; 14; 42; 141; 1042; 1044].
Proof. vm_compute. reflexivity. Qed.

(** C14: an input and an output of the same name. *)
Definition clash_history : list op := [DeclareInput 1; Expr 0 [1]; Expr 1 [2]; Register 1 3].
Lemma clash_facts :
  results_of clash_history = [Ok 1; Ok 2; Ok 3; Ok 3]
  /\ aname (state_of clash_history) 1 = User 1 /\ aname (state_of clash_history) 3 = User 1
  /\ group_setup O set_list (fun n => n) 60 false (state_of clash_history) = Some (Ok [2; 3]).
Proof. vm_compute. auto. Qed.

(** C65: a source of an indexed assignment renamed afterwards. *)
Definition stale_history : list op := [DeclareInput 1; Expr 0 [1]; CreateOutput 2; Setitem 3 2 (Ok [0]); Register 5 2].
Lemma stale_facts :
  results_of stale_history = [Ok 1; Ok 2; Ok 3; Ok 3; Ok 2]
  /\ group_setup O set_list (fun n => n) 60 false (state_of stale_history) = Some (Ok [2; 3])
  /\ abuild (state_of stale_history) 3 = BIndexed /\ atgt (state_of stale_history) 3 = [(Auto 2, 2)]
  /\ aname (state_of stale_history) 2 = User 5
  /\ comp_reads (fun _ => []) (state_of stale_history) 3 = [Auto 2]
  /\ comp_writes (fun _ => []) (state_of stale_history) 2 = [User 5]
  /\ comp_writes (fun _ => []) (state_of stale_history) 3 = [User 2].
Proof. vm_compute. auto 10. Qed.

(** C25: indexed assignment after define. *)
Definition twice_history : list op := [DeclareInput 1; Expr 0 [1]; CreateOutput 2; Define 3 2; Setitem 3 1 (Ok [0])].
Lemma twice_facts : results_of twice_history = [Ok 1; Ok 2; Ok 3; Ok 3; Ok 3]
  /\ abuild (state_of twice_history) 3 = BIndexed.
Proof. vm_compute. auto. Qed.

(** C10: an output never given a value. *)
Definition undefined_history : list op := [DeclareInput 1; CreateOutput 2; Expr 0 [1]; Register 3 3].
Lemma undefined_facts : results_of undefined_history = [Ok 1; Ok 2; Ok 3; Ok 3]
  /\ group_setup O set_list (fun n => n) 60 false (state_of undefined_history) = Some (Raise ValueError).
Proof. vm_compute. auto. Qed.
Lemma undefined_runs : run_ops O 60 api0 undefined_history = Some (state_of undefined_history, results_of undefined_history).
Proof. apply runs_ok. vm_compute. reflexivity. Qed.
Lemma undefined_schedulable : schedulable (fun n => n) (state_of undefined_history).
Proof. apply setup_check_ok; [exact (proj1 (proj1 (history_inv O 60 _ _ _ undefined_runs)))|vm_compute; reflexivity]. Qed.

(** C14 positive: two outputs of the same name. *)
Definition double_history : list op := [DeclareInput 1; Expr 0 [1]; Expr 1 [1]; Register 5 2; Register 5 3].
Lemma double_runs : run_ops O 60 api0 double_history = Some (state_of double_history, results_of double_history).
Proof. apply runs_ok. vm_compute. reflexivity. Qed.
Lemma double_schedulable : schedulable (fun n => n) (state_of double_history).
Proof. apply setup_check_ok; [exact (proj1 (proj1 (history_inv O 60 _ _ _ double_runs)))|vm_compute; reflexivity]. Qed.
Lemma double_facts :
  dep_on (adeps (state_of double_history)) root 2 /\ dep_on (adeps (state_of double_history)) root 3
  /\ aname (state_of double_history) 2 = aname (state_of double_history) 3
  /\ group_setup O set_list (fun n => n) 60 false (state_of double_history) = Some (Raise RuntimeError).
Proof.
  splits; try (apply dep_direct; vm_compute; tauto); vm_compute; reflexivity.
Qed.

(** C27: out used below expr, at the top and in a shared subexpression. *)
Definition recursive_history : list op := [DeclareInput 1; CreateOutput 2; Expr 0 [1; 2]; Expr 1 [3; 2]; Expr 2 [3]].
Lemma recursive_facts :
  run_ops O 60 api0 recursive_history = Some (state_of recursive_history, results_of recursive_history)
  /\ acyclic (adeps (state_of recursive_history)) /\ akind (state_of recursive_history) 2 = KExplicit
  /\ visible (state_of recursive_history) 4 = true /\ adefined (state_of recursive_history) 2 = false
  /\ map (adeps (state_of recursive_history)) [2; 3; 4; 5] = [[]; [1; 2]; [3; 2]; [3]]
  /\ map (adeps (state_of (recursive_history ++ [Define 2 4]))) [2; 3; 4; 5; 6] = [[4]; [1; 6]; [3; 6]; [3]; []].
Proof.
  assert (E : run_ops O 60 api0 recursive_history = Some (state_of recursive_history, results_of recursive_history)).
  { apply runs_ok. vm_compute. reflexivity. }
  split; [exact E|]. split.
  - apply ranks_acyclic; [exact (proj1 (proj1 (history_inv O 60 _ _ _ E)))|vm_compute; reflexivity].
  - vm_compute. auto.
Qed.

(** C28: residual 1 = f(out, 2), 2 = g(out, 3). *)
Definition skip_graph : nat -> list nat := fun n => nth n [[]; [0; 2]; [0; 3]; []] [].
Lemma skip_facts : finite_graph 4 skip_graph /\ simple_graph skip_graph /\ acyclic skip_graph
  /\ (forall fuel, 5 <= fuel -> exists d', residual_graph O fuel 0 1 4 skip_graph 0 = Some d'
      /\ dep_on d' 1 2 /\ In 0 (d' 2)).
Proof.
  splits.
  - intros u v. do 4 (destruct u as [|u]; [simpl; intuition lia|]). destruct u; simpl; tauto.
  - intros u. do 4 (destruct u as [|u]; [cbn; repeat constructor; simpl; intuition lia|]). destruct u; constructor.
  - apply ranked_acyclic with (fun n => match n with 1 => 2 | 2 => 1 | _ => 0 end).
    intros u v. do 4 (destruct u as [|u]; [simpl; intros; repeat match goal with H : _ \/ _ |- _ => destruct H end; subst; try contradiction; simpl; lia|]).
    destruct u; simpl; tauto.
  - intros fuel L. do 5 (destruct fuel as [|fuel]; [lia|]).
    assert (E : option_map (fun d' => (d' 1, d' 2)) (residual_graph O (S (S (S (S (S fuel))))) 0 1 4 skip_graph 0)
                = Some ([2; 4], [0; 3])) by (vm_compute; reflexivity).
    destruct (residual_graph _ _ _ _ _ _ _) as [d'|]; [|discriminate]. cbn [option_map] in E. injection E as E1 E2.
    exists d'. split; [reflexivity|]. split; [apply dep_direct; rewrite E1; now left|rewrite E2; now left].
Qed.
Lemma single_facts : let d := fun n => nth n [[]; [3; 2]; [0; 3]; []] [] in
  finite_graph 4 d /\ simple_graph d /\ acyclic d /\ d 0 = [] /\ dep_on d 1 0
  /\ (forall m v, In 0 (d m) -> In v (d m) -> ~ dep_on d v 0).
Proof.
  cbv zeta. set (d := fun n => nth n [[]; [3; 2]; [0; 3]; []] []).
  assert (LEAF : forall v, v = 0 \/ v = 3 -> ~ dep_on d v 0).
  { intros v [-> | ->] D; inversion D; contradiction. }
  splits.
  - intros u v. do 4 (destruct u as [|u]; [simpl; intuition lia|]). destruct u; simpl; tauto.
  - intros u. do 4 (destruct u as [|u]; [cbn; repeat constructor; simpl; intuition lia|]). destruct u; constructor.
  - apply ranked_acyclic with (fun n => match n with 1 => 2 | 2 => 1 | _ => 0 end).
    intros u v. do 4 (destruct u as [|u]; [simpl; intros; repeat match goal with H : _ \/ _ |- _ => destruct H end; subst; try contradiction; simpl; lia|]).
    destruct u; simpl; tauto.
  - reflexivity.
  - apply dep_step with 2; [simpl; tauto|]. apply dep_direct. simpl. tauto.
  - intros m v. do 4 (destruct m as [|m]; [simpl; intros; repeat match goal with H : _ \/ _ |- _ => destruct H end; subst; try contradiction; try discriminate; apply LEAF; auto|]).
    destruct m; simpl; tauto.
Qed.

(** The refutations in the form used by the property theorems. *)
Lemma clash_refutes : exists h st rs u v added, run_ops O 60 api0 h = Some (st, rs)
    /\ u <> v /\ aname st u = User 1 /\ aname st v = User 1
    /\ dep_on (adeps st) root u /\ dep_on (adeps st) root v
    /\ eventually (fun f => group_setup O set_list (fun n => n) f false st) (Ok added).
Proof.
  destruct clash_facts as (_ & F1 & F2 & F3).
  exists clash_history, (state_of clash_history), (results_of clash_history), 1, 3, [2; 3].
  split; [apply runs_ok; vm_compute; reflexivity|]. split; [lia|]. split; [exact F1|]. split; [exact F2|].
  split; [|split; [|exact (group_setup_eventually _ _ _ _ _ _ F3)]].
  - apply dep_step with 3; [vm_compute; tauto|]. apply dep_step with 2; [vm_compute; tauto|].
    apply dep_direct. vm_compute. tauto.
  - apply dep_direct. vm_compute. tauto.
Qed.

Lemma twice_refutes : exists h st rs out e e' k, run_ops O 60 api0 h = Some (st, rs)
    /\ returned h rs 3 (Define out e) out /\ returned h rs 4 (Setitem out e' k) out /\ e <> e'.
Proof.
  exists twice_history, (state_of twice_history), (results_of twice_history), 3, 2, 1, (Ok [0]).
  split; [apply runs_ok; vm_compute; reflexivity|].
  split; [split; vm_compute; reflexivity|]. split; [split; vm_compute; reflexivity|]. lia.
Qed.

Lemma skip_refutes : exists d, finite_graph 4 d /\ simple_graph d /\ acyclic d /\ d 0 = []
    /\ forall fuel, 5 <= fuel -> exists d', residual_graph O fuel 0 1 4 d 0 = Some d'
         /\ dep_on d' 1 2 /\ In 0 (d' 2).
Proof. destruct skip_facts as (A & B & C & D). exists skip_graph. splits; auto. Qed.

Lemma stale_refutes : exists h st rs added n a, run_ops O 60 api0 h = Some (st, rs)
    /\ eventually (fun f => group_setup O set_list (fun n => n) f false st) (Ok added)
    /\ uses_indexed st n a /\ akind st a <> KInput
    /\ exists x, comp_reads (fun _ => []) st n = [x] /\ x <> aname st a
         /\ forall m, In m added -> ~ In x (comp_writes (fun _ => []) st m).
Proof.
  destruct stale_facts as (_ & F1 & F2 & F3 & F4 & F5 & F6 & F7).
  exists stale_history, (state_of stale_history), (results_of stale_history), [2; 3], 3, 2.
  split; [apply runs_ok; vm_compute; reflexivity|].
  split; [exact (group_setup_eventually _ _ _ _ _ _ F1)|].
  split; [split; [exact F2|exists (Auto 2); rewrite F3; now left]|].
  split; [vm_compute; discriminate|].
  exists (Auto 2). split; [exact F5|]. split; [rewrite F4; discriminate|].
  intros m [<-|[<-|[]]]; [rewrite F6|rewrite F7]; intros [Q|[]]; discriminate.
Qed.

Lemma state_of_eq h st rs : run_ops O 60 api0 h = Some (st, rs) -> st = state_of h /\ rs = results_of h.
Proof. unfold state_of, results_of. intros ->. auto. Qed.

Lemma full_split :
  exists st1 st2 rs1 rs2, run_ops O 60 api0 (firstn 10 full_history) = Some (st1, rs1)
  /\ step O 60 st1 (AddSubsystem 5 0 true) = Some (st2, Ok 10)
  /\ run_ops O 60 st2 (skipn 11 full_history) = Some (state_of full_history, rs2)
  /\ adeps st1 root = [2; 6; 9] /\ returned (skipn 11 full_history) rs2 0 (DeclareInput 6) 11
  /\ dep_on (adeps (state_of full_history)) 12 11.
Proof.
  destruct (run_app O 60 (firstn 10 full_history) (AddSubsystem 5 0 true :: skipn 11 full_history)
    api0 _ _ full_runs) as (st1 & rs1 & rs2 & E1 & E2 & E3 & L).
  destruct (run_cons O _ _ _ _ _ _ E2) as (st2 & r & rs' & E4 & E5 & ->).
  destruct (state_of_eq _ _ _ E1) as [Q1 Q2].
  rewrite full_results, Q2 in E3.
  assert (Q3 : results_of (firstn 10 full_history) = firstn 10 (results_of full_history)) by (vm_compute; reflexivity).
  rewrite Q3, full_results in E3. cbn [firstn app] in E3. injection E3 as <- <-.
  exists st1, st2, rs1, [Ok 11; Ok 12; Ok 12].
  split; [exact E1|]. split; [exact E4|]. split; [exact E5|].
  split; [rewrite Q1; vm_compute; reflexivity|]. split; [split; reflexivity|]. apply dep_direct. vm_compute. tauto.
Qed.
