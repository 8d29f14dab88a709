(** Setup started later: the answers of the oracle before that do not matter. *)
From Verif Require Import PyBase PySet Graph GraphEdges GraphRegister.
Import ListNotations.

Definition oracle_from (t : nat) (O : oracle) : oracle.
Proof.
  refine {| ord := fun n l => O (t + n) l |}; intros; [apply ord_nodup|apply ord_in].
Defined.

Section Tick.
Variables (O : oracle) (iset : list nat -> list nat) (uid : nat -> nat) (kd : nat -> kind) (t : nat).
Notation L := (oracle_from t O).
Definition ahead (s : gstate) : gstate := GS (deps s) (dependents s) (visited s) (dag_cost s) (t + tick s).

Lemma ahead_dependency s n v : add_dependency_node O (ahead s) n v = ahead (add_dependency_node L s n v).
Proof. unfold add_dependency_node, ahead. cbn. now rewrite Nat.add_succ_r. Qed.
Lemma ahead_dependent s n v : add_dependent_node O (ahead s) n v = ahead (add_dependent_node L s n v).
Proof. unfold add_dependent_node, ahead. cbn. now rewrite Nat.add_succ_r. Qed.

Lemma ahead_indep r : forall ns s, add_indep_edges O kd r ns (ahead s) = ahead (add_indep_edges L kd r ns s).
Proof.
  unfold add_indep_edges. induction ns as [|n ns IH]; intros s; cbn [fold_left]; [reflexivity|].
  rewrite <- IH. f_equal. cbn [ahead deps]. generalize (deps s r) as l. intros l. revert s.
  induction l as [|i l IHl]; intros s; cbn [fold_left]; [reflexivity|].
  rewrite <- IHl. f_equal. destruct (is_indep (kd i)); [|reflexivity]. destruct (negb _); [|reflexivity].
  apply ahead_dependency.
Qed.

Lemma ahead_prune : forall ns s,
  fold_left (remove_indirect_dependencies iset) ns (ahead s) = ahead (fold_left (remove_indirect_dependencies iset) ns s).
Proof. induction ns as [|n ns IH]; intros s; cbn [fold_left]; [reflexivity|]. now rewrite <- IH. Qed.

Lemma ahead_fwd : forall fuel self s,
  add_fwd_edges O fuel self (ahead s) = option_map ahead (add_fwd_edges L fuel self s).
Proof.
  induction fuel as [|f IH]; intros self s; [reflexivity|]. rewrite !fwd_unfold.
  change (deps (ahead s) self) with (deps s self). generalize (deps s self) as ds. intros ds. revert s.
  induction ds as [|w ds IHds]; intros s; cbn [fwd_loop]; [reflexivity|].
  rewrite ahead_dependent, IH. destruct (add_fwd_edges L f w _) as [s2|]; [apply IHds|reflexivity].
Qed.

Lemma ahead_cost : forall fuel self s,
  compute_dag_cost fuel self (ahead s) = option_map ahead (compute_dag_cost fuel self s).
Proof.
  induction fuel as [|f IH]; intros self s; [reflexivity|]. rewrite !cost_unfold.
  change (deps (ahead s) self) with (deps s self). generalize (deps s self) as ds. intros ds. revert s.
  induction ds as [|w ds IHds]; intros s; cbn [cost_loop]; [reflexivity|].
  rewrite IH. destruct (compute_dag_cost f w s) as [s2|]; [|reflexivity]. cbn [option_map]. rewrite <- IHds. reflexivity.
Qed.

Lemma ahead_sort reverse : forall ns s,
  fold_left (sort_dependency_branches reverse) ns (ahead s) = ahead (fold_left (sort_dependency_branches reverse) ns s).
Proof. induction ns as [|n ns IH]; intros s; cbn [fold_left]; [reflexivity|]. now rewrite <- IH. Qed.

Lemma ahead_loop s : forall fuel stack vis sorted, topo_loop fuel stack vis sorted (ahead s) = topo_loop fuel stack vis sorted s.
Proof.
  induction fuel as [|f IH]; intros [|v stack] vis sorted; cbn [topo_loop]; try reflexivity.
  cbn [ahead dependents deps]. destruct (Nat.leb _ _); apply IH.
Qed.

Definition ahead_result (x : res (list (nat * nat) * list nat * gstate)) :=
  match x with Ok (nodes, l, s) => Ok (nodes, l, ahead s) | Raise e => Raise e end.

Lemma setup_ahead fuel r reverse nodes0 s :
  setup_graph O iset uid kd fuel r reverse nodes0 (ahead s)
  = option_map ahead_result (setup_graph L iset uid kd fuel r reverse nodes0 s).
Proof.
  unfold setup_graph. change (deps (ahead s)) with (deps s).
  destruct (register_nodes uid fuel (deps s) r nodes0) as [[nodes|e]|]; [|reflexivity|reflexivity].
  rewrite ahead_indep, ahead_prune, ahead_fwd.
  destruct (add_fwd_edges L fuel r _) as [s3|]; [|reflexivity]. cbn [option_map].
  change (dependents (ahead s3)) with (dependents s3).
  destruct (existsb _ (map snd nodes)); [reflexivity|]. rewrite ahead_cost.
  destruct (compute_dag_cost fuel r s3) as [s4|]; [|reflexivity]. cbn [option_map]. rewrite ahead_sort.
  unfold topological_sort. rewrite ahead_loop. cbn [ahead visited deps dependents dag_cost tick].
  destruct (topo_loop _ _ _ _ _) as [[l vis]|]; reflexivity.
Qed.
End Tick.
