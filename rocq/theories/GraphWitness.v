(** Concrete graphs: counterexamples for wide nodes, and instances of the theorems. *)
From Verif Require Import PyBase PySet PySetProofs SpecGraph GraphLemmas Graph SpecSetup
  GraphSetup GraphTheorems.

Definition all_vars : nat -> kind := fun _ => KVar.
Definition yes : nat -> bool := fun _ => true.
Definition run_rows (kd : nat -> kind) rows fuel :=
  setup nodup_oracle set_list (fun n => n) kd fuel 0 false yes yes [] (fresh (adj rows)).

Lemma run_rows_eventually kd rows fuel r : run_rows kd rows fuel = Some r ->
  eventually (run_rows kd rows) r.
Proof.
  intros E. apply (eventually_from _ fuel); [|assumption].
  intros f1 f2 x E1 L. unfold run_rows in *. now apply (setup_mono _ _ _ _ _ _ _ _ _ _ _ _ E1).
Qed.

(** nine direct dependencies at one node, no more anywhere, no independent variables *)
Lemma nine_ok r : r = [1] \/ r = [1; 6] ->
  (exists N, finite_graph N (adj (nine_rows r))) /\ acyclic (adj (nine_rows r)) /\ simple_graph (adj (nine_rows r))
  /\ forall n, width (adj (nine_rows r)) [] n <= 9.
Proof.
  intros H.
  assert (K : rows_ok 0 (length (nine_rows r)) (nine_rows r) = true) by (destruct H as [-> | ->]; reflexivity).
  destruct (rows_ok_graph _ K) as (F & A & S). splits; auto.
  - now exists (length (nine_rows r)).
  - intros n. do 11 (destruct n as [|n]; [destruct H as [-> | ->]; vm_compute; lia|]).
    destruct H as [-> | ->]; destruct n; vm_compute; lia.
Qed.

Lemma nine_wrong_order : exists added rest,
  eventually (run_rows all_vars (nine_rows [1; 6])) (Ok (added, rest))
  /\ before added 1 6 /\ dep_on (adj (nine_rows [1; 6])) 1 6.
Proof.
  destruct (run_rows all_vars (nine_rows [1; 6]) 30) as [[[added rest]|e]|] eqn:E.
  - exists added, rest. splits.
    + now apply run_rows_eventually with 30.
    + apply is_before_sound.
      assert (X : match run_rows all_vars (nine_rows [1; 6]) 30 with
                  | Some (Ok (a, _)) => is_before a 1 6 | _ => false end = true)
        by (vm_compute; reflexivity).
      rewrite E in X. exact X.
    + apply dep_direct. vm_compute. tauto.
  - assert (X : match run_rows all_vars (nine_rows [1; 6]) 30 with
                | Some (Raise _) => true | _ => false end = false) by (vm_compute; reflexivity).
    rewrite E in X. discriminate.
  - assert (X : match run_rows all_vars (nine_rows [1; 6]) 30 with
                | None => true | _ => false end = false) by (vm_compute; reflexivity).
    rewrite E in X. discriminate.
Qed.

Lemma nine_type_error : eventually (run_rows all_vars (nine_rows [1])) (Raise TypeError).
Proof. apply run_rows_eventually with 30. vm_compute. reflexivity. Qed.

(** An instance of [graph_ok] with two independent variables, an output that is
    used by another one, and a redundant dependency (1 -> 5 next to 1 -> 3 -> 5). *)
Definition demo_rows : list (list nat) := [[1; 2; 6; 7]; [3; 5]; [3; 4]; [4; 5]; [6]; [6]; []; []].
Definition demo_kd : nat -> kind := fun n => if Nat.leb 6 n then KIndep else KVar.

Lemma demo_ok : graph_ok demo_kd 0 (adj demo_rows).
Proof. apply rows_graph_ok; vm_compute; reflexivity. Qed.

Lemma demo_reaches : dep_on (adj demo_rows) 0 3 /\ dep_on (adj demo_rows) 3 6.
Proof.
  split.
  - apply dep_step with 1; [vm_compute; tauto|]. apply dep_direct. vm_compute. tauto.
  - apply dep_step with 4; [vm_compute; tauto|]. apply dep_direct. vm_compute. tauto.
Qed.

Lemma demo_run :
  match run_rows demo_kd demo_rows 30 with
  | Some (Ok (added, _)) => added = [6; 7; 4; 5; 3; 1; 2]
  | _ => False
  end.
Proof. vm_compute. reflexivity. Qed.

(** A graph with a cycle 1 -> 2 -> 1 below the root. *)
Definition cyclic_rows : list (list nat) := [[1]; [2; 3]; [1]; []].

Lemma cyclic_demo : (exists N, finite_graph N (adj cyclic_rows)) /\ simple_graph (adj cyclic_rows)
  /\ (forall n, ~ In n (adj cyclic_rows n)) /\ (forall n, ~ In 0 (adj cyclic_rows n))
  /\ (forall n, width (adj cyclic_rows) [] n <= 8)
  /\ dep_on (adj cyclic_rows) 0 1 /\ dep_on (adj cyclic_rows) 1 1.
Proof.
  splits.
  - exists 4. intros u v H. do 4 (destruct u as [|u]; [vm_compute in H; lia|]).
    unfold adj, cyclic_rows in H. rewrite nth_overflow in H by (simpl; lia). contradiction.
  - intros n. do 4 (destruct n as [|n]; [vm_compute; repeat constructor; simpl; intuition lia|]).
    unfold adj, cyclic_rows. rewrite nth_overflow by (simpl; lia). constructor.
  - intros n H. do 4 (destruct n as [|n]; [vm_compute in H; lia|]).
    unfold adj, cyclic_rows in H. rewrite nth_overflow in H by (simpl; lia). contradiction.
  - intros n H. do 4 (destruct n as [|n]; [vm_compute in H; lia|]).
    unfold adj, cyclic_rows in H. rewrite nth_overflow in H by (simpl; lia). contradiction.
  - intros n. do 4 (destruct n as [|n]; [vm_compute; lia|]).
    unfold width, adj, cyclic_rows. rewrite nth_overflow by (simpl; lia). simpl. lia.
  - apply dep_direct. vm_compute. tauto.
  - apply dep_step with 2; [vm_compute; tauto|]. apply dep_direct. vm_compute. tauto.
Qed.

(** Wide nodes that are tidy: 1 is the sum of twelve inputs (3 - 14) and the
    output 2, which uses one of them too. *)
Definition wide_rows : list (list nat) := [[1]; 2 :: seq 3 12; [3]] ++ repeat [] 12.
Lemma wide_ok : graph_ok all_vars 0 (adj wide_rows).
Proof. apply rows_graph_ok; vm_compute; reflexivity. Qed.
Lemma wide_width : width (adj wide_rows) [] 1 = 13 /\ shortcuts (adj wide_rows) [] 1 = 1.
Proof. split; vm_compute; reflexivity. Qed.
Lemma wide_run :
  match run_rows all_vars wide_rows 80 with
  | Some (Ok (added, _)) => added = seq 4 11 ++ [3; 2; 1]
  | _ => False
  end.
Proof. vm_compute. reflexivity. Qed.

(** ... and a model with twelve independent variables (4 - 15), where 1 uses 2
    and 3, and 2 uses 3. *)
Definition many_rows : list (list nat) := [1 :: seq 4 12; [2; 3]; [3; 4]; [5; 6]] ++ repeat [] 12.
Definition many_kd : nat -> kind := fun n => if Nat.leb 4 n then KIndep else KVar.
Lemma many_ok : graph_ok many_kd 0 (adj many_rows).
Proof. apply rows_graph_ok; vm_compute; reflexivity. Qed.
Lemma many_width : width (adj many_rows) (indeps_of many_kd (adj many_rows) 0) 1 = 14
  /\ shortcuts (adj many_rows) (indeps_of many_kd (adj many_rows) 0) 1 = 1.
Proof. split; vm_compute; reflexivity. Qed.
Lemma many_run :
  match run_rows many_kd many_rows 80 with
  | Some (Ok (added, _)) => added = seq 4 12 ++ [3; 2; 1]
  | _ => False
  end.
Proof. vm_compute. reflexivity. Qed.
