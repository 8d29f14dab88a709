(** C114: ConditionalComponent cannot be set up. *)
From Verif Require Import PyBase PySet SpecGraph GraphLemmas Graph Replace GroupApi GroupApiProofs ApiCheck ApiTheorems ApiWitness Implicit ImplicitProofs Conditional.
Import ListNotations.

Lemma not_input st x : is_input st x = false <-> akind st x <> KInput.
Proof. unfold is_input. destruct (akind st x); split; congruence. Qed.

Theorem never_set_up O st shape out c t f : base st -> acyclic (adeps st) ->
  exists F, forall fuel, F <= fuel -> exists e, conditional_setup O fuel st shape out c t f = Some (Raise e) /\
    (e = ValueError <-> (forall x, In x [c; t; f] -> akind st x <> KInput) /\ shape t <> shape f) /\
    (e <> ValueError -> e = TypeError).
Proof.
  intros B AC.
  destruct (collect_total st c _ (v_fin st B) AC) as [F1 H1].
  destruct (collect_total st t _ (v_fin st B) AC) as [F2 H2].
  destruct (collect_total st f _ (v_fin st B) AC) as [F3 H3].
  exists (F1 + F2 + F3). intros fuel HF. unfold conditional_setup.
  destruct (is_input st c) eqn:Ec; [|destruct (is_input st t) eqn:Et; [|destruct (is_input st f) eqn:Ef]].
  1-3: exists TypeError; splits; [reflexivity| |reflexivity]; split; [discriminate|]; intros [K _]; exfalso.
  - apply (K c); [cbn; tauto|]. unfold is_input in Ec. now destruct (akind st c).
  - apply (K t); [cbn; tauto|]. unfold is_input in Et. now destruct (akind st t).
  - apply (K f); [cbn; tauto|]. unfold is_input in Ef. now destruct (akind st f).
  - apply not_input in Ec, Et, Ef.
    assert (K : forall x, In x [c; t; f] -> akind st x <> KInput) by (intros x [<-|[<-|[<-|[]]]]; assumption).
    destruct (list_eq_dec Nat.eq_dec (shape t) (shape f)) as [E|E]; cbn [negb].
    + destruct (collect_input_exprs fuel st c c []) eqn:C1; [|exfalso; apply (H1 fuel c []); [lia|assumption]].
      destruct (collect_input_exprs fuel st t t []) eqn:C2; [|exfalso; apply (H2 fuel t []); [lia|assumption]].
      destruct (collect_input_exprs fuel st f f []) eqn:C3; [|exfalso; apply (H3 fuel f []); [lia|assumption]].
      exists TypeError. splits; [reflexivity| |reflexivity]. split; [discriminate|]. now intros [_ N].
    + exists ValueError. splits; [reflexivity| |congruence]. tauto.
Qed.

Theorem conditional_never O n h st rs shape out c t f : run_ops O n api0 h = Some (st, rs) -> acyclic (adeps st) ->
  exists F, forall fuel, F <= fuel -> exists e, conditional_setup O fuel st shape out c t f = Some (Raise e) /\
    (e = ValueError <-> (forall x, In x [c; t; f] -> akind st x <> KInput) /\ shape t <> shape f) /\
    (e <> ValueError -> e = TypeError).
Proof. intros E. apply never_set_up. exact (proj1 (proj1 (history_inv O n _ _ _ E))). Qed.

(** a = f(x), b = g(x), c = h(x) for an input x: three expressions of the same shape *)
Definition three : list op := [DeclareInput 1; GroupApi.Expr 1 [1]; GroupApi.Expr 2 [1]; GroupApi.Expr 3 [1]].
Example conditional_case :
  run_ops ApiWitness.O 60 api0 three = Some (state_of three, results_of three) /\ acyclic (adeps (state_of three)) /\
  results_of three = [Ok 1; Ok 2; Ok 3; Ok 4] /\ map (akind (state_of three)) [2; 3; 4] = [KVar; KVar; KVar] /\
  forall out, conditional_setup ApiWitness.O 10 (state_of three) (fun _ => [1]) out 2 3 4 = Some (Raise TypeError).
Proof.
  assert (E : run_ops ApiWitness.O 60 api0 three = Some (state_of three, results_of three)).
  { apply runs_ok. vm_compute. reflexivity. }
  split; [exact E|]. split.
  - apply ranks_acyclic; [exact (proj1 (proj1 (history_inv ApiWitness.O 60 _ _ _ E)))|vm_compute; reflexivity].
  - splits; [vm_compute; reflexivity|vm_compute; reflexivity|]. intros out. vm_compute. reflexivity.
Qed.
