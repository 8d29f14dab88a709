(** The group that computes exp(exp(y)) used as a subsystem of another group. *)
From Coq Require Import Reals Lra Lia Arith List Bool.
From Verif Require Import PyBase PySet SpecGraph GraphLemmas Graph SpecSetup Replace GroupApi SpecApi
  GroupApiProofs GroupApiAcyclic GroupApiShape Run SpecRun RunProofs GroupApiHistory ApiTheorems ApiCheck ApiWitness.
From Verif Require Import RSum NdArray Component JacSpec SpecNorm SpecExtremum SpecTotal TotalCalc CompElem StdCalls
  SpecDeriv SpecStd TotalMain DerivMain DerivExample SpecAdjoint BisectProofs SpecTotals InternalExample
  Nested SpecNested NestedProofs.
Import ListNotations.
Local Open Scope R_scope.

(** x is the variable [User 1]; the inner group gives [User 2] and the outer one [User 7];
    the object 4 of the outer group and its variable are unrelated to the inner ones *)
Definition tower_inner : inner :=
  Inner (fun _ => exp_comp) (fun _ => nothing) (fun _ => nothing) (fun _ => []) no_names no_names one_entry
    tower [2; 3]%nat (fun _ _ => 0) (fun _ _ => 0) [User 1].
Definition outer_history : list op :=
  [DeclareInput 1; AddSubsystem 5 0 true; DeclareInput 2; GroupApi.Expr 0 [3]; Register 7 4]%nat.
Definition outer : api := state_of outer_history.
Definition outer_reads (k : nat) : list name := [User 1].
Definition outer_writes (k : nat) : list name := [User 2].

Lemma outer_runs : run_ops O 60 api0 outer_history = Some (outer, results_of outer_history).
Proof. apply runs_ok. vm_compute. reflexivity. Qed.
Lemma outer_schedulable : schedulable (fun n => n) outer.
Proof. apply setup_check_ok; [exact (proj1 (proj1 (history_inv O 60 _ _ _ outer_runs)))|vm_compute; reflexivity]. Qed.
Lemma outer_labels : labels_distinct outer.
Proof. apply labels_check_ok. vm_compute. reflexivity. Qed.
Lemma outer_reference : throughout O no_self_reference 60 api0 outer_history.
Proof. apply reference_check_ok. vm_compute. reflexivity. Qed.
Lemma outer_names : SpecRun.names_ok outer_reads outer_writes outer.
Proof.
  apply names_check_ok; [|vm_compute; reflexivity]. intros n L.
  destruct (history_inv O _ _ _ _ outer_runs) as [_ S]. now apply (s_fresh _ S).
Qed.
Lemma outer_results : results_of outer_history = [Ok 1; Ok 2; Ok 3; Ok 4; Ok 4]%nat.
Proof. vm_compute. reflexivity. Qed.
Lemma outer_given : forall out, created_output outer_history (results_of outer_history) out ->
  exists i, given_value outer_history (results_of outer_history) i out.
Proof.
  rewrite outer_results. intros out (i & s & H1 & H2).
  do 5 (destruct i as [|i]; [cbn in H1, H2; discriminate H1|]). cbn in H1. destruct i; discriminate.
Qed.
Lemma outer_setup : group_setup O set_list (fun n => n) 60 false outer = Some (Ok [2; 4]%nat).
Proof. vm_compute. reflexivity. Qed.

Lemma outer_described : described outer_reads outer_writes outer [2; 4]%nat.
Proof.
  exists O, (fun n => n), false, 60%nat, outer_history, (results_of outer_history). splits.
  - exact outer_runs.
  - exact outer_reference.
  - exact (proj1 (proj2 outer_schedulable)).
  - exact (proj2 (proj2 outer_schedulable)).
  - exact outer_given.
  - exact outer_labels.
  - exact outer_names.
  - apply (group_setup_eventually _ _ _ _ 60). exact outer_setup.
Qed.

Lemma tower_inner_ok : inner_ok tower_inner.
Proof.
  constructor; cbn [in_table in_asm in_part in_subs in_reads in_writes in_shape in_state in_added in_inputs tower_inner].
  - exists O, (fun n => n), false, 60%nat, tower_history, (results_of tower_history). splits.
    + exact tower_runs.
    + exact tower_reference.
    + exact (proj1 (proj2 tower_schedulable)).
    + exact (proj2 (proj2 tower_schedulable)).
    + exact tower_given.
    + exact tower_labels.
    + exact tower_names.
    + apply (group_setup_eventually _ _ _ _ 60). exact tower_setup.
  - reflexivity.
  - exact (like_sizes tower tower_like).
  - constructor; [intros []|constructor].
  - exact (like_unwritten tower tower_like).
Qed.

(** what is needed of the outer state *)
Record outer_like (st : api) : Prop := {
  ol_build : map (abuild st) [0; 1; 2; 3; 4]%nat = [NoBuild; NoBuild; BSub 0 true; NoBuild; BExpr 0 [3%nat]];
  ol_name : map (aname st) [3; 4]%nat = [User 2; User 7];
  ol_fresh : forall n, (5 <= n)%nat -> abuild st n = NoBuild;
  ol_dep : dep_on (adeps st) root 2 /\ dep_on (adeps st) root 4
}.
Lemma outer_is_like : outer_like outer.
Proof.
  pose proof (proj2 (history_inv O 60 _ _ _ outer_runs) : GroupApiShape.shape outer) as SH.
  assert (AN : Nat.leb (anext outer) 5 = true) by (vm_compute; reflexivity). apply Nat.leb_le in AN.
  constructor; try (vm_compute; reflexivity).
  - intros n L. apply (GroupApiShape.s_fresh _ SH). lia.
  - assert (A : dep_on (adeps outer) root 4) by (apply dep_direct; vm_compute; tauto). split; [|exact A].
    apply dep_on_trans with 4%nat; [exact A|]. apply dep_on_trans with 3%nat; apply dep_direct; vm_compute; tauto.
Qed.

Section Like.
Variable st : api.
Hypothesis LK : outer_like st.

Lemma outer_builds : abuild st 0 = NoBuild /\ abuild st 1 = NoBuild /\ abuild st 2 = BSub 0 true /\ abuild st 3 = NoBuild
  /\ abuild st 4 = BExpr 0 [3%nat].
Proof. pose proof (ol_build _ LK) as B. cbn in B. now injection B. Qed.
Lemma outer_name : aname st 3 = User 2 /\ aname st 4 = User 7.
Proof. pose proof (ol_name _ LK) as B. cbn in B. now injection B. Qed.
Lemma outer_cases n : abuild st n <> NoBuild -> n = 2%nat \/ n = 4%nat.
Proof.
  intros H. destruct outer_builds as (B0 & B1 & _ & B3 & _). destruct (Nat.lt_ge_cases n 5) as [L|L].
  - destruct n as [|[|[|[|[|n]]]]]; auto; try contradiction; lia.
  - now rewrite (ol_fresh _ LK n L) in H.
Qed.

Variable c : component.
Hypothesis SF : stands_for_output tower_inner (User 2) c.
Local Notation ids := (fun _ : nat => exp_comp).
Local Notation no := (fun _ : nat => nothing).

Lemma outer_sizes : sizes_agree ids no no (fun _ => [c]) outer_reads outer_writes one_entry st.
Proof.
  destruct outer_builds as (B0 & B1 & B2 & B3 & B4). intros n D _.
  unfold comp_writes, comp_reads, parts_of.
  destruct (abuild st n) eqn:E; try (destruct (outer_cases n ltac:(congruence)); subst n; congruence).
  - constructor.
  - destruct (outer_cases n ltac:(congruence)); subst n; rewrite ?B2, ?B4 in E; try discriminate. injection E as <- <-.
    constructor; [exact exp_sizes|constructor].
  - constructor; [|constructor]. rewrite (sf_out _ _ _ SF), (sf_ins _ _ _ SF). split; reflexivity.
Qed.

Lemma outer_groups : forall n k g, dep_on (adeps st) root n -> abuild st n = BSub k g ->
  inner_ok tower_inner /\ outer_reads k = in_inputs tower_inner /\
  (forall x, In x (outer_reads k) -> in_shape tower_inner x = one_entry x) /\
  Forall2 (stands_for_output tower_inner) (outer_writes k) [c].
Proof.
  intros n k g _ _. splits; [exact tower_inner_ok|reflexivity|reflexivity|]. constructor; [exact SF|constructor].
Qed.

Lemma outer_chained fin : chained ids no no (fun _ => []) outer_reads one_entry st fin.
Proof.
  destruct outer_builds as (B0 & B1 & B2 & B3 & B4). intros n c' D H. exists everywhere. split; [|exact I].
  unfold parts_of in H.
  destruct (abuild st n) eqn:E; try (destruct (outer_cases n ltac:(congruence)); subst n; congruence); try destruct H.
  - subst c'. exact exp_chain.
  - contradiction.
Qed.

Lemma outer_tangent fin T Ti s : fin (User 1) 0%nat = s ->
  all_rates ids no no outer_reads outer_writes one_entry st (fun _ => tower_inner) fin (fun _ _ => 1) still T Ti ->
  T (User 7) 0%nat = exp (fin (User 2) 0%nat) * (exp (exp s) * exp s).
Proof.
  intros F AR. destruct outer_builds as (B0 & B1 & B2 & B3 & B4). destruct outer_name as (N3 & N4).
  destruct (ol_dep _ LK) as [D2 D4].
  assert (E1 : T (User 1) 0%nat = 1).
  { rewrite (ar_given _ _ _ _ _ _ _ _ _ _ _ _ _ AR); [reflexivity| |cbn; lia].
    intros (n & _ & H). destruct (outer_cases n) as [-> | ->].
    - intros E. unfold comp_writes in H. rewrite E in H. exact H.
    - unfold comp_writes in H. rewrite B2 in H. destruct H as [H|[]]. discriminate.
    - unfold comp_writes in H. rewrite B4, N4 in H. destruct H as [H|[]]. discriminate. }
  destruct (ar_group _ _ _ _ _ _ _ _ _ _ _ _ _ AR 2%nat 0%nat true D2 B2) as [IR EQ].
  assert (E2 : T (User 2) 0%nat = exp (exp s) * exp s).
  { rewrite (EQ (User 2) 0%nat) by (cbn; auto). clear EQ.
    unfold inner_rates in IR. cbn [in_table in_asm in_part in_subs in_reads in_writes in_shape in_state in_added in_inputs tower_inner] in IR.
    pose proof tower_like as LT. revert IR. unfold inner_pass.
    cbn [in_table in_asm in_part in_subs in_reads in_writes in_shape in_state in_added in_ind tower_inner].
    assert (FD : fed tower_inner (args (map fin (outer_reads 0))) (User 1) 0%nat = s) by exact F.
    revert LT. generalize tower as st'. intros st' LT IR.
    destruct (like_pass st' LT (fun _ _ => 0) (fed tower_inner (args (map fin (outer_reads 0))))) as (P1 & _ & P3).
    rewrite FD in P1. apply (f_equal (fun v : values => v 0%nat)) in P3. rewrite FD in P3.
    apply (solves_rates _ _ _ _ _ _ _ _ _ _ (seed_name (User 1) 0)) in IR.
    - apply (like_solution st' LT) in IR. exact (eq_trans IR (f_equal2 (fun a b => exp a * exp b) P1 P3)).
    - intros z i Hz Hi. unfold seed_name. cbn [position].
      destruct (name_eqb z (User 1)) eqn:EZ; [|reflexivity].
      cbn in Hi. assert (i = 0%nat) as -> by lia. exact E1 || (symmetry; exact E1). }
  assert (E4 := ar_comp _ _ _ _ _ _ _ _ _ _ _ _ _ AR 4%nat 0%nat (User 7) exp_comp 0%nat D4).
  unfold comp_writes, comp_reads, parts_of in E4. rewrite B4 in E4. cbn [map] in E4. rewrite N3, N4 in E4.
  specialize (E4 ltac:(intros; discriminate) eq_refl eq_refl ltac:(cbn; lia)). rewrite exp_applied, E2 in E4. exact E4.
Qed.
End Like.

(** the derivative of exp(exp(exp(x))), the two inner exponentials in the inner group *)
Example nested_case : exists c, stands_for_output tower_inner (User 2) c /\
  let pass := pass (fun _ => exp_comp) (fun _ => nothing) (fun _ => nothing) (fun _ => [c]) outer_reads outer_writes outer [2; 4]%nat in
  forall ind x,
    pass ind (fun _ _ => x) (User 2) 0%nat = exp (exp x) /\
    derivable_pt_lim (fun t => pass ind (fun _ _ => t) (User 7) 0%nat) x (exp (exp (exp x)) * (exp (exp x) * exp x)).
Proof.
  destruct (output_exists tower_inner tower_inner_ok (User 2)) as [c SF]. exists c. split; [exact SF|]. intros pass ind x.
  pose proof outer_is_like as LK. pose proof outer_described as DE.
  assert (SL : forall k : nat, length [c] = length (outer_writes k)) by reflexivity.
  assert (SA := outer_sizes outer LK c SF). assert (GR := outer_groups outer c SF).
  assert (V1 : pass ind (fun _ _ => x) (User 1) 0%nat = x).
  { unfold pass.
    destruct (outer_builds _ LK) as (B0 & B1 & B2 & B3 & B4). destruct (outer_name _ LK) as (N3 & N4).
    revert B2 B4 N3 N4. clear. generalize outer as st. intros st B2 B4 N3 N4.
    unfold SpecDeriv.pass, run_model. cbn [fold_left]. unfold run_comp, comp_writes, comp_outputs, comp_reads.
    rewrite B2, B4. cbn [map]. rewrite N3, N4. reflexivity. }
  assert (V2 : pass ind (fun _ _ => x) (User 2) 0%nat = exp (exp x)).
  { unfold pass.
    rewrite (group_values (fun _ => exp_comp) (fun _ => nothing) (fun _ => nothing) (fun _ => [c]) outer_reads outer_writes one_entry
      outer [2; 4]%nat (fun _ => tower_inner) DE SL SA GR ind (fun _ _ => x) 2%nat 0%nat true (User 2) 0%nat
      (proj1 (ol_dep _ LK)) (proj1 (proj2 (proj2 (outer_builds _ LK))))); [|now left|cbn; lia].
    unfold inner_pass. cbn [in_table in_asm in_part in_subs in_reads in_writes in_shape in_state in_added in_ind tower_inner].
    destruct (like_pass tower tower_like (fun _ _ => 0) (fed tower_inner (args (map (pass ind (fun _ _ => x)) (outer_reads 0))))) as (_ & P2 & _).
    unfold pass in P2. rewrite P2. unfold fed. cbn [position in_inputs tower_inner name_eqb Nat.eqb outer_reads map args nth].
    exact (f_equal (fun v => exp (exp v)) V1). }
  split; [exact V2|].
  destruct (nested_derivatives (fun _ => exp_comp) (fun _ => nothing) (fun _ => nothing) (fun _ => [c]) outer_reads outer_writes one_entry
    outer [2; 4]%nat (fun _ => tower_inner) DE SL SA GR (fun t _ _ => t) (fun _ => ind) x (fun _ _ => 1) still) as [[T [Ti AR]] K].
  - split.
    + intros y j _ Hj. apply derivable_pt_lim_id.
    + intros n nm j D E. exfalso. destruct (outer_builds _ LK) as (B0 & B1 & B2 & B3 & B4).
      destruct (outer_cases _ LK n ltac:(congruence)); subst n; congruence.
  - exact (outer_chained outer LK _).
  - intros n k g _ _. exact (like_chained tower tower_like _).
  - destruct (K T Ti AR) as [K1 _]. specialize (K1 (User 7) 0%nat ltac:(cbn; lia)).
    assert (EQ := outer_tangent outer LK (pass ind (fun _ _ => x)) T Ti x V1 AR). rewrite V2 in EQ. rewrite EQ in K1. exact K1.
Qed.
