(** A residual exp(exp(y)), and a derivative taken at values of different calls. *)
From Coq Require Import Reals Lra Lia Arith List Bool.
From Verif Require Import PyBase PySet SpecGraph GraphLemmas Graph SpecSetup Replace GroupApi SpecApi
  GroupApiProofs GroupApiAcyclic GroupApiShape Run SpecRun RunProofs GroupApiHistory ApiTheorems ApiCheck ApiWitness.
From Verif Require Import RSum NdArray Component JacSpec SpecNorm SpecExtremum SpecTotal TotalCalc CompElem StdCalls
  SpecDeriv SpecStd TotalMain DerivMain DerivExample SpecAdjoint BisectProofs SpecTotals InternalProblem SpecInternal InternalProofs.
Import ListNotations.
Local Open Scope R_scope.

(** y is the variable [User 1], the residual [User 2] *)
Definition tower_history : list op := [DeclareInput 1; GroupApi.Expr 0 [1]; GroupApi.Expr 0 [2]; Register 2 3]%nat.
Definition tower : api := state_of tower_history.
Definition exp_comp : component := comp_of (KElem Exp (ex_one 1)).
Definition no_names (k : nat) : list name := [].
Definition one_entry (x : name) : list nat := [1%nat].
Local Notation tpass := (pass (fun _ => exp_comp) (fun _ => nothing) (fun _ => nothing) (fun _ => []) no_names no_names).
Local Notation tsolves := (solves (fun _ => exp_comp) (fun _ => nothing) (fun _ => nothing) (fun _ => []) no_names no_names one_entry).

Lemma tower_runs : run_ops O 60 api0 tower_history = Some (tower, results_of tower_history).
Proof. apply runs_ok. vm_compute. reflexivity. Qed.
Lemma tower_schedulable : schedulable (fun n => n) tower.
Proof. apply setup_check_ok; [exact (proj1 (proj1 (history_inv O 60 _ _ _ tower_runs)))|vm_compute; reflexivity]. Qed.
Lemma tower_labels : labels_distinct tower.
Proof. apply labels_check_ok. vm_compute. reflexivity. Qed.
Lemma tower_reference : throughout O no_self_reference 60 api0 tower_history.
Proof. apply reference_check_ok. vm_compute. reflexivity. Qed.
Lemma tower_names : SpecRun.names_ok no_names no_names tower.
Proof.
  apply names_check_ok; [|vm_compute; reflexivity]. intros n L.
  destruct (history_inv O _ _ _ _ tower_runs) as [_ S]. now apply (s_fresh _ S).
Qed.
Lemma tower_results : results_of tower_history = [Ok 1; Ok 2; Ok 3; Ok 3]%nat.
Proof. vm_compute. reflexivity. Qed.
Lemma tower_given : forall out, created_output tower_history (results_of tower_history) out ->
  exists i, given_value tower_history (results_of tower_history) i out.
Proof.
  rewrite tower_results. intros out (i & s & H1 & H2).
  do 4 (destruct i as [|i]; [cbn in H1, H2; discriminate H1|]). cbn in H1. destruct i; discriminate.
Qed.
Lemma tower_setup : group_setup O set_list (fun n => n) 60 false tower = Some (Ok [2; 3]%nat).
Proof. vm_compute. reflexivity. Qed.

(** what the theorems need to know about the state *)
Record like (st : api) : Prop := {
  lk_build : map (abuild st) [0; 1; 2; 3]%nat = [NoBuild; NoBuild; BExpr 0 [1%nat]; BExpr 0 [2%nat]];
  lk_name : map (aname st) [1; 2; 3]%nat = [User 1; Auto 2; User 2];
  lk_fresh : forall n, (4 <= n)%nat -> abuild st n = NoBuild;
  lk_dep : dep_on (adeps st) root 2 /\ dep_on (adeps st) root 3
}.
Lemma tower_like : like tower.
Proof.
  pose proof (proj2 (history_inv O 60 _ _ _ tower_runs) : GroupApiShape.shape tower) as SH.
  assert (AN : Nat.leb (anext tower) 4 = true) by (vm_compute; reflexivity). apply Nat.leb_le in AN.
  constructor; try (vm_compute; reflexivity).
  - intros n L. apply (GroupApiShape.s_fresh _ SH). lia.
  - assert (A : dep_on (adeps tower) root 3) by (apply dep_direct; vm_compute; tauto). split; [|exact A].
    apply dep_on_trans with 3%nat; [exact A|]. apply dep_direct. vm_compute. tauto.
Qed.

Lemma exp_value v : computed exp_comp [v] 0%nat = exp (v 0%nat).
Proof. reflexivity. Qed.
Lemma exp_applied v d : applied exp_comp (args [v]) (args [d]) 0%nat = exp (v 0%nat) * d 0%nat.
Proof.
  unfold applied, along. cbn. unfold coo_entry. cbn. lra.
Qed.
Lemma exp_sizes : has_sizes exp_comp 1 [1%nat].
Proof. split; reflexivity. Qed.
Lemma exp_chain : chain_rule everywhere exp_comp.
Proof.
  pose proof (comp_of_documented _ _ _ (elementary Exp (ex_one 1) ltac:(left; split; discriminate))) as H.
  intros g d t0 M _. apply H; [exact M|]. now intros i Hi.
Qed.

Section Like.
Variable st : api.
Hypothesis LK : like st.

Lemma like_builds : abuild st 0 = NoBuild /\ abuild st 1 = NoBuild /\ abuild st 2 = BExpr 0 [1%nat] /\ abuild st 3 = BExpr 0 [2%nat].
Proof. pose proof (lk_build _ LK) as B. cbn in B. now injection B. Qed.
Lemma like_names : aname st 1 = User 1 /\ aname st 2 = Auto 2 /\ aname st 3 = User 2.
Proof. pose proof (lk_name _ LK) as B. cbn in B. now injection B. Qed.

Lemma like_cases n : abuild st n <> NoBuild -> n = 2%nat \/ n = 3%nat.
Proof.
  intros H. destruct like_builds as (B0 & B1 & _). destruct (Nat.lt_ge_cases n 4) as [L|L].
  - destruct n as [|[|[|[|n]]]]; auto; try contradiction; lia.
  - now rewrite (lk_fresh _ LK n L) in H.
Qed.

Lemma like_writes n x : In x (comp_writes no_names st n) <->
  n = 2%nat /\ x = Auto 2 \/ n = 3%nat /\ x = User 2.
Proof.
  destruct like_builds as (B0 & B1 & B2 & B3). destruct like_names as (N1 & N2 & N3). split.
  - intros H. destruct (like_cases n) as [-> | ->].
    + intros E. unfold comp_writes in H. now rewrite E in H.
    + unfold comp_writes in H. rewrite B2, N2 in H. destruct H as [<-|[]]. now left.
    + unfold comp_writes in H. rewrite B3, N3 in H. destruct H as [<-|[]]. now right.
  - intros [[-> ->]|[-> ->]]; unfold comp_writes; rewrite ?B2, ?N2, ?B3, ?N3; now left.
Qed.
Lemma like_written x : written no_names st x <-> x = Auto 2 \/ x = User 2.
Proof.
  split.
  - intros (n & _ & H). apply like_writes in H. tauto.
  - intros [-> | ->]; [exists 2%nat|exists 3%nat]; (split; [apply (lk_dep _ LK)|apply like_writes; tauto]).
Qed.
Lemma like_unwritten x : In x [User 1] -> ~ written no_names st x.
Proof. intros [<-|[]] H. apply like_written in H. destruct H; discriminate. Qed.

Lemma like_sizes : sizes_agree (fun _ => exp_comp) (fun _ => nothing) (fun _ => nothing) (fun _ => []) no_names no_names one_entry st.
Proof.
  destruct like_builds as (B0 & B1 & B2 & B3). intros n D _.
  unfold comp_writes, comp_reads, parts_of.
  destruct (abuild st n) eqn:E; try (destruct (like_cases n ltac:(congruence)); subst n; congruence).
  - constructor.
  - destruct (like_cases n ltac:(congruence)); subst n; rewrite ?B2, ?B3 in E; injection E as <- <-;
      (constructor; [exact exp_sizes|constructor]).
Qed.
Lemma like_chained fin : chained (fun _ => exp_comp) (fun _ => nothing) (fun _ => nothing) (fun _ => []) no_names one_entry st fin.
Proof.
  destruct like_builds as (B0 & B1 & B2 & B3). intros n c D H. exists everywhere. split; [|exact I].
  unfold parts_of in H.
  destruct (abuild st n) eqn:E; try (destruct (like_cases n ltac:(congruence)); subst n; congruence).
  - destruct H.
  - destruct H as [<-|[]]. exact exp_chain.
Qed.

Lemma like_pass ind s : tpass st [2; 3]%nat ind s (Auto 2) 0%nat = exp (s (User 1) 0%nat)
  /\ tpass st [2; 3]%nat ind s (User 2) 0%nat = exp (exp (s (User 1) 0%nat))
  /\ tpass st [2; 3]%nat ind s (User 1) = s (User 1).
Proof.
  destruct like_builds as (B0 & B1 & B2 & B3). destruct like_names as (N1 & N2 & N3).
  unfold pass, run_model. cbn [fold_left]. unfold run_comp, comp_writes, comp_outputs, comp_reads.
  rewrite B2, B3. cbn [map]. rewrite N1, N2, N3. splits; reflexivity.
Qed.

Lemma like_solution fin T : tsolves st fin (seed_name (User 1) 0) still T ->
  T (User 2) 0%nat = exp (fin (Auto 2) 0%nat) * exp (fin (User 1) 0%nat).
Proof.
  destruct like_builds as (B0 & B1 & B2 & B3). destruct like_names as (N1 & N2 & N3). destruct (lk_dep _ LK) as [D2 D3].
  intros H.
  assert (E1 : T (User 1) 0%nat = 1).
  { rewrite (sv_given _ _ _ _ _ _ _ _ _ _ _ _ H (User 1) 0%nat); [reflexivity| |cbn; lia]. apply like_unwritten. now left. }
  assert (E2 := sv_comp _ _ _ _ _ _ _ _ _ _ _ _ H 2%nat 0%nat (Auto 2) exp_comp 0%nat D2).
  assert (E3 := sv_comp _ _ _ _ _ _ _ _ _ _ _ _ H 3%nat 0%nat (User 2) exp_comp 0%nat D3).
  unfold comp_writes, comp_reads, parts_of in E2, E3. rewrite B2 in E2. rewrite B3 in E3.
  cbn [map] in E2, E3. rewrite N1, N2 in E2. rewrite N2, N3 in E3.
  specialize (E2 eq_refl eq_refl ltac:(cbn; lia)). specialize (E3 eq_refl eq_refl ltac:(cbn; lia)).
  rewrite exp_applied in E2, E3. rewrite E3, E2, E1. lra.
Qed.

Definition tower_tangent (fin : store values) : name -> values := fun x i =>
  if name_eqb x (User 1) then (if Nat.eqb i 0 then 1 else 0)
  else if name_eqb x (Auto 2) then exp (fin (User 1) 0%nat)
  else if name_eqb x (User 2) then exp (fin (Auto 2) 0%nat) * exp (fin (User 1) 0%nat)
  else 0.
Lemma like_tangent fin : tsolves st fin (seed_name (User 1) 0) still (tower_tangent fin).
Proof.
  destruct like_builds as (B0 & B1 & B2 & B3). destruct like_names as (N1 & N2 & N3). constructor.
  - intros x i NW Hi. unfold tower_tangent, seed_name. destruct (name_eqb x (User 1)) eqn:E1; [cbn; reflexivity|].
    cbn. destruct (name_eqb x (Auto 2)) eqn:E2.
    { apply name_eqb_eq in E2. exfalso. apply NW. apply like_written. now left. }
    destruct (name_eqb x (User 2)) eqn:E3; [|reflexivity].
    apply name_eqb_eq in E3. exfalso. apply NW. apply like_written. now right.
  - intros n nm i D E. destruct (like_cases n ltac:(congruence)); subst n; congruence.
  - intros n j x c o D Wj Pj Ho. assert (o = 0%nat) as -> by (cbn in Ho; lia).
    assert (Hx := nth_error_In _ _ Wj). apply like_writes in Hx.
    destruct Hx as [[-> ->]|[-> ->]]; unfold parts_of, comp_reads in *; rewrite ?B2, ?B3 in *;
      (destruct j as [|j]; [|destruct j; discriminate]); injection Pj as <-; cbn [map]; rewrite ?N1, ?N2, exp_applied.
    + unfold tower_tangent. cbn. lra.
    + unfold tower_tangent. cbn. lra.
Qed.
End Like.

Definition at_y (y : R) : store values := fun _ _ => y.

(** apply_nonlinear at y = 0, then linearize at y = 1 *)
Lemma linearize_stale :
  exists h st rs added table asm part subs sub_reads sub_writes shape_of y r,
    (run_ops O 60 api0 h = Some (st, rs) /\ throughout O no_self_reference 60 api0 h /\
     all_tidy st /\ uid_distinct root (fun n => n) (adeps st) /\
     (forall out, created_output h rs out -> exists i, given_value h rs i out) /\
     labels_distinct st /\ SpecRun.names_ok sub_reads sub_writes st /\
     (forall k, length (subs k) = length (sub_writes k)) /\
     sizes_agree table asm part subs sub_reads sub_writes shape_of st /\
     (forall fin, chained table asm part subs sub_reads shape_of st fin) /\ ~ written sub_writes st y) /\
    eventually (fun f => group_setup O set_list (fun n => n) f false st) (Ok added) /\
    forall immediate ind s0,
      let s := held table asm part subs sub_reads sub_writes st added ind [y] immediate s0 [CApply (at_y 0)] in
      let linearized := linearized table asm part subs sub_reads sub_writes st added ind [y] immediate shape_of in
      let residual t := pass table asm part subs sub_reads sub_writes st added ind (set_values [y] (at_y t) s0) r 0%nat in
      (exists l, derivable_pt_lim residual 1 l) /\
      (exists tot, linearized s (at_y 1) tot) /\
      forall tot, linearized s (at_y 1) tot -> ~ derivable_pt_lim residual 1 (tot y 0%nat r 0%nat).
Proof.
  exists tower_history, tower, (results_of tower_history), [2; 3]%nat, (fun _ => exp_comp), (fun _ => nothing),
    (fun _ => nothing), (fun _ => []), no_names, no_names, one_entry, (User 1), (User 2).
  pose proof tower_like as LK. split; [|split].
  - splits.
    + exact tower_runs.
    + exact tower_reference.
    + exact (proj1 (proj2 tower_schedulable)).
    + exact (proj2 (proj2 tower_schedulable)).
    + exact tower_given.
    + exact tower_labels.
    + exact tower_names.
    + reflexivity.
    + exact (like_sizes tower LK).
    + exact (like_chained tower LK).
    + apply (like_unwritten tower LK). now left.
  - apply (group_setup_eventually _ _ _ _ 60). exact tower_setup.
  - revert LK. generalize tower as st. intros st LK im ind s0 s linearized residual.
    assert (DR : derivable_pt_lim residual 1 (exp (exp 1) * exp 1)).
    { apply derivable_pt_lim_ext with (f := comp exp exp).
      - intros t. unfold residual. destruct (like_pass st LK ind (set_values [User 1] (at_y t) s0)) as (_ & E & _).
        rewrite E. reflexivity.
      - apply derivable_pt_lim_comp; apply derivable_pt_lim_exp. }
    assert (LP : forall g, let f := after (fun _ => exp_comp) (fun _ => nothing) (fun _ => nothing) (fun _ => []) no_names no_names
                 st [2; 3]%nat ind [User 1] im s (CLinearize g) in
               f (Auto 2) 0%nat = 1 /\ f (User 1) 0%nat = (if im then g (User 1) 0%nat else 0)).
    { intros g f. destruct (like_pass st LK ind (set_values [User 1] (at_y 0) s0)) as (P1 & _ & P3).
      unfold f, s. cbn [after held fold_left]. split.
      - transitivity (exp 0); [|apply exp_0]. destruct im; exact P1.
      - destruct im; [reflexivity|]. rewrite P3. reflexivity. }
    splits.
    + exists (exp (exp 1) * exp 1). exact DR.
    + eexists (fun v j => _). split; [|intros n nm j []]. intros v j [<-|[]] Hj. cbn in Hj.
      assert (j = 0%nat) as -> by lia. apply (like_tangent st LK).
    + intros tot [C _] DT. pose proof (uniqueness_limite _ _ _ _ DR DT) as Q.
      specialize (C (User 1) 0%nat ltac:(now left) ltac:(cbn; lia)).
      apply (like_solution st LK) in C. destruct (LP (at_y 1)) as [L1 L2]. rewrite L1, L2 in C.
      rewrite C in Q. assert (1 < exp 1) by (pose proof (exp_ineq1 1 ltac:(lra)); lra).
      assert (exp 1 < exp (exp 1)) by (now apply exp_increasing).
      assert (Z : exp (if im then at_y 1 (User 1) 0%nat else 0) <= exp 1).
      { destruct im; [unfold at_y; lra|rewrite exp_0; lra]. }
      nra.
Qed.

(** the same after apply_nonlinear at y = 1 *)
Example linearize_case :
  exists added, eventually (fun f => group_setup O set_list (fun n => n) f false tower) (Ok added) /\
  forall immediate ind s0,
    let s := held (fun _ => exp_comp) (fun _ => nothing) (fun _ => nothing) (fun _ => []) no_names no_names tower added ind
               [User 1] immediate s0 [CLinearize (at_y 5); CApply (at_y 0); CApply (at_y 1)] in
    exists tot,
      linearized (fun _ => exp_comp) (fun _ => nothing) (fun _ => nothing) (fun _ => []) no_names no_names tower added ind
        [User 1] immediate one_entry s (at_y 1) tot /\
      derivable_pt_lim (fun t => tpass tower added ind (set_values [User 1] (at_y t) s0) (User 2) 0%nat) 1
        (tot (User 1) 0%nat (User 2) 0%nat).
Proof.
  destruct (linearize_right (fun _ => exp_comp) (fun _ => nothing) (fun _ => nothing) (fun _ => []) no_names no_names one_entry
    O (fun n => n) false 60 tower_history tower (results_of tower_history)) as (added & A & H);
    [exact tower_runs|exact tower_reference|exact (proj1 (proj2 tower_schedulable))|exact (proj2 (proj2 tower_schedulable))
    |exact tower_given|exact tower_labels|exact tower_names|reflexivity|exact (like_sizes tower tower_like)|].
  exists added. split; [exact A|]. intros im ind s0 s.
  destruct (H im ind [User 1] s0 [CLinearize (at_y 5); CApply (at_y 0); CApply (at_y 1)] (at_y 1) (at_y 1)) as [[tot T] K].
  - exact (like_unwritten tower tower_like).
  - constructor; [intros []|constructor].
  - repeat constructor.
  - reflexivity.
  - reflexivity.
  - exists tot. split; [exact T|].
    assert (Q := K tot T (like_chained tower tower_like _) (fun t => at_y t) 1 (fun _ _ => 1) eq_refl
      (fun x i _ _ => derivable_pt_lim_id 1) (User 2) 0%nat ltac:(cbn; lia)).
    cbn [total fold_right size one_entry fold_left] in Q. revert Q. generalize tower as st. intros st Q.
    replace (tot (User 1) 0%nat (User 2) 0%nat) with (rsum (size [1%nat]) (fun j => tot (User 1) j (User 2) 0%nat * 1) + 0);
      [exact Q|]. cbn. lra.
Qed.

(** the residual at y = 1 after other calls *)
Example repeat_case :
  exists added, eventually (fun f => group_setup O set_list (fun n => n) f false tower) (Ok added) /\
  forall immediate ind s0,
    let held := held (fun _ => exp_comp) (fun _ => nothing) (fun _ => nothing) (fun _ => []) no_names no_names tower added ind
               [User 1] immediate s0 in
    held [CApply (at_y 0); CLinearize (at_y 5); CRun (at_y 2) (User 1) (fun _ => 3); CApply (at_y 1)] (User 2)
    = held [CApply (at_y 1)] (User 2).
Proof.
  destruct (residuals_repeat (fun _ => exp_comp) (fun _ => nothing) (fun _ => nothing) (fun _ => []) no_names no_names
    O (fun n => n) false 60 tower_history tower (results_of tower_history)) as (added & A & H);
    [exact tower_runs|exact tower_reference|exact (proj1 (proj2 tower_schedulable))|exact (proj2 (proj2 tower_schedulable))
    |exact tower_given|exact tower_labels|exact tower_names|reflexivity|].
  exists added. split; [exact A|]. intros im ind s0 held'.
  destruct (H im ind [User 1] s0 [CApply (at_y 0); CLinearize (at_y 5); CRun (at_y 2) (User 1) (fun _ => 3)]) as [K _].
  - exact (like_unwritten tower tower_like).
  - repeat constructor.
  - exact (K (at_y 1) (User 2)).
Qed.
