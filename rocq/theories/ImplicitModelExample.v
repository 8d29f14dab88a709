(** The equation exp(y) - x = 0 in an implicit component, and exp(y) computed around it. *)
From Coq Require Import Reals Lra Lia Arith List Bool.
From Verif Require Import PyBase PySet SpecGraph GraphLemmas Graph SpecSetup Replace GroupApi SpecApi
  GroupApiProofs GroupApiAcyclic GroupApiShape Run SpecRun RunProofs GroupApiHistory ApiTheorems ApiCheck ApiWitness.
From Verif Require Import RSum NdArray Component JacSpec SpecNorm SpecExtremum SpecTotal TotalCalc CompElem StdCalls
  SpecDeriv SpecStd TotalMain DerivMain DerivExample SpecAdjoint BisectProofs SpecTotals InternalExample
  Implicit SpecImplicit SpecRoot RootProofs
  Nested SpecNested NestedProofs NestedExample ImplicitModel SpecImplicitModel ImplicitModelProofs.
Import ListNotations.
Local Open Scope R_scope.

(** x is the variable [User 1], y is [User 2] and the residual [User 3] *)
Definition log_history : list op :=
  [DeclareInput 1; DeclareInput 2; GroupApi.Expr 0 [2]; GroupApi.Expr 1 [3; 1]; Register 3 4]%nat.
Definition log_state : api := state_of log_history.
Definition sub_comp : component := comp_of (KBinop Sub (OVar 1 [1%nat]) (OVar 2 [1%nat])).
Definition log_table (f : nat) : component := match f with 0%nat => exp_comp | _ => sub_comp end.
Definition log_inner : inner :=
  Inner log_table (fun _ => nothing) (fun _ => nothing) (fun _ => []) no_names no_names one_entry
    log_state [3; 4]%nat (fun _ _ => 0) (fun _ _ => 0) [User 1; User 2].
(** the bracket is from -1 to 1 *)
Definition log_implicit : implicit :=
  Implicit log_inner [User 1] (User 2) (User 3) (fun _ => -1) (fun _ => 1).

Lemma log_runs : run_ops O 60 api0 log_history = Some (log_state, results_of log_history).
Proof. apply runs_ok. vm_compute. reflexivity. Qed.
Lemma log_schedulable : schedulable (fun n => n) log_state.
Proof. apply setup_check_ok; [exact (proj1 (proj1 (history_inv O 60 _ _ _ log_runs)))|vm_compute; reflexivity]. Qed.
Lemma log_labels : labels_distinct log_state.
Proof. apply labels_check_ok. vm_compute. reflexivity. Qed.
Lemma log_reference : throughout O no_self_reference 60 api0 log_history.
Proof. apply reference_check_ok. vm_compute. reflexivity. Qed.
Lemma log_names : SpecRun.names_ok no_names no_names log_state.
Proof.
  apply names_check_ok; [|vm_compute; reflexivity]. intros n L.
  destruct (history_inv O _ _ _ _ log_runs) as [_ S]. now apply (s_fresh _ S).
Qed.
Lemma log_results : results_of log_history = [Ok 1; Ok 2; Ok 3; Ok 4; Ok 4]%nat.
Proof. vm_compute. reflexivity. Qed.
Lemma log_given : forall out, created_output log_history (results_of log_history) out ->
  exists i, given_value log_history (results_of log_history) i out.
Proof.
  rewrite log_results. intros out (i & s & H1 & H2).
  do 5 (destruct i as [|i]; [cbn in H1, H2; discriminate H1|]). cbn in H1. destruct i; discriminate.
Qed.
Lemma log_setup : group_setup O set_list (fun n => n) 60 false log_state = Some (Ok [3; 4]%nat).
Proof. vm_compute. reflexivity. Qed.

(** what is needed of the state *)
Record log_like (st : api) : Prop := {
  ll_build : map (abuild st) [0; 1; 2; 3; 4]%nat = [NoBuild; NoBuild; NoBuild; BExpr 0 [2%nat]; BExpr 1 [3%nat; 1%nat]];
  ll_name : map (aname st) [1; 2; 3; 4]%nat = [User 1; User 2; Auto 3; User 3];
  ll_fresh : forall n, (5 <= n)%nat -> abuild st n = NoBuild;
  ll_dep : dep_on (adeps st) root 3 /\ dep_on (adeps st) root 4
}.
Lemma log_is_like : log_like log_state.
Proof.
  pose proof (proj2 (history_inv O 60 _ _ _ log_runs) : GroupApiShape.shape log_state) as SH.
  assert (AN : Nat.leb (anext log_state) 5 = true) by (vm_compute; reflexivity). apply Nat.leb_le in AN.
  constructor; try (vm_compute; reflexivity).
  - intros n L. apply (GroupApiShape.s_fresh _ SH). lia.
  - assert (A : dep_on (adeps log_state) root 4) by (apply dep_direct; vm_compute; tauto). split; [|exact A].
    apply dep_on_trans with 4%nat; [exact A|]. apply dep_direct; vm_compute; tauto.
Qed.

Lemma sub_value v w : computed sub_comp [v; w] 0%nat = v 0%nat - w 0%nat.
Proof. unfold computed, value_of. cbn. lra. Qed.
Lemma sub_applied v w d e : applied sub_comp (args [v; w]) (args [d; e]) 0%nat = d 0%nat - e 0%nat.
Proof. unfold applied, along. cbn. unfold coo_entry. cbn. lra. Qed.
Lemma sub_sizes : has_sizes sub_comp 1 [1%nat; 1%nat].
Proof. split; reflexivity. Qed.
Lemma sub_chain : chain_rule everywhere sub_comp.
Proof. eapply comp_of_documented. apply two_operands; [auto|discriminate]. Qed.

Section Like.
Variable st : api.
Hypothesis LK : log_like st.

Lemma log_builds : abuild st 0 = NoBuild /\ abuild st 1 = NoBuild /\ abuild st 2 = NoBuild /\ abuild st 3 = BExpr 0 [2%nat]
  /\ abuild st 4 = BExpr 1 [3%nat; 1%nat].
Proof. pose proof (ll_build _ LK) as B. cbn in B. now injection B. Qed.
Lemma log_name : aname st 1 = User 1 /\ aname st 2 = User 2 /\ aname st 3 = Auto 3 /\ aname st 4 = User 3.
Proof. pose proof (ll_name _ LK) as B. cbn in B. now injection B. Qed.
Lemma log_cases n : abuild st n <> NoBuild -> n = 3%nat \/ n = 4%nat.
Proof.
  intros H. destruct log_builds as (B0 & B1 & B2 & _). destruct (Nat.lt_ge_cases n 5) as [L|L].
  - destruct n as [|[|[|[|[|n]]]]]; auto; try contradiction; lia.
  - now rewrite (ll_fresh _ LK n L) in H.
Qed.
Lemma log_written x : written no_names st x -> x = Auto 3 \/ x = User 3.
Proof.
  destruct log_builds as (B0 & B1 & B2 & B3 & B4). destruct log_name as (N1 & N2 & N3 & N4). intros (n & _ & H).
  destruct (log_cases n) as [-> | ->].
  - intros E. unfold comp_writes in H. now rewrite E in H.
  - unfold comp_writes in H. rewrite B3, N3 in H. destruct H as [<-|[]]. now left.
  - unfold comp_writes in H. rewrite B4, N4 in H. destruct H as [<-|[]]. now right.
Qed.
Lemma log_unwritten x : In x [User 1; User 2] -> ~ written no_names st x.
Proof. intros [<-|[<-|[]]] H; apply log_written in H; destruct H; discriminate. Qed.

Lemma log_sizes : sizes_agree log_table (fun _ => nothing) (fun _ => nothing) (fun _ => []) no_names no_names one_entry st.
Proof.
  destruct log_builds as (B0 & B1 & B2 & B3 & B4). intros n D _.
  unfold comp_writes, comp_reads, parts_of.
  destruct (abuild st n) eqn:E; try (destruct (log_cases n ltac:(congruence)); subst n; congruence).
  - constructor.
  - destruct (log_cases n ltac:(congruence)); subst n; rewrite ?B3, ?B4 in E; injection E as <- <-.
    + constructor; [exact exp_sizes|constructor].
    + constructor; [exact sub_sizes|constructor].
Qed.
Lemma log_chained fin : chained log_table (fun _ => nothing) (fun _ => nothing) (fun _ => []) no_names one_entry st fin.
Proof.
  destruct log_builds as (B0 & B1 & B2 & B3 & B4). intros n c D H. exists everywhere. split; [|exact I].
  unfold parts_of in H.
  destruct (abuild st n) eqn:E; try (destruct (log_cases n ltac:(congruence)); subst n; congruence).
  - destruct H.
  - destruct (log_cases n ltac:(congruence)); subst n; rewrite ?B3, ?B4 in E; injection E as <- <-; destruct H as [<-|[]].
    + exact exp_chain.
    + exact sub_chain.
Qed.

Local Notation lpass := (pass log_table (fun _ => nothing) (fun _ => nothing) (fun _ => []) no_names no_names st [3; 4]%nat).
Lemma log_pass ind s : lpass ind s (User 3) 0%nat = exp (s (User 2) 0%nat) - s (User 1) 0%nat
  /\ lpass ind s (User 2) = s (User 2).
Proof.
  destruct log_builds as (B0 & B1 & B2 & B3 & B4). destruct log_name as (N1 & N2 & N3 & N4).
  unfold pass, run_model. cbn [fold_left]. unfold run_comp, comp_writes, comp_outputs, comp_reads.
  rewrite B3, B4. cbn [map]. rewrite N1, N2, N3, N4. split; [|reflexivity].
  cbn. lra.
Qed.

Lemma log_solution fin ds T :
  solves log_table (fun _ => nothing) (fun _ => nothing) (fun _ => []) no_names no_names one_entry st fin ds still T ->
  T (User 3) 0%nat = exp (fin (User 2) 0%nat) * ds (User 2) 0%nat - ds (User 1) 0%nat.
Proof.
  destruct log_builds as (B0 & B1 & B2 & B3 & B4). destruct log_name as (N1 & N2 & N3 & N4). destruct (ll_dep _ LK) as [D3 D4].
  intros H.
  assert (E1 : T (User 1) 0%nat = ds (User 1) 0%nat).
  { apply (sv_given _ _ _ _ _ _ _ _ _ _ _ _ H (User 1) 0%nat); [|cbn; lia]. apply log_unwritten. now left. }
  assert (E2 : T (User 2) 0%nat = ds (User 2) 0%nat).
  { apply (sv_given _ _ _ _ _ _ _ _ _ _ _ _ H (User 2) 0%nat); [|cbn; lia]. apply log_unwritten. right. now left. }
  assert (E3 := sv_comp _ _ _ _ _ _ _ _ _ _ _ _ H 3%nat 0%nat (Auto 3) exp_comp 0%nat D3).
  assert (E4 := sv_comp _ _ _ _ _ _ _ _ _ _ _ _ H 4%nat 0%nat (User 3) sub_comp 0%nat D4).
  unfold comp_writes, comp_reads, parts_of in E3, E4. rewrite B3 in E3. rewrite B4 in E4.
  cbn [map] in E3, E4. rewrite N2, N3 in E3. rewrite N1, N3, N4 in E4.
  specialize (E3 eq_refl eq_refl ltac:(cbn; lia)). specialize (E4 eq_refl eq_refl ltac:(cbn; lia)).
  rewrite exp_applied in E3. rewrite sub_applied in E4. rewrite E4, E3, E1, E2. lra.
Qed.
End Like.

Lemma log_ok : implicit_ok log_implicit.
Proof.
  constructor; [|reflexivity|reflexivity].
  constructor; cbn [in_table in_asm in_part in_subs in_reads in_writes in_shape in_state in_added in_inputs log_inner log_implicit im_model].
  - exists O, (fun n => n), false, 60%nat, log_history, (results_of log_history). splits.
    + exact log_runs.
    + exact log_reference.
    + exact (proj1 (proj2 log_schedulable)).
    + exact (proj2 (proj2 log_schedulable)).
    + exact log_given.
    + exact log_labels.
    + exact log_names.
    + apply (group_setup_eventually _ _ _ _ 60). exact log_setup.
  - reflexivity.
  - exact (log_sizes log_state log_is_like).
  - constructor; [|constructor; [intros []|constructor]]. intros [H|[]]. discriminate.
  - exact (log_unwritten log_state log_is_like).
Qed.

Lemma log_residual v y : residual log_implicit v y 0%nat = exp (y 0%nat) - v 0%nat 0%nat.
Proof.
  unfold residual, inner_pass. cbn [in_table in_asm in_part in_subs in_reads in_writes in_shape in_state in_added in_ind log_inner log_implicit im_model im_res].
  rewrite (proj1 (log_pass log_state log_is_like _ _)). reflexivity.
Qed.

Lemma log_rates v y d w T : inner_rates log_inner (with_out log_implicit v y) (with_out log_implicit d w) T ->
  T (User 3) 0%nat = exp (y 0%nat) * w 0%nat - d 0%nat 0%nat.
Proof.
  unfold inner_rates, inner_pass. cbn [in_table in_asm in_part in_subs in_reads in_writes in_shape in_state in_added in_ind in_inputs log_inner].
  intros H. apply (log_solution log_state log_is_like) in H. rewrite (proj2 (log_pass log_state log_is_like _ _)) in H. exact H.
Qed.

Lemma log_only v : exp (-1) < v 0%nat 0%nat < exp 1 -> one_solution log_implicit v.
Proof.
  intros [H1 H2]. assert (P : 0 < v 0%nat 0%nat) by (apply Rlt_trans with (2 := H1); apply exp_pos). split; [|split].
  - intros y y' i Hi E. assert (i = 0%nat) as -> by (cbn in Hi; lia). rewrite !log_residual. now rewrite E.
  - intros i Hi. assert (i = 0%nat) as -> by (cbn in Hi; lia). exists (ln (v 0%nat 0%nat)). split; [|split].
    + cbn [im_lo im_hi log_implicit]. unfold between. rewrite Rmin_left, Rmax_right by lra. split.
      * apply Rlt_le. apply exp_lt_inv. now rewrite exp_ln.
      * apply Rlt_le. apply exp_lt_inv. now rewrite exp_ln.
    + rewrite log_residual, exp_ln by assumption. ring.
    + intros z _ Z. rewrite log_residual in Z. replace (v 0%nat 0%nat) with (exp z) by lra. now rewrite ln_exp.
  - intros y _. exact (log_chained log_state log_is_like _).
Qed.

Lemma log_near v : exp (-1) < v 0%nat 0%nat < exp 1 -> solvable_near log_implicit v.
Proof.
  intros [H1 H2]. exists (Rmin (v 0%nat 0%nat - exp (-1)) (exp 1 - v 0%nat 0%nat)). split; [apply Rmin_glb_lt; lra|].
  intros v' H. specialize (H 0%nat (User 1) 0%nat eq_refl ltac:(cbn; lia)). apply log_only.
  assert (L := Rmin_l (v 0%nat 0%nat - exp (-1)) (exp 1 - v 0%nat 0%nat)).
  assert (G := Rmin_r (v 0%nat 0%nat - exp (-1)) (exp 1 - v 0%nat 0%nat)).
  apply Rabs_def2 in H. lra.
Qed.

Lemma log_solved v y : exp (-1) < v 0%nat 0%nat < exp 1 -> is_solution log_implicit v y -> exp (y 0%nat) = v 0%nat 0%nat.
Proof. intros _ [_ Z]. specialize (Z 0%nat ltac:(cbn; lia)). rewrite log_residual in Z. lra. Qed.

Lemma log_regular v : exp (-1) < v 0%nat 0%nat < exp 1 -> regular_at log_implicit v.
Proof.
  intros H. split; [now apply log_near|]. intros y Y i Hi. assert (i = 0%nat) as -> by (cbn in Hi; lia).
  assert (E := log_solved v y H Y). cbn [im_lo im_hi log_implicit]. splits.
  - intros Q. rewrite Q in E. lra.
  - intros Q. rewrite Q in E. lra.
  - intros T ER. unfold entry_rates in ER.
    assert (IR : inner_rates log_inner (with_out log_implicit v y)
      (with_out log_implicit (fun _ _ => 0) (fun i' => if Nat.eqb i' 0 then 1 else 0)) T).
    { unfold inner_rates in *. revert ER. apply solves_rates. intros z k _ _.
      cbn [in_inputs log_inner log_implicit im_model position].
      destruct (name_eqb z (User 1)); [reflexivity|]. destruct (name_eqb z (User 2)); reflexivity. }
    apply log_rates in IR. cbn [im_res log_implicit]. rewrite IR. cbn [Nat.eqb].
    assert (0 < exp (y 0%nat)) by apply exp_pos. lra.
Qed.

(** the outer model of NestedExample.v around the implicit component *)
Section Outer.
Variable c : component.
Hypothesis SR : stands_for_root log_implicit c.

Lemma log_outer_sizes st : outer_like st ->
  sizes_agree (fun _ => exp_comp) (fun _ => nothing) (fun _ => nothing) (fun _ => [c]) outer_reads outer_writes one_entry st.
Proof.
  intros LK. destruct (outer_builds _ LK) as (B0 & B1 & B2 & B3 & B4). intros n D _.
  unfold comp_writes, comp_reads, parts_of.
  destruct (abuild st n) eqn:E; try (destruct (outer_cases _ LK n ltac:(congruence)); subst n; congruence).
  - constructor.
  - destruct (outer_cases _ LK n ltac:(congruence)); subst n; rewrite ?B2, ?B4 in E; try discriminate. injection E as <- <-.
    constructor; [exact exp_sizes|constructor].
  - constructor; [|constructor]. rewrite (sr_out _ _ SR), (sr_ins _ _ SR). split; reflexivity.
Qed.

Lemma log_subsystem k : subsystem_ok outer_reads outer_writes one_entry (fun _ => SImplicit log_implicit) (fun _ => [c]) k.
Proof. unfold subsystem_ok. splits; [exact log_ok|reflexivity|reflexivity|reflexivity|]. exists c. auto. Qed.

Lemma log_tangent st fin T Ti : outer_like st ->
  system_rates (fun _ => exp_comp) (fun _ => nothing) (fun _ => nothing) outer_reads outer_writes one_entry st
    (fun _ => SImplicit log_implicit) fin (fun _ _ => 1) still T Ti ->
  exp (fin (User 2) 0%nat) * T (User 2) 0%nat = 1 /\ T (User 7) 0%nat = 1.
Proof.
  intros LK AR. destruct (outer_builds _ LK) as (B0 & B1 & B2 & B3 & B4). destruct (outer_name _ LK) as (N3 & N4).
  destruct (ol_dep _ LK) as [D2 D4].
  assert (E1 : T (User 1) 0%nat = 1).
  { rewrite (rs_given _ _ _ _ _ _ _ _ _ _ _ _ _ AR); [reflexivity| |cbn; lia].
    intros (n & _ & H). destruct (outer_cases _ LK n) as [-> | ->].
    - intros E. unfold comp_writes in H. rewrite E in H. exact H.
    - unfold comp_writes in H. rewrite B2 in H. destruct H as [H|[]]. discriminate.
    - unfold comp_writes in H. rewrite B4, N4 in H. destruct H as [H|[]]. discriminate. }
  destruct (rs_implicit _ _ _ _ _ _ _ _ _ _ _ _ _ AR 2%nat 0%nat true log_implicit D2 B2 eq_refl) as [IR Z].
  apply log_rates in IR. specialize (Z 0%nat ltac:(cbn; lia)). cbn [im_res log_implicit] in Z. rewrite Z in IR.
  cbn [outer_reads map args nth im_out log_implicit] in IR. rewrite E1 in IR.
  assert (E2 : exp (fin (User 2) 0%nat) * T (User 2) 0%nat = 1) by lra.
  split; [exact E2|].
  assert (E4 := rs_comp _ _ _ _ _ _ _ _ _ _ _ _ _ AR 4%nat 0%nat (User 7) exp_comp 0%nat D4).
  unfold comp_writes, comp_reads, parts_of in E4. rewrite B4 in E4. cbn [map] in E4. rewrite N3, N4 in E4.
  specialize (E4 ltac:(intros; discriminate) eq_refl eq_refl ltac:(cbn; lia)). rewrite exp_applied in E4. lra.
Qed.
End Outer.

(** y is the logarithm of x, its derivative 1/x, and exp(y) moves as x *)
Example implicit_case : exists c, stands_for_root log_implicit c /\
  let pass := pass (fun _ => exp_comp) (fun _ => nothing) (fun _ => nothing) (fun _ => [c]) outer_reads outer_writes outer [2; 4]%nat in
  forall ind x, exp (-1) < x < exp 1 ->
    pass ind (fun _ _ => x) (User 2) 0%nat = ln x /\
    derivable_pt_lim (fun t => pass ind (fun _ _ => t) (User 2) 0%nat) x (/ x) /\
    derivable_pt_lim (fun t => pass ind (fun _ _ => t) (User 7) 0%nat) x 1.
Proof.
  destruct (root_exists log_implicit log_ok) as [c SR]. exists c. split; [exact SR|]. intros pass ind x Hx.
  pose proof outer_is_like as LK. pose proof outer_described as DE.
  assert (SL : forall k : nat, length [c] = length (outer_writes k)) by reflexivity.
  assert (SA := log_outer_sizes c SR outer LK).
  assert (GR : forall n k g, dep_on (adeps outer) root n -> abuild outer n = BSub k g ->
    subsystem_ok outer_reads outer_writes one_entry (fun _ => SImplicit log_implicit) (fun _ => [c]) k) by (intros; now apply log_subsystem).
  assert (V1 : pass ind (fun _ _ => x) (User 1) 0%nat = x).
  { unfold pass.
    destruct (outer_builds _ LK) as (B0 & B1 & B2 & B3 & B4). destruct (outer_name _ LK) as (N3 & N4).
    revert B2 B4 N3 N4. clear. generalize outer as st. intros st B2 B4 N3 N4.
    unfold SpecDeriv.pass, run_model. cbn [fold_left]. unfold run_comp, comp_writes, comp_outputs, comp_reads.
    rewrite B2, B4. cbn [map]. rewrite N3, N4. reflexivity. }
  assert (VX : args (map (pass ind (fun _ _ => x)) (outer_reads 0)) 0%nat 0%nat = x) by exact V1.
  assert (VE : exp (pass ind (fun _ _ => x) (User 2) 0%nat) = x).
  { refine (eq_trans _ VX). apply log_solved; [now rewrite VX|].
    apply (system_solution (fun _ => exp_comp) (fun _ => nothing) (fun _ => nothing) (fun _ => [c]) outer_reads outer_writes one_entry
      outer [2; 4]%nat (fun _ => SImplicit log_implicit) DE SL GR ind (fun _ _ => x) 2%nat 0%nat true log_implicit
      (proj1 (ol_dep _ LK)) (proj1 (proj2 (proj2 (outer_builds _ LK)))) eq_refl).
    apply log_only. unfold pass in VX. now rewrite VX. }
  destruct (system_derivatives (fun _ => exp_comp) (fun _ => nothing) (fun _ => nothing) (fun _ => [c]) outer_reads outer_writes one_entry
    outer [2; 4]%nat (fun _ => SImplicit log_implicit) DE SL SA GR (fun t _ _ => t) (fun _ => ind) x (fun _ _ => 1) still) as [[T [Ti AR]] K].
  - split.
    + intros y j _ Hj. apply derivable_pt_lim_id.
    + intros n nm j D E. exfalso. destruct (outer_builds _ LK) as (B0 & B1 & B2 & B3 & B4).
      destruct (outer_cases _ LK n ltac:(congruence)); subst n; congruence.
  - exact (outer_chained outer LK _).
  - intros n k g _ _. unfold subsystem_regular. apply log_regular.
    change (exp (-1) < pass ind (fun _ _ => x) (User 1) 0%nat < exp 1). now rewrite V1.
  - destruct (K T Ti AR) as [K1 _].
    destruct (log_tangent outer _ T Ti LK AR) as [T2 T7]. fold pass in T2. rewrite VE in T2.
    splits.
    + refine (eq_trans (eq_sym (ln_exp _)) _). now rewrite VE.
    + assert (NX : x <> 0) by (rewrite <- VE; apply Rgt_not_eq; apply exp_pos).
      replace (/ x) with (T (User 2) 0%nat).
      * apply (K1 (User 2) 0%nat). cbn. lia.
      * apply (Rmult_eq_reg_l x); [|exact NX]. rewrite T2. now field.
    + rewrite <- T7. apply (K1 (User 7) 0%nat). cbn. lia.
Qed.
