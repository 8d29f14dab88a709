(** Concrete implicit components: counterexamples and instances of the theorems. *)
From Coq Require Import Reals Lra.
From Verif Require Import PyBase SpecGraph GraphLemmas Graph Replace ReplaceProofs GroupApi SpecApi GroupApiProofs
  GroupApiAcyclic ApiCheck RSum NdArray Implicit SpecImplicit BisectProofs ImplicitProofs ImplicitSetup ImplicitSolve.
Import ListNotations.
Local Open Scope nat_scope.

Definition W := nodup_oracle.
Definition vec (s : list nat) (c : R) : nd R := Nd s (fun _ => c).
Definition one : nd R := vec [1] 1%R.
Definition num (c : R) : nd R := vec [] c.

(** The implicit output 1, the input 2 and the residual 3 computed from both. *)
Definition h_one (s : list nat) (v b1 b2 : nd R) : list iop :=
  [CreateImplicit 1 s v; Plain (DeclareInput 2) s one; Plain (Expr 0 [1; 2]) s one; DefineBracketed 1 3 b1 b2].

Lemma one_runs s v b1 b2 : exists G c vs,
  run_iops W 9 igroup0 (h_one s v b1 b2) = Some (G, [Ok 1; Ok 2; Ok 3; Ok 1])
  /\ build_problem W 9 G = Some (Ok ([3], c, vs))
  /\ ic_outs c = [(User 1, (s, one))] /\ ic_ins c = [User 2]
  /\ aname (ig_api G) 3 = Auto 3 /\ akind (ig_api G) 3 = KVar
  /\ ig_map G = [(Auto 3, User 1)]
  /\ finite_graph 5 (adeps (ig_api G)) /\ acyclic (adeps (ig_api G)).
Proof.
  eexists. eexists. eexists.
  split; [vm_compute; reflexivity|]. split; [vm_compute; reflexivity|].
  splits; try (vm_compute; reflexivity).
  - match goal with |- finite_graph _ (adeps (ig_api ?G)) => assert (R : run_iops W 9 igroup0 (h_one s v b1 b2) = Some (G, [Ok 1; Ok 2; Ok 3; Ok 1])) by (vm_compute; reflexivity) end.
    pose proof (run_ext W 9 _ igroup0 _ _ ainv0 R) as H. exact (v_fin _ (proj1 (h_inv _ _ _ _ H))).
  - match goal with |- acyclic (adeps (ig_api ?G)) => assert (R : run_iops W 9 igroup0 (h_one s v b1 b2) = Some (G, [Ok 1; Ok 2; Ok 3; Ok 1])) by (vm_compute; reflexivity) end.
    pose proof (run_ext W 9 _ igroup0 _ _ ainv0 R) as H. apply ranks_acyclic; [exact (proj1 (h_inv _ _ _ _ H))|vm_compute; reflexivity].
Qed.

(** The residual y^3 - 1 of an array y of two elements, on [0, 2] x [0, 3]. *)
Definition cube : problem := fun env _ => Nd [2] (fun j => dat (env (User 1)) j ^ 3 - 1)%R.
Definition ends : nd R := Nd [2] (fun j => match j with 0 => 2 | _ => 3 end)%R.

Lemma cube_cont z : continuity_pt (fun x => x ^ 3 - 1)%R z.
Proof. apply derivable_continuous_pt. reg. Qed.

Example bracketed_case : exists G c vs, forall outputs m, exists outputs',
  run_iops W 9 igroup0 (h_one [2] (vec [2] 1%R) (num 0%R) ends) = Some (G, [Ok 1; Ok 2; Ok 3; Ok 1])
  /\ build_problem W 9 G = Some (Ok ([3], c, vs))
  /\ solve_nonlinear m G [3] cube outputs = Ok outputs'
  /\ forall j, j < 2 -> (Rabs (dat (outputs' (User 1)) j - 1) <= 3 / 2 ^ 101)%R.
Proof.
  destruct (one_runs [2] (vec [2] 1%R) (num 0%R) ends) as (G & c & vs & HR & HB & HO & _ & HN & _).
  exists G, c, vs. intros outputs m.
  destruct (bracketed_root W 9 _ G _ 3 c vs 3 1 (num 0%R) ends (User 1) [2] one (fun _ => 0%R) (dat ends)
              cube outputs (fun _ x => x ^ 3 - 1)%R m HR HB) as (y & S1 & S2 & S3 & S4).
  - split; [reflexivity|]. exists 1. reflexivity.
  - rewrite HO. now left.
  - left. split; reflexivity.
  - right. split; reflexivity.
  - intros env x _ E _ j _. unfold cube. cbn [dat]. now rewrite E.
  - intros j _. split; [intros z _; apply cube_cont|]. unfold ends. cbn [dat]. destruct j; lra.
  - exists y. splits; auto. intros j Hj. destruct (S4 j Hj) as (z & _ & Z & B).
    assert (Z' : ((z - 1) * (z * z + z + 1) = 0)%R) by (rewrite <- Z; ring).
    apply Rmult_integral in Z'. assert (z = 1%R) as -> by (destruct Z'; [lra|pose proof (Rle_0_sqr (z + 1 / 2)) as SQ; unfold Rsqr in SQ; lra]).
    eapply Rle_trans; [exact B|]. apply Rmult_le_compat_r.
    + left. apply Rinv_0_lt_compat. apply pow_lt. lra.
    + unfold ends. cbn [dat]. destruct j; rewrite Rabs_right; lra.
Qed.

(** C57: one step or none, the result is the same: near the root, not the midpoint. *)
Definition ident : problem := fun env _ => env (User 1).

Lemma small_pow : (3 / 2 ^ 101 < 1 / 2)%R.
Proof.
  assert (1 <= 2 ^ 98)%R by (apply pow_R1_Rle; lra).
  replace (2 ^ 101)%R with (8 * 2 ^ 98)%R by (rewrite <- (pow_add 2 3 98) || (change 101 with (3 + 98); rewrite pow_add; lra)).
  apply Rmult_lt_reg_r with (8 * 2 ^ 98)%R; [lra|]. unfold Rdiv. rewrite Rmult_assoc, Rinv_l by lra. lra.
Qed.

Theorem limit_refuted : exists h G xs r c vs out b1 b2 F, run_iops W 9 igroup0 h = Some (G, xs)
  /\ build_problem W 9 G = Some (Ok ([r], c, vs))
  /\ succeeded h xs 3 (DefineBracketed out r (num b1) (num b2))
  /\ forall outputs, exists outputs', solve_nonlinear 0 G [r] F outputs = Ok outputs'
       /\ dat (outputs' (aname (ig_api G) out)) 0 <> ((b1 + b2) / 2)%R.
Proof.
  destruct (one_runs [1] one (num (-1)%R) (num 2%R)) as (G & c & vs & HR & HB & HO & _ & HN & _).
  exists (h_one [1] one (num (-1)%R) (num 2%R)), G, [Ok 1; Ok 2; Ok 3; Ok 1], 3, c, vs, 1, (-1)%R, 2%R, ident.
  splits; auto.
  - split; [reflexivity|]. exists 1. reflexivity.
  - intros outputs.
    destruct (bracketed_root W 9 _ G _ 3 c vs 3 1 (num (-1)%R) (num 2%R) (User 1) [1] one (fun _ => (-1)%R) (fun _ => 2%R)
              ident outputs (fun _ x => x) 0 HR HB) as (y & S1 & S2 & S3 & S4).
    + split; [reflexivity|]. exists 1. reflexivity.
    + rewrite HO. now left.
    + left. split; reflexivity.
    + left. split; reflexivity.
    + intros env x _ E _ j _. unfold ident. now rewrite E.
    + intros j _. split; [intros z _; apply derivable_continuous_pt, derivable_pt_id|lra].
    + exists y. split; [assumption|].
      assert (aname (ig_api G) 1 = User 1) as ->.
      { clear - HR. vm_compute in HR. injection HR as <-. reflexivity. }
      destruct (S4 0 ltac:(unfold size; simpl; lia)) as (z & _ & -> & B).
      rewrite (Rabs_right (2 - -1)) in B by lra. replace (2 - -1)%R with 3%R in B by lra.
      pose proof small_pow as P. intros Q. rewrite Q in B. rewrite Rabs_right in B by lra. lra.
Qed.

(** C58: two outputs with a bracket each. *)
Definition h_two (v b1 b2 c1 c2 : nd R) : list iop :=
  [CreateImplicit 1 [1] v; CreateImplicit 2 [1] v; Plain (Expr 0 [1]) [1] one; Plain (Expr 0 [2]) [1] one;
   DefineBracketed 1 3 b1 b2; DefineBracketed 2 4 c1 c2].

Theorem two_brackets_refuted : forall v b1 b2 c1 c2, exists G c vs,
  run_iops W 9 igroup0 (h_two v b1 b2 c1 c2) = Some (G, [Ok 1; Ok 2; Ok 3; Ok 4; Ok 1; Ok 2])
  /\ build_problem W 9 G = Some (Ok ([3; 4], c, vs))
  /\ forall m F outputs, exists e, solve_nonlinear m G [3; 4] F outputs = Raise e.
Proof.
  intros. eexists. eexists. eexists. split; [vm_compute; reflexivity|]. split; [vm_compute; reflexivity|].
  intros m F outputs.
  eapply (several_bracketed W 9 (h_two v b1 b2 c1 c2)) with (i := 4) (o1 := User 1) (o2 := User 2);
    [vm_compute; reflexivity|vm_compute; reflexivity|split; [reflexivity|exists 1; reflexivity]
    |simpl; left; reflexivity|simpl; right; left; reflexivity|discriminate].
Qed.

(** C60, C61 *)
Example component_case s v b1 b2 : exists G c vs o ins,
  run_iops W 9 igroup0 (h_one s v b1 b2) = Some (G, [Ok 1; Ok 2; Ok 3; Ok 1])
  /\ build_problem W 9 G = Some (Ok ([3], c, vs)) /\ dict_get (Auto 3) (ig_map G) = Some o
  /\ dict_get o (ic_all c) = Some ins /\ (forall x, In x ins <-> x = 2 \/ x = 4) /\ ic_ins c = [User 2]
  /\ finite_graph 5 (adeps (ig_api G)) /\ acyclic (adeps (ig_api G)).
Proof.
  destruct (one_runs s v b1 b2) as (G & c & vs & HR & HB & HO & HI & HN & HK & HM & HF & HA).
  exists G, c, vs, (User 1), [2; 4]. splits; auto.
  - rewrite HM. reflexivity.
  - clear - HR HB. vm_compute in HR. injection HR as <-. vm_compute in HB. injection HB as <- _. reflexivity.
  - intros x. simpl. intuition.
Qed.

Example roots_case : exists G, run_iops W 9 igroup0
    [CreateImplicit 1 [1] one; Plain (Expr 0 [1]) [1] one; Plain (Expr 0 [1]) [1] one; Plain (Register 5 3) [1] one;
     DefineResidual 1 2] = Some (G, [Ok 1; Ok 2; Ok 3; Ok 3; Ok 1])
  /\ adeps (ig_api G) root = [3; 2] /\ remove_nonresiduals (ig_isres G) (adeps (ig_api G) root) = [2].
Proof. eexists. split; [vm_compute; reflexivity|]. split; reflexivity. Qed.

(** C74: two residuals that read the input 3. *)
Definition h_shared : list iop :=
  [CreateImplicit 1 [1] one; CreateImplicit 2 [1] one; Plain (DeclareInput 3) [1] one;
   Plain (Expr 0 [1; 3]) [1] one; Plain (Expr 0 [2; 3]) [1] one; DefineResidual 1 4; DefineResidual 2 5].
Theorem shared_refuted : exists G, run_iops W 9 igroup0 h_shared = Some (G, [Ok 1; Ok 2; Ok 3; Ok 4; Ok 5; Ok 1; Ok 2])
  /\ build_problem W 9 G = Some (Raise ValueError).
Proof. eexists. split; vm_compute; reflexivity. Qed.

(** The same with an input for each. *)
Example unshared_case : exists G c vs, run_iops W 9 igroup0
  [CreateImplicit 1 [1] one; CreateImplicit 2 [1] one; Plain (DeclareInput 3) [1] one; Plain (DeclareInput 4) [1] one;
   Plain (Expr 0 [1; 3]) [1] one; Plain (Expr 0 [2; 4]) [1] one; DefineResidual 1 5; DefineResidual 2 6]
    = Some (G, [Ok 1; Ok 2; Ok 3; Ok 4; Ok 5; Ok 6; Ok 1; Ok 2])
  /\ build_problem W 9 G = Some (Ok ([5; 6], c, vs)) /\ ic_ins c = [User 3; User 4].
Proof. eexists. eexists. eexists. split; [vm_compute; reflexivity|]. split; [vm_compute; reflexivity|reflexivity]. Qed.

(** C75: the initial guess 3 is dropped. *)
Definition h_guess (v : nd R) : list iop :=
  [CreateImplicit 1 [1] v; Plain (Expr 0 [1]) [1] one; DefineResidual 1 2].
Theorem guess_refuted : exists v G c vs,
  run_iops W 9 igroup0 (h_guess v) = Some (G, [Ok 1; Ok 2; Ok 1])
  /\ build_problem W 9 G = Some (Ok ([2], c, vs))
  /\ ic_outs c = [(User 1, ([1], one))] /\ dat v 0 <> dat one 0.
Proof.
  exists (vec [1] 3%R). eexists. eexists. eexists. split; [vm_compute; reflexivity|]. split; [vm_compute; reflexivity|].
  split; [vm_compute; reflexivity|]. unfold vec, one. cbn. lra.
Qed.

(** C76: the residual 3 of output 1 also depends on output 2. *)
Definition h_coupled : list iop :=
  [CreateImplicit 1 [1] one; CreateImplicit 2 [1] one; Plain (Expr 0 [1; 2]) [1] one; Plain (Expr 0 [1; 2]) [1] one;
   DefineResidual 1 3; DefineResidual 2 4].
Theorem coupled_refuted : exists G c vs,
  run_iops W 9 igroup0 h_coupled = Some (G, [Ok 1; Ok 2; Ok 3; Ok 4; Ok 1; Ok 2])
  /\ build_problem W 9 G = Some (Ok ([3; 4], c, vs))
  /\ In 2 (adeps (ig_api G) 3) /\ aname (ig_api G) 2 = User 2 /\ dict_get (User 2) (ic_outs c) <> None
  /\ dict_get (aname (ig_api G) 3) (ig_map G) = Some (User 1)
  /\ ~ In (User 1, User 2) (linearize_keys (ig_api G) c) /\ ~ In (User 1, User 2) (ic_partials c).
Proof.
  eexists. eexists. eexists. split; [vm_compute; reflexivity|]. split; [vm_compute; reflexivity|].
  splits; try (vm_compute; auto; discriminate).
  - vm_compute. intros [Q|[Q|[Q|[Q|[]]]]]; discriminate.
  - vm_compute. intros [Q|[Q|[]]]; discriminate.
Qed.

(** C77 *)
Definition m_one : list (name * name) := [(Auto 2, User 1)].
Definition sh2 : name -> list nat := fun _ => [2].
Definition zeros : name -> nd R := fun _ => Nd [2] (fun _ => 0%R).
(** J = [[1, 1], [0, 1]], right-hand side (0, 1). *)
Definition shear : system := fun _ _ i j => match i, j with 1, 0 => 0%R | _, _ => 1%R end.
Definition rhs : name -> nd R := fun _ => Nd [2] (fun i => match i with 0 => 0%R | _ => 1%R end).
Definition sol : name -> nd R := fun _ => Nd [2] (fun i => match i with 0 => -1 | _ => 1 end)%R.

Theorem linear_general_refuted : exists m J sh d r x, NoDup (map snd m) /\ regular J (map snd m) sh
  /\ zeroed d (map snd m) sh
  /\ (forall a i, In a (map snd m) -> i < size (sh a) -> apply_system J (map snd m) sh x a i = dat (r a) i)
  /\ let d' := fst (solve_linear Fwd m (fun o => derivs (sh o) (J o o)) (d, r)) in
     exists a i, In a (map snd m) /\ i < size (sh a) /\ apply_system J (map snd m) sh d' a i <> dat (r a) i.
Proof.
  exists m_one, shear, sh2, zeros, rhs, sol. splits.
  - simpl. constructor; [intros []|constructor].
  - intros a i _ _. unfold shear. destruct i as [|[|i]]; lra.
  - intros a _. split; reflexivity.
  - intros a i _ Hi. unfold sh2, size in Hi. simpl in Hi. unfold apply_system, m_one, sh2, size, rhs, sol, shear. simpl.
    destruct i as [|[|i]]; [| |lia]; cbn; lra.
  - cbv zeta. exists (User 1), 0. splits; [left; reflexivity|unfold sh2, size; simpl; lia|].
    unfold apply_system, m_one, sh2, size, rhs, zeros, shear, solve_linear, derivs, set_out, np_map2, np_map. simpl.
    cbn. lra.
Qed.

(** two solves with the same right-hand side, the second starting from the first's result *)
Theorem linear_repeated_refuted : exists m J sh d r, NoDup (map snd m) /\ diagonal J (map snd m) sh
  /\ regular J (map snd m) sh /\ zeroed d (map snd m) sh
  /\ let sv v := solve_linear Fwd m (fun o => derivs (sh o) (J o o)) v in
     exists a i, In a (map snd m) /\ i < size (sh a)
       /\ apply_system J (map snd m) sh (fst (sv (sv (d, r)))) a i <> dat (r a) i.
Proof.
  exists m_one, (fun _ _ i j => if Nat.eqb i j then 1%R else 0%R), sh2, zeros, rhs. splits.
  - simpl. constructor; [intros []|constructor].
  - intros a b i j [<-|[]] [<-|[]] _ _ [Q|Q]; [congruence|]. now apply Nat.eqb_neq in Q as ->.
  - intros a i _ _. rewrite Nat.eqb_refl. lra.
  - intros a _. split; reflexivity.
  - cbv zeta. exists (User 1), 1. splits; [left; reflexivity|unfold sh2, size; simpl; lia|].
    unfold apply_system, m_one, sh2, size, rhs, zeros, solve_linear, derivs, set_out, np_map2, np_map. simpl. cbn. lra.
Qed.

Example linear_case : exists (m : list (name * name)) J sh, NoDup (map snd m) /\ diagonal J (map snd m) sh /\ regular J (map snd m) sh
  /\ zeroed zeros (map snd m) sh /\ J (User 1) (User 1) 1 1 = 3%R /\ length m = 2.
Proof.
  exists [(Auto 3, User 1); (Auto 4, User 2)],
    (fun a b i j => if name_eqb a b && Nat.eqb i j then INR i + 2 else 0)%R, sh2. splits.
  - simpl. constructor; [intros [Q|[]]; discriminate|constructor; [intros []|constructor]].
  - intros a b i j _ _ _ _ [Q|Q].
    + apply name_eqb_neq in Q as ->. reflexivity.
    + apply Nat.eqb_neq in Q as ->. now rewrite Bool.andb_false_r.
  - intros a i _ _. rewrite name_eqb_refl, Nat.eqb_refl. simpl. pose proof (pos_INR i). lra.
  - intros a _. split; reflexivity.
  - simpl. lra.
  - reflexivity.
Qed.

(** C78 *)
Definition h_mixed (b1 b2 : nd R) : list iop :=
  [CreateImplicit 1 [1] one; CreateImplicit 2 [1] one; Plain (Expr 0 [1]) [1] one; Plain (Expr 0 [2]) [1] one;
   DefineBracketed 1 3 b1 b2; DefineResidual 2 4].
Theorem mixed_refuted : forall b1 b2, exists G,
  run_iops W 9 igroup0 (h_mixed b1 b2) = Some (G, [Ok 1; Ok 2; Ok 3; Ok 4; Ok 1; Ok 2])
  /\ build_problem W 9 G = Some (Raise KeyError).
Proof. intros. eexists. split; vm_compute; reflexivity. Qed.

(** C79: the residual was registered before, so the call raises; it is nevertheless
    kept as a root and the component cannot be built; without the call it can. *)
Definition h_before : list iop :=
  [CreateImplicit 1 [1] one; Plain (Expr 0 [1]) [1] one; Plain (Register 5 2) [1] one;
   Plain (Expr 0 [1]) [1] one].
Theorem rejected_refuted : exists G0 G1 xs0 xs1,
  run_iops W 9 igroup0 (h_before ++ [DefineResidual 1 3]) = Some (G0, xs0)
  /\ run_iops W 9 igroup0 (h_before ++ [DefineResidual 1 2; DefineResidual 1 3]) = Some (G1, xs1)
  /\ xs0 = [Ok 1; Ok 2; Ok 2; Ok 3; Ok 1] /\ xs1 = [Ok 1; Ok 2; Ok 2; Ok 3; Raise ValueError; Ok 1]
  /\ (exists c vs, build_problem W 9 G0 = Some (Ok ([3], c, vs)))
  /\ build_problem W 9 G1 = Some (Raise KeyError).
Proof.
  eexists. eexists. eexists. eexists. split; [vm_compute; reflexivity|]. split; [vm_compute; reflexivity|].
  splits; try reflexivity. eexists. eexists. vm_compute. reflexivity.
Qed.

(** The residual of the first output given for the second as well: rejected, and
    as it is mapped the component can be built. *)
Definition h_again : list iop :=
  [CreateImplicit 1 [1] one; CreateImplicit 2 [1] one; Plain (Expr 0 [1]) [1] one; Plain (Expr 0 [2]) [1] one;
   DefineResidual 1 3; DefineResidual 2 3; DefineResidual 2 4].
Example again_case : exists G c vs,
  run_iops W 9 igroup0 h_again = Some (G, [Ok 1; Ok 2; Ok 3; Ok 4; Ok 1; Raise ValueError; Ok 2])
  /\ build_problem W 9 G = Some (Ok ([3; 4], c, vs))
  /\ akind (ig_api G) 3 <> KSubsystem /\ akind (ig_api G) 3 <> KExplicit
  /\ (forall j o' r', j < 5 -> gives_residual o' 2 r' ->
        ~ succeeded h_again [Ok 1; Ok 2; Ok 3; Ok 4; Ok 1; Raise ValueError; Ok 2] j o').
Proof.
  eexists. eexists. eexists. split; [vm_compute; reflexivity|]. split; [vm_compute; reflexivity|].
  split; [vm_compute; discriminate|]. split; [vm_compute; discriminate|].
  intros j o' r' L GR [Q _].
  destruct j as [|[|[|[|[|j]]]]]; [| | | | |lia]; cbn in Q; injection Q as <-; cbn in GR; try contradiction.
  destruct GR. discriminate.
Qed.

(** Two outputs of one entry each, forward: what the vectors hold is kept. *)
Example linear_actual_case :
  let one' := Nd [1] (fun _ => 1%R) in let two := Nd [1] (fun _ => 2%R) in
  let m := [(Auto 3, User 1); (Auto 4, User 2)] in
  NoDup (map snd m) /\
  dat (fst (solve_linear Fwd m (fun _ => two) ((fun _ => one'), (fun _ => one'))) (User 1)) 0 = (1 + 1 / 2)%R.
Proof.
  cbv zeta. split.
  - repeat constructor; cbn; intuition discriminate.
  - cbn. lra.
Qed.
