(** C56 - C61 and C74 - C79: implicit components.  Specification: SpecImplicit.v.
    Concrete cases: ImplicitWitness.v. *)
From Coq Require Import Reals.
From Verif Require Import PyBase SpecGraph Graph GroupApi RSum NdArray Implicit SpecImplicit
  ImplicitProofs BisectProofs ImplicitSetup ImplicitSolve ImplicitRejected ImplicitWitness.
Import ListNotations.
Local Open Scope nat_scope.

Theorem C56_bracketed_root : forall O fuel h G xs r c vs i out b1 b2 o s v x1 x2 F outputs f m,
  run_iops O fuel igroup0 h = Some (G, xs) ->
  build_problem O fuel G = Some (Ok ([r], c, vs)) ->
  succeeded h xs i (DefineBracketed out r b1 b2) ->
  In (o, (s, v)) (ic_outs c) -> stands_for b1 s x1 -> stands_for b2 s x2 ->
  elementwise F outputs o (aname (ig_api G) r) s f ->
  (forall j, j < size s -> (forall z, between (x1 j) (x2 j) z -> continuity_pt (f j) z)
                           /\ (f j (x1 j) * f j (x2 j) <= 0)%R) ->
  exists outputs', solve_nonlinear m G [r] F outputs = Ok outputs'
    /\ (forall n, n <> o -> outputs' n = outputs n) /\ shp (outputs' o) = s
    /\ forall j, j < size s -> exists z, between (x1 j) (x2 j) z /\ f j z = 0%R
         /\ (Rabs (dat (outputs' o) j - z) <= Rabs (x2 j - x1 j) / 2 ^ 101)%R.
Proof. exact bracketed_root. Qed.
Print Assumptions C56_bracketed_root.

Theorem C57_refuted : exists h G xs r c vs out b1 b2 F, run_iops W 9 igroup0 h = Some (G, xs)
  /\ build_problem W 9 G = Some (Ok ([r], c, vs))
  /\ succeeded h xs 3 (DefineBracketed out r (num b1) (num b2))
  /\ forall outputs, exists outputs', solve_nonlinear 0 G [r] F outputs = Ok outputs'
       /\ dat (outputs' (aname (ig_api G) out)) 0 <> ((b1 + b2) / 2)%R.
Proof. exact limit_refuted. Qed.
Print Assumptions C57_refuted.

Theorem C57_actual : forall m m' G rs F outputs,
  solve_nonlinear m G rs F outputs = solve_nonlinear m' G rs F outputs.
Proof. exact limit_ignored. Qed.
Print Assumptions C57_actual.

Theorem C58_refuted : forall v b1 b2 c1 c2, exists G c vs,
  run_iops W 9 igroup0 (h_two v b1 b2 c1 c2) = Some (G, [Ok 1; Ok 2; Ok 3; Ok 4; Ok 1; Ok 2])
  /\ build_problem W 9 G = Some (Ok ([3; 4], c, vs))
  /\ forall m F outputs, exists e, solve_nonlinear m G [3; 4] F outputs = Raise e.
Proof. exact two_brackets_refuted. Qed.
Print Assumptions C58_refuted.

Theorem C58_actual : forall O fuel h G xs rs c vs i out r b1 b2 o1 o2 p1 p2 m F outputs,
  run_iops O fuel igroup0 h = Some (G, xs) ->
  build_problem O fuel G = Some (Ok (rs, c, vs)) ->
  succeeded h xs i (DefineBracketed out r b1 b2) ->
  In (o1, p1) (ic_outs c) -> In (o2, p2) (ic_outs c) -> o1 <> o2 ->
  exists e, solve_nonlinear m G rs F outputs = Raise e.
Proof. exact several_bracketed. Qed.
Print Assumptions C58_actual.

Theorem C59_forward : forall m J sh d r,
  let os := map snd m in
  NoDup os -> diagonal J os sh -> regular J os sh -> zeroed d os sh ->
  let d' := fst (solve_linear Fwd m (fun o => derivs (sh o) (J o o)) (d, r)) in
  (forall a, In a os -> shp (d' a) = sh a)
  /\ forall a i, In a os -> i < size (sh a) -> apply_system J os sh d' a i = dat (r a) i.
Proof. exact solve_linear_exact_fwd. Qed.
Print Assumptions C59_forward.

Theorem C59_reverse : forall m J sh d r,
  let os := map snd m in
  NoDup os -> diagonal J os sh -> regular J os sh -> zeroed r os sh ->
  let r' := snd (solve_linear Rev m (fun o => derivs (sh o) (J o o)) (d, r)) in
  (forall a, In a os -> shp (r' a) = sh a)
  /\ forall a i, In a os -> i < size (sh a) -> apply_system (transposed J) os sh r' a i = dat (d a) i.
Proof. exact solve_linear_exact_rev. Qed.
Print Assumptions C59_reverse.

Theorem C60_inputs : forall O fuel G rs c vs, build_problem O fuel G = Some (Ok (rs, c, vs)) ->
  let st := ig_api G in
  (forall r, In r rs -> akind st r <> KSubsystem -> akind st r <> KExplicit -> exists o ins,
     dict_get (aname st r) (ig_map G) = Some o /\ dict_get o (ic_all c) = Some ins
     /\ forall x, In x ins <-> residual_input st r x)
  /\ (forall n, In n (ic_ins c) <-> exists r o x, In r rs /\ akind st r <> KSubsystem /\ akind st r <> KExplicit
        /\ dict_get (aname st r) (ig_map G) = Some o /\ residual_input st r x /\ n = aname st x /\ n <> o)
  /\ NoDup (ic_ins c ++ map fst (ic_outs c)).
Proof. exact component_inputs. Qed.
Print Assumptions C60_inputs.

Theorem C60_terminates : forall O G N, finite_graph N (adeps (ig_api G)) -> acyclic (adeps (ig_api G)) ->
  exists F, forall fuel, F <= fuel -> build_problem O fuel G <> None.
Proof. exact component_total. Qed.
Print Assumptions C60_terminates.

Theorem C61_residual_roots : forall O fuel h G xs, run_iops O fuel igroup0 h = Some (G, xs) -> no_exception xs ->
  let rs := remove_nonresiduals (ig_isres G) (adeps (ig_api G) root) in
  NoDup rs /\ forall n, In n rs <-> exists i o out, nth_error h i = Some o /\ gives_residual o out n.
Proof. exact residual_roots. Qed.
Print Assumptions C61_residual_roots.

Theorem C74_refuted : exists G,
  run_iops W 9 igroup0 h_shared = Some (G, [Ok 1; Ok 2; Ok 3; Ok 4; Ok 5; Ok 1; Ok 2])
  /\ build_problem W 9 G = Some (Raise ValueError).
Proof. exact shared_refuted. Qed.
Print Assumptions C74_refuted.

Theorem C74_actual : forall O fuel h G xs rs c vs,
  run_iops O fuel igroup0 h = Some (G, xs) -> build_problem O fuel G = Some (Ok (rs, c, vs)) ->
  let st := ig_api G in
  forall r1 r2 o1 o2 x1 x2, In r1 rs -> In r2 rs -> r1 <> r2 ->
  akind st r1 <> KSubsystem -> akind st r1 <> KExplicit -> akind st r2 <> KSubsystem -> akind st r2 <> KExplicit ->
  dict_get (aname st r1) (ig_map G) = Some o1 -> dict_get (aname st r2) (ig_map G) = Some o2 ->
  residual_input st r1 x1 -> residual_input st r2 x2 -> aname st x1 = aname st x2 ->
  False.
Proof. exact inputs_not_shared. Qed.
Print Assumptions C74_actual.

Theorem C75_refuted : exists v G c vs,
  run_iops W 9 igroup0 (h_guess v) = Some (G, [Ok 1; Ok 2; Ok 1])
  /\ build_problem W 9 G = Some (Ok ([2], c, vs))
  /\ ic_outs c = [(User 1, ([1], one))] /\ dat v 0 <> dat one 0.
Proof. exact guess_refuted. Qed.
Print Assumptions C75_refuted.

Theorem C75_actual : forall O fuel G rs c vs, build_problem O fuel G = Some (Ok (rs, c, vs)) ->
  forall o s v, In (o, (s, v)) (ic_outs c) <-> exists r, In r rs /\ akind (ig_api G) r <> KSubsystem
    /\ akind (ig_api G) r <> KExplicit /\ dict_get (aname (ig_api G) r) (ig_map G) = Some o
    /\ s = ig_shape G r /\ v = ig_val G r.
Proof. exact component_start. Qed.
Print Assumptions C75_actual.

(** the internal problem, on the other hand, starts at the recorded guesses *)
Theorem C75_internal_start : forall O fuel G rs c vs, build_problem O fuel G = Some (Ok (rs, c, vs)) ->
  forall o v, In (o, v) vs <-> exists r, In r rs /\ akind (ig_api G) r <> KSubsystem
    /\ akind (ig_api G) r <> KExplicit /\ dict_get (aname (ig_api G) r) (ig_map G) = Some o
    /\ (ig_outvals G = [] /\ v = Nd [1] (fun _ => 1%R) \/ ig_outvals G <> [] /\ dict_get o (ig_outvals G) = Some v).
Proof. exact internal_start. Qed.
Print Assumptions C75_internal_start.

Theorem C75_guess_recorded : forall O fuel h G xs out r G' y, run_iops O fuel igroup0 h = Some (G, xs) ->
  istep O fuel G (DefineResidual out r) = Some (G', Ok y) ->
  forall o, dict_get o (ig_outvals G') =
    if name_dec o (aname (ig_api G) out) then Some (ig_val G out) else dict_get o (ig_outvals G).
Proof. exact guess_recorded. Qed.
Print Assumptions C75_guess_recorded.

Theorem C76_refuted : exists G c vs,
  run_iops W 9 igroup0 h_coupled = Some (G, [Ok 1; Ok 2; Ok 3; Ok 4; Ok 1; Ok 2])
  /\ build_problem W 9 G = Some (Ok ([3; 4], c, vs))
  /\ In 2 (adeps (ig_api G) 3) /\ aname (ig_api G) 2 = User 2 /\ dict_get (User 2) (ic_outs c) <> None
  /\ dict_get (aname (ig_api G) 3) (ig_map G) = Some (User 1)
  /\ ~ In (User 1, User 2) (linearize_keys (ig_api G) c) /\ ~ In (User 1, User 2) (ic_partials c).
Proof. exact coupled_refuted. Qed.
Print Assumptions C76_refuted.

Theorem C76_actual : forall O fuel G rs c vs, build_problem O fuel G = Some (Ok (rs, c, vs)) ->
  forall o n, In (o, n) (linearize_keys (ig_api G) c) <-> exists r, In r rs /\ akind (ig_api G) r <> KSubsystem
    /\ akind (ig_api G) r <> KExplicit /\ dict_get (aname (ig_api G) r) (ig_map G) = Some o
    /\ (n = o \/ exists x, residual_input (ig_api G) r x /\ n = aname (ig_api G) x).
Proof. exact linearize_spec. Qed.
Print Assumptions C76_actual.

Theorem C77_coupled_refuted : exists m J sh d r x, NoDup (map snd m) /\ regular J (map snd m) sh
  /\ zeroed d (map snd m) sh
  /\ (forall a i, In a (map snd m) -> i < size (sh a) -> apply_system J (map snd m) sh x a i = dat (r a) i)
  /\ let d' := fst (solve_linear Fwd m (fun o => derivs (sh o) (J o o)) (d, r)) in
     exists a i, In a (map snd m) /\ i < size (sh a) /\ apply_system J (map snd m) sh d' a i <> dat (r a) i.
Proof. exact linear_general_refuted. Qed.
Print Assumptions C77_coupled_refuted.

Theorem C77_repeated_refuted : exists m J sh d r, NoDup (map snd m) /\ diagonal J (map snd m) sh
  /\ regular J (map snd m) sh /\ zeroed d (map snd m) sh
  /\ let sv v := solve_linear Fwd m (fun o => derivs (sh o) (J o o)) v in
     exists a i, In a (map snd m) /\ i < size (sh a)
       /\ apply_system J (map snd m) sh (fst (sv (sv (d, r)))) a i <> dat (r a) i.
Proof. exact linear_repeated_refuted. Qed.
Print Assumptions C77_repeated_refuted.

(** the entry of the right-hand side divided by the diagonal entry is added to
    what the vector held *)
Theorem C77_actual : forall md m dv d r,
  let os := map snd m in
  NoDup os ->
  let v := solve_linear md m dv (d, r) in
  (forall n, match md with Fwd => snd v n = r n | Rev => fst v n = d n end)
  /\ forall a, let old := match md with Fwd => d a | Rev => r a end in
     let new := match md with Fwd => fst v a | Rev => snd v a end in
     (~ In a os -> new = old)
     /\ (In a os -> shp new = shp old /\ forall i, dat new i =
           (dat old i + dat (match md with Fwd => r a | Rev => d a end) i / dat (dv a) i)%R).
Proof. exact solve_linear_actual. Qed.
Print Assumptions C77_actual.

Theorem C78_refuted : forall b1 b2, exists G,
  run_iops W 9 igroup0 (h_mixed b1 b2) = Some (G, [Ok 1; Ok 2; Ok 3; Ok 4; Ok 1; Ok 2])
  /\ build_problem W 9 G = Some (Raise KeyError).
Proof. exact mixed_refuted. Qed.
Print Assumptions C78_refuted.

(** a component with an unbracketed output has no others *)
Theorem C78_actual : forall O fuel h G xs rs c vs i out r,
  run_iops O fuel igroup0 h = Some (G, xs) ->
  build_problem O fuel G = Some (Ok (rs, c, vs)) ->
  succeeded h xs i (DefineResidual out r) ->
  forall o p, In (o, p) (ic_outs c) -> exists j out' r', succeeded h xs j (DefineResidual out' r')
    /\ named_at O fuel h j out' o.
Proof. exact mixed_outputs. Qed.
Print Assumptions C78_actual.

Theorem C79_refuted : exists G0 G1 xs0 xs1,
  run_iops W 9 igroup0 (h_before ++ [DefineResidual 1 3]) = Some (G0, xs0)
  /\ run_iops W 9 igroup0 (h_before ++ [DefineResidual 1 2; DefineResidual 1 3]) = Some (G1, xs1)
  /\ xs0 = [Ok 1; Ok 2; Ok 2; Ok 3; Ok 1] /\ xs1 = [Ok 1; Ok 2; Ok 2; Ok 3; Raise ValueError; Ok 1]
  /\ (exists c vs, build_problem W 9 G0 = Some (Ok ([3], c, vs)))
  /\ build_problem W 9 G1 = Some (Raise KeyError).
Proof. exact rejected_refuted. Qed.
Print Assumptions C79_refuted.

(** a component that can be built all the same has a mapped residual of that name *)
Theorem C79_actual : forall O fuel h G xs i o out r rs c vs,
  run_iops O fuel igroup0 h = Some (G, xs) ->
  nth_error h i = Some o -> gives_residual o out r -> nth_error xs i = Some (Raise ValueError) ->
  r <> out -> (forall j o' r', j < i -> gives_residual o' out r' -> ~ succeeded h xs j o') ->
  akind (ig_api G) r <> KSubsystem -> akind (ig_api G) r <> KExplicit ->
  build_problem O fuel G = Some (Ok (rs, c, vs)) ->
  In r rs /\ exists j o' out' r', succeeded h xs j o' /\ gives_residual o' out' r'
    /\ aname (ig_api G) r' = aname (ig_api G) r.
Proof. exact rejected_actual. Qed.
Print Assumptions C79_actual.
