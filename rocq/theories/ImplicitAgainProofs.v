(** An implicit component set up again: proofs. *)
From Coq Require Import Reals.
From Verif Require Import PyBase PySet SpecGraph GraphLemmas Graph SpecSetup GraphSetup Replace ReplaceProofs
  GroupApi SpecApi GroupApiProofs RSum NdArray Assemble SetupAgain Implicit SpecImplicit ImplicitProofs ImplicitSetup ImplicitAgain.
Import ListNotations.
Local Open Scope nat_scope.

Record kept (k : icomponent) : Prop := {
  kp_base : base (ig_api (k_group k));
  kp_nodes : ~ In root (map snd (k_nodes k));
  kp_bound : forall n, In n (map snd (k_nodes k)) -> n < anext (ig_api (k_group k));
  kp_dep : dependents (k_passes k) root = []
}.

Lemma kept0 : kept icomponent0.
Proof. constructor; try (cbn; tauto). exact (proj1 ainv0). Qed.

Lemma drop_roots st rs : base st -> NoDup rs -> (forall n, In n rs -> In n (adeps st root)) ->
  base (set_adeps st (upd (adeps st) root rs) (atick st)).
Proof.
  intros B N H. constructor; cbn [set_adeps adeps akind abuild adefined arecent anext adecomp aparts]; try apply B.
  - intros u v. unfold upd. destruct (Nat.eqb_spec u root) as [->|_]; [|apply (v_fin st B)].
    intros Q. apply (v_fin st B), H, Q.
  - intros n. unfold upd. destruct (Nat.eqb n root); [assumption|apply (v_simple st B)].
  - intros n. unfold upd. destruct (Nat.eqb n root); [intros Q; apply H in Q; now apply (v_noroot st B) in Q|apply (v_noroot st B)].
  - intros n K. unfold upd. destruct (Nat.eqb_spec n root) as [->|_]; [|now apply (v_indep st B)].
    rewrite (v_kroot st B) in K. discriminate.
Qed.

Lemma initial_nil G : forall rs r, In r rs -> is_resroot (ig_api G) r = true -> initial_values G rs <> Ok [].
Proof.
  induction rs as [|a rs IH]; intros r H K; [contradiction|]. cbn [initial_values].
  destruct (is_resroot (ig_api G) a) eqn:KA.
  - destruct (dict_get _ (ig_map G)) as [o|]; [|discriminate].
    destruct (match ig_outvals G with [] => _ | _ => _ end); [|discriminate].
    destruct (initial_values G rs); discriminate.
  - destruct H as [->|H]; [congruence|eauto].
Qed.

Lemma isetup_once_kept O uid fuel k h k' rs c vs : kept k ->
  isetup_once O uid fuel k h = Some (Ok (k', (rs, c, vs))) ->
  exists G xs, run_iops O fuel (k_group k) h = Some (G, xs) /\ hext False h xs (k_group k) G
    /\ rs = remove_nonresiduals (ig_isres G) (adeps (ig_api G) root)
    /\ kept k' /\ 1 <= visited (k_passes k') root
    /\ adeps (ig_api (k_group k')) root = rs
    /\ akind (ig_api (k_group k')) = akind (ig_api G) /\ ig_isres (k_group k') = ig_isres G
    /\ anext (ig_api (k_group k')) = anext (ig_api G)
    /\ (1 <= visited (k_passes k) root -> vs = [])
    /\ (vs = [] -> forall r, In r rs -> is_resroot (ig_api G) r = false).
Proof.
  intros [B0 NN NB DR] E. unfold isetup_once in E.
  destruct (run_iops O fuel (k_group k) h) as [[G xs]|] eqn:ER; [|discriminate].
  assert (X : hext False h xs (k_group k) G) by (apply (run_bext O False fuel h _ G xs); [split; [assumption|tauto]|assumption]).
  exists G, xs. pose proof (proj1 (h_binv _ _ _ _ X)) as B. pose proof (h_next _ _ _ _ X) as LE.
  set (rs0 := remove_nonresiduals (ig_isres G) (adeps (ig_api G) root)) in *. cbv zeta in E.
  destruct (kept_roots (ig_isres G) (adeps (ig_api G) root) (v_simple _ B root)) as [ND KR]. fold rs0 in ND, KR.
  set (st := set_adeps (ig_api G) (upd (adeps (ig_api G)) root rs0) (atick (ig_api G))) in *.
  assert (Bst : base st) by (apply drop_roots; [assumption|assumption|intros n Q; now apply KR]).
  destruct (declare_residuals O fuel (with_api G st) rs0 _ _) as [[c0|e]|]; try discriminate.
  destruct (setup_graph _ _ _ _ _ _ _ _ _) as [[[[nodes l] s']|e]|] eqn:ES; try discriminate.
  destruct (build_all st (rev l) []) as [ad|e] eqn:EB; [|discriminate]. cbn [bind] in E.
  destruct (start_values ad (with_api G st) rs0) as [v0|e] eqn:EV; [|discriminate]. cbn in E. injection E as <- <- <- <-.
  apply setup_graph_any in ES; cbn [deps dependents visited] in *; auto;
    [|apply (v_noroot st Bst)|apply (v_simple st Bst)].
  destruct ES as (H1 & H2 & H3 & H4 & H5 & H6 & H7 & H8).
  assert (BD : forall n, In n (map snd nodes) -> n < anext st).
  { intros n Q. apply H2 in Q. destruct Q as [Q|(u & Q)]; [apply NB in Q; unfold st; cbn; lia|]. now apply (v_fin st Bst) in Q. }
  cbn [k_group k_passes k_nodes with_api ig_api ig_isres set_adeps adeps akind anext].
  splits; auto.
  - constructor; cbn [k_group k_passes k_nodes with_api ig_api]; auto.
    constructor; cbn [set_adeps adeps akind abuild adefined arecent anext adecomp aparts]; try apply B.
    + intros u v Q. apply H4 in Q. destruct Q as [Q|(Hu & _ & _ & Hv)]; [now apply (v_fin st Bst)|].
      apply BD in Hu. apply (v_fin st Bst) in Hv. split; [exact Hu|apply Hv].
    + exact H5.
    + intros n Q. apply H4 in Q. destruct Q as [Q|(_ & _ & _ & Q)]; now apply (v_noroot st Bst) in Q.
    + intros n K. destruct (deps s' n) as [|v q] eqn:Q; [reflexivity|exfalso].
      assert (W : In v (deps s' n)) by (rewrite Q; now left).
      apply H4 in W. rewrite (v_indep st Bst n K) in W. destruct W as [[]|(_ & W & _)]. apply W, K.
  - intros V. rewrite (H8 V) in EB. cbn in EB. injection EB as <-. unfold start_values in EV.
    destruct (initial_values _ rs0) as [[|]|]; try discriminate. congruence.
  - intros -> r Hr. destruct (is_resroot (ig_api G) r) eqn:K; [exfalso|reflexivity].
    apply (initial_nil (with_api G st) rs0 r Hr K). unfold start_values in EV.
    destruct (initial_values _ rs0) as [[|]|]; destruct ad; congruence.
Qed.

(** Whatever was registered as a residual is neither a subsystem nor an explicit output. *)
Lemma residual_kind O fuel h G xs i o out r : run_iops O fuel igroup0 h = Some (G, xs) ->
  succeeded h xs i o -> gives_residual o out r ->
  In r (adeps (ig_api G) root) /\ ig_isres G r = true /\ is_resroot (ig_api G) r = true.
Proof.
  intros E [H1 [y H2]] GR.
  pose proof (run_ext O fuel h igroup0 G xs ainv0 E) as HX.
  destruct (h_def _ _ _ _ HX i o out r (conj H1 (ex_intro _ y H2)) GR) as (A1 & A2 & _). splits; auto.
  destruct (nth_error_split _ _ H1) as (h1 & h2 & -> & L1).
  apply run_iops_app in E. destruct E as (G1 & xs1 & xs2 & R1 & R2 & -> & L).
  apply run_iops_cons in R2. destruct R2 as (G2 & x & xs' & S & R2 & ->).
  rewrite nth_error_app2 in H2 by lia. replace (i - length xs1) with 0 in H2 by lia. injection H2 as ->.
  pose proof (h_inv _ _ _ _ (run_ext O fuel h1 igroup0 G1 xs1 ainv0 R1)) as I1.
  pose proof (istep_ext O fuel G1 o G2 _ I1 S) as X.
  pose proof (run_ext O fuel h2 G2 G xs' (x_inv _ _ _ _ X) R2) as H.
  destruct (x_def _ _ _ _ X out r y GR eq_refl) as (B1 & B2 & B3 & B4 & _).
  unfold is_resroot. rewrite (h_kind _ _ _ _ H) by (pose proof (x_next _ _ _ _ X); lia).
  rewrite (x_kind _ _ _ _ X) by assumption.
  destruct (akind (ig_api G1) r) eqn:K; auto; exfalso; apply B2, (proj2 I1); now rewrite K.
Qed.

(** C103 *)
Theorem no_second_setup O uid fuel h k x G xs i o out r :
  isetup_once O uid fuel icomponent0 h = Some (Ok (k, x)) ->
  run_iops O fuel igroup0 h = Some (G, xs) -> succeeded h xs i o -> gives_residual o out r ->
  forall O' fuel' h' z, isetup_once O' uid fuel' k h' <> Some (Ok z).
Proof.
  intros E R S GR O' fuel' h' [k' [[rs' c'] vs']] E'. destruct x as [[rs c] vs].
  destruct (isetup_once_kept _ _ _ _ _ _ _ _ _ kept0 E) as (G0 & xs0 & R0 & X0 & -> & K1 & V1 & D1 & K2 & K3 & K4 & _).
  cbn [k_group icomponent0] in R0. rewrite R in R0. injection R0 as <- <-.
  destruct (residual_kind _ _ _ _ _ _ _ _ _ R S GR) as (A1 & A2 & A3).
  destruct (isetup_once_kept _ _ _ _ _ _ _ _ _ K1 E') as (G1 & xs1 & R1 & X1 & -> & _ & _ & _ & _ & _ & _ & VS & NR).
  assert (Q : In r (adeps (ig_api (k_group k)) root)).
  { rewrite D1. apply kept_roots; [apply (v_simple _ (proj1 (h_binv _ _ _ _ X0)))|auto]. }
  assert (W : is_resroot (ig_api G1) r = false).
  { apply (NR (VS V1)). apply kept_roots; [apply (v_simple _ (proj1 (h_binv _ _ _ _ X1)))|]. split.
    - now apply (h_root _ _ _ _ X1).
    - apply (h_mono _ _ _ _ X1). now rewrite K3. }
  unfold is_resroot in *. rewrite (h_kind _ _ _ _ X1), K2 in W; [congruence|].
  apply (v_fin _ (kp_base _ K1)) in Q. apply Q.
Qed.

(** The first run does what Implicit.build_problem says. *)
Lemma declare_with_api O fuel G st : aname st = aname (ig_api G) -> akind st = akind (ig_api G) ->
  forall rs t c, (forall r, In r rs -> collect_input_exprs fuel st r r [] = collect_input_exprs fuel (ig_api G) r r []) ->
  declare_residuals O fuel (with_api G st) rs t c = declare_residuals O fuel G rs t c.
Proof.
  intros N K. induction rs as [|r rs IH]; intros t c H; [reflexivity|].
  cbn [declare_residuals with_api ig_api ig_map ig_shape ig_val].
  assert (AI : forall out xs c, add_inputs st out xs c = add_inputs (ig_api G) out xs c).
  { clear -N. intros out. induction xs as [|x xs IH]; intros c; cbn [add_inputs]; [reflexivity|]. rewrite N.
    destruct (name_eqb _ _); [apply IH|]. destruct (has_var c _); [reflexivity|apply IH]. }
  rewrite (H r (or_introl eq_refl)), N. unfold is_resroot. rewrite K.
  assert (T : forall t c, declare_residuals O fuel (with_api G st) rs t c = declare_residuals O fuel G rs t c)
    by (intros; apply IH; intros; apply H; now right).
  cbn [with_api] in T. destruct (akind (ig_api G) r); try apply T;
    (destruct (collect_input_exprs fuel (ig_api G) r r []) as [l|]; [|reflexivity];
     destruct (dict_get _ (ig_map G)) as [out|]; [|reflexivity];
     destruct (has_var c out); [reflexivity|]; rewrite AI;
     destruct (add_inputs _ _ _ _); [apply T|reflexivity]).
Qed.

Lemma collect_with_api st d t : (forall n, ~ In root (adeps st n)) -> (forall n, n <> root -> d n = adeps st n) ->
  forall fuel rt e acc, e <> root -> collect_input_exprs fuel (set_adeps st d t) rt e acc = collect_input_exprs fuel st rt e acc.
Proof.
  intros NR D. induction fuel as [|f IH]; intros rt e acc He; [reflexivity|]. cbn [collect_input_exprs].
  cbn [set_adeps adeps]. rewrite (D e He).
  assert (H : forall x, In x (adeps st e) -> x <> root) by (intros x Hx ->; now apply NR in Hx).
  revert acc H. induction (adeps st e) as [|x xs IHx]; intros acc H; [reflexivity|]. cbn [collect_loop].
  cbn [set_adeps aname akind adeps]. rewrite (D x) by (apply H; now left).
  destruct (name_eqb _ _); [apply IHx; intros; apply H; now right|].
  rewrite IH by (apply H; now left). destruct (collect_input_exprs f st rt x _); [|reflexivity].
  apply IHx. intros; apply H; now right.
Qed.

Lemma first_setup O uid fuel h k x G xs :
  isetup_once O uid fuel icomponent0 h = Some (Ok (k, x)) ->
  run_iops O fuel igroup0 h = Some (G, xs) -> build_problem O fuel G = Some (Ok x).
Proof.
  unfold isetup_once. cbn [k_group icomponent0 k_all k_nodes k_passes]. intros E R. rewrite R in E. cbv zeta in E.
  pose proof (h_inv _ _ _ _ (run_ext O fuel h igroup0 G xs ainv0 R)) as [B _].
  unfold build_problem. set (rs := remove_nonresiduals _ _) in *.
  destruct (kept_roots (ig_isres G) (adeps (ig_api G) root) (v_simple _ B root)) as [_ KR]. fold rs in KR.
  rewrite declare_with_api in E; [|reflexivity|reflexivity|].
  - cbn [set_adeps atick] in E. fold icomp0 in E.
    destruct (declare_residuals O fuel G rs _ icomp0) as [[c|e]|]; try discriminate.
    destruct (setup_graph _ _ _ _ _ _ _ _ _) as [[[[nodes l] s']|e]|]; try discriminate.
    destruct (build_all _ _ _) as [ad|e]; [|discriminate]. cbn [bind] in E. unfold start_values in E.
    assert (IV : forall rs, initial_values (with_api G (set_adeps (ig_api G) (upd (adeps (ig_api G)) root rs) (atick (ig_api G)))) rs = initial_values G rs).
    { intros l0. generalize (upd (adeps (ig_api G)) root l0). intros d. induction l0 as [|a l0 IH]; [reflexivity|].
      cbn [initial_values]. rewrite IH. reflexivity. }
    rewrite IV in E. destruct (initial_values G rs) as [[|v vs]|e]; [|destruct ad|destruct ad; discriminate];
      try discriminate; destruct ad; injection E as _ <-; reflexivity.
  - intros r Hr. apply collect_with_api; [apply (v_noroot _ B)| |].
    + intros n Hn. now apply upd_other.
    + intros ->. apply KR in Hr. destruct Hr as [Hr _]. now apply (v_noroot _ B) in Hr.
Qed.

(** * One component, set up twice *)
(** An implicit output, an input and a residual made from both, for a group whose
    next object is [n]. *)
Definition small_component (n : nat) : list iop :=
  [CreateImplicit 1 [1] (Nd [1] (fun _ => 1%R)); Plain (DeclareInput 2) [1] (Nd [1] (fun _ => 1%R));
   Plain (Expr 0 [n; S n]) [1] (Nd [1] (fun _ => 1%R)); DefineResidual n (S (S n))].
Definition component_of (x : option (res (icomponent * (list nat * icomp * list (name * nd R))))) : icomponent :=
  match x with Some (Ok (k, _)) => k | _ => icomponent0 end.
Definition setup_outcome {A} (x : option (res (icomponent * A))) : option (option exn) :=
  match x with Some (Ok _) => Some None | Some (Raise e) => Some (Some e) | None => None end.
Definition isetup_next O uid fuel (model : nat -> list iop) (k : icomponent) :=
  isetup_once O uid fuel k (model (anext (ig_api (k_group k)))).

Lemma isetup_check O uid fuel model e :
  setup_outcome (isetup_next O uid fuel model icomponent0) = Some None ->
  setup_outcome (isetup_next O uid fuel model (component_of (isetup_next O uid fuel model icomponent0))) = Some (Some e) ->
  exists k x, isetup_once O uid fuel icomponent0 (model (anext (ig_api (k_group icomponent0)))) = Some (Ok (k, x))
    /\ isetup_once O uid fuel k (model (anext (ig_api (k_group k)))) = Some (Raise e).
Proof.
  unfold isetup_next. intros H1 H2.
  destruct (isetup_once O uid fuel icomponent0 _) as [[[k x]|e0]|]; try discriminate H1.
  exists k, x. split; [reflexivity|]. cbn [component_of] in H2.
  destruct (isetup_once O uid fuel k _) as [[[k' x']|e0]|]; try discriminate H2. now injection H2 as ->.
Qed.

Lemma component_twice : exists O uid fuel model e k x,
  isetup_once O uid fuel icomponent0 (model (anext (ig_api (k_group icomponent0)))) = Some (Ok (k, x))
  /\ isetup_once O uid fuel k (model (anext (ig_api (k_group k)))) = Some (Raise e).
Proof.
  exists nodup_oracle, (fun n => n), 60, small_component, ValueError.
  apply isetup_check; vm_compute; reflexivity.
Qed.

Lemma run_check O uid fuel h xs :
  setup_outcome (isetup_once O uid fuel icomponent0 h) = Some None ->
  option_map snd (run_iops O fuel igroup0 h) = Some xs ->
  exists k x G, isetup_once O uid fuel icomponent0 h = Some (Ok (k, x)) /\ run_iops O fuel igroup0 h = Some (G, xs).
Proof.
  intros H1 H2. destruct (isetup_once O uid fuel icomponent0 h) as [[[k x]|e0]|]; try discriminate H1.
  destruct (run_iops O fuel igroup0 h) as [[G xs']|]; [|discriminate H2].
  cbn [option_map snd] in H2. injection H2 as ->. eauto.
Qed.

(** The hypotheses of [no_second_setup] hold for it. *)
Lemma component_instance : exists O uid fuel h xs,
  (exists k x G, isetup_once O uid fuel icomponent0 h = Some (Ok (k, x)) /\ run_iops O fuel igroup0 h = Some (G, xs))
  /\ succeeded h xs 3 (DefineResidual 1 3).
Proof.
  exists nodup_oracle, (fun n => n), 60, (small_component 1), [Ok 1; Ok 2; Ok 3; Ok 1]. split.
  - apply run_check; vm_compute; reflexivity.
  - split; [reflexivity|]. exists 1. reflexivity.
Qed.
