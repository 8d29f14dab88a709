(** What a rejected define_residual leaves behind, and what solve_linear computes
    in general. *)
From Coq Require Import Reals Lra.
From Verif Require Import PyBase SpecGraph GraphLemmas Graph Replace ReplaceProofs GroupApi SpecApi GroupApiProofs
  GroupApiAcyclic GroupApiHistory RSum NdArray CompElem Implicit SpecImplicit BisectProofs ImplicitProofs ImplicitSetup.
Import ListNotations.
Local Open Scope nat_scope.

Section S.
Variable O : oracle.

Lemma register_residual_defined st r : adefined (fst (register_residual O st r)) = adefined st.
Proof. unfold register_residual. destruct (akind st r); try reflexivity; now destruct (mem r (adeps st root)). Qed.

Lemma register_residual_next st r : anext (fst (register_residual O st r)) = anext st.
Proof. unfold register_residual. destruct (akind st r); try reflexivity; now destruct (mem r (adeps st root)). Qed.

(** the two ways a call giving a residual can end *)
Lemma start_cases fuel G out r G1 x : start_residual O fuel G out r = Some (G1, x) ->
  adefined (ig_api G1) = adefined (ig_api G)
  /\ (x = Raise ValueError -> r <> out -> adefined (ig_api G) out = false ->
      ig_isres G1 r = true /\ r < anext (ig_api G) /\ akind (ig_api G) r <> KInput).
Proof.
  intros E. unfold start_residual in E. cbv zeta in E. set (st := ig_api G) in *.
  destruct (_ && _) eqn:V; [|injection E as <- <-; split; [reflexivity|discriminate]].
  apply andb_true_iff in V. destruct V as [V K]. apply andb_true_iff in V. destruct V as [V1 V2].
  apply visible_spec in V2. destruct V2 as (_ & V2 & _).
  destruct (Nat.eqb_spec r out) as [->|NE]; [injection E as <- <-; split; [reflexivity|congruence]|].
  destruct (adefined st out) eqn:DF; [injection E as <- <-; split; [reflexivity|congruence]|].
  destruct (residual_graph O fuel out r (anext st) (adeps st) (atick st)) as [d|] eqn:RG; [|discriminate].
  set (st1 := set_adeps (new_obj st KInput (aname st out) NoBuild) d (S (atick st))) in *.
  pose proof (register_residual_defined st1 r) as RD.
  destruct (register_residual O st1 r) as [st2 y] eqn:RR. injection E as <- <-. cbn [ig_api ig_isres fst] in *.
  split; [exact RD|]. intros -> _ _. splits; [apply upd_same|assumption|].
  intros KI. unfold register_residual in RR.
  assert (Q : akind st1 r = KInput). { unfold st1. api. rewrite upd_other by lia. exact KI. }
  rewrite Q in RR. discriminate.
Qed.

Lemma istep_start fuel G o out r G' x : gives_residual o out r -> istep O fuel G o = Some (G', x) ->
  exists G1 x1, start_residual O fuel G out r = Some (G1, x1) /\
    match x1 with
    | Raise e => G' = G1 /\ x = Raise e
    | Ok _ => (forall n, adefined (ig_api G') n = true -> n = out \/ adefined (ig_api G1) n = true) /\ x = Ok out
    end.
Proof.
  intros H E. destruct o as [| |out' r'|out' r' x1 x2]; try contradiction; destruct H as [-> ->];
    cbn [istep] in E; (destruct (start_residual O fuel G out r) as [[G1 y]|] eqn:S; [|discriminate]);
    exists G1, y; (split; [reflexivity|]); destruct y as [k|e]; injection E as <- <-; split; auto;
    cbn [ig_api]; intros n; api; unfold upd; destruct (Nat.eqb_spec n out); auto.
Qed.

Lemma istep_defined fuel G o G' x n : ainv (ig_api G) -> istep O fuel G o = Some (G', x) ->
  akind (ig_api G') n = KImplicit -> adefined (ig_api G') n = true ->
  adefined (ig_api G) n = true \/ exists r, gives_residual o n r /\ exists y, x = Ok y.
Proof.
  intros I E K D. pose proof (istep_ext O fuel G o G' x I E) as X.
  assert (DEF : forall out r, gives_residual o out r -> adefined (ig_api G) n = true \/
            exists r, gives_residual o n r /\ exists y, x = Ok y).
  { intros out r GR. destruct (istep_start _ _ _ _ _ _ _ GR E) as (G1 & x1 & S & M).
    destruct (start_cases _ _ _ _ _ _ S) as [SD _]. destruct x1 as [k|e]; destruct M as [M ->].
    - destruct (M n D) as [->|Q]; [right; exists r; eauto|left; congruence].
    - left. congruence. }
  destruct o as [o s v|nm s v|out r|out r b1 b2].
  - cbn [istep] in E. cbv zeta in E. destruct (step O fuel (ig_api G) o) as [[st' y]|] eqn:S; [|discriminate].
    injection E as <- <-. cbn [ig_api] in *. apply (step_defined O _ _ _ _ _ n S) in D. destruct D as [D|[D1 D2]]; [auto|].
    exfalso. assert (KE : akind (ig_api G) n = KExplicit /\ n < anext (ig_api G)).
    { destruct o; try contradiction; subst; cbn [step] in S; cbv zeta in S;
        destruct (visible (ig_api G) n && visible (ig_api G) expr && _) eqn:V; try (injection S as _ <-; discriminate);
        apply andb_prop in V; destruct V as [V KX]; apply andb_prop in V; destruct V as [V1 V2];
        apply visible_spec in V1; (split; [destruct (akind (ig_api G) n); try discriminate; reflexivity|tauto]). }
    destruct KE as [KE L]. rewrite (x_kind _ _ _ _ X) in K by assumption. cbn [ig_api] in K. congruence.
  - cbn [istep] in E. cbv zeta in E. injection E as <- <-. left. exact D.
  - now apply (DEF out r).
  - now apply (DEF out r).
Qed.

Lemma run_defined fuel : forall h G xs n, run_iops O fuel igroup0 h = Some (G, xs) ->
  akind (ig_api G) n = KImplicit -> adefined (ig_api G) n = true ->
  exists j o r, succeeded h xs j o /\ gives_residual o n r.
Proof.
  induction h as [|o h IH] using rev_ind; intros G xs n E K D.
  - injection E as <- <-. discriminate.
  - apply run_iops_app in E. destruct E as (G1 & xs1 & xs2 & R1 & R2 & -> & L).
    apply run_iops_cons in R2. destruct R2 as (G2 & x & xs' & S & R2 & ->). injection R2 as -> <-.
    pose proof (h_inv _ _ _ _ (run_ext O fuel h igroup0 G1 xs1 ainv0 R1)) as I1.
    pose proof (istep_ext O fuel G1 o G x I1 S) as X.
    destruct (istep_defined _ _ _ _ _ _ I1 S K D) as [Q|(r & GR & y & ->)].
    + assert (Ln : n < anext (ig_api G1)).
      { destruct (le_lt_dec (anext (ig_api G1)) n) as [Q'|Q']; [|assumption].
        destruct (v_fresh _ (proj1 I1) n Q'). congruence. }
      destruct (IH _ _ n R1) as (j & q & r & [J1 (y & J2)] & J3); [|assumption|].
      * rewrite <- (x_kind _ _ _ _ X) by assumption. exact K.
      * exists j, q, r. split; [|assumption]. split.
        -- rewrite nth_error_app1; [assumption|]. apply nth_error_Some. congruence.
        -- exists y. rewrite nth_error_app1; [assumption|]. apply nth_error_Some. congruence.
    + exists (length h), o, r. split; [|assumption]. split.
      * now rewrite nth_error_app2, Nat.sub_diag by lia.
      * exists y. now rewrite nth_error_app2, L, Nat.sub_diag by lia.
Qed.

(** C79 *)
Theorem rejected_actual fuel h G xs i o out r rs c vs :
  run_iops O fuel igroup0 h = Some (G, xs) ->
  nth_error h i = Some o -> gives_residual o out r -> nth_error xs i = Some (Raise ValueError) ->
  r <> out -> (forall j o' r', j < i -> gives_residual o' out r' -> ~ succeeded h xs j o') ->
  akind (ig_api G) r <> KSubsystem -> akind (ig_api G) r <> KExplicit ->
  build_problem O fuel G = Some (Ok (rs, c, vs)) ->
  In r rs /\ exists j o' out' r', succeeded h xs j o' /\ gives_residual o' out' r'
    /\ aname (ig_api G) r' = aname (ig_api G) r.
Proof.
  intros E H1 GR H2 NE ND K1 K2 BP. pose proof E as E0.
  destruct (nth_error_split _ _ H1) as (h1 & h2 & -> & L1).
  apply run_iops_app in E. destruct E as (G1 & xs1 & xs2 & R1 & R2 & -> & L).
  apply run_iops_cons in R2. destruct R2 as (G2 & x & xs' & S & R2 & ->).
  assert (x = Raise ValueError).
  { rewrite nth_error_app2 in H2 by lia. replace (i - length xs1) with 0 in H2 by lia. now injection H2. }
  subst x.
  pose proof (h_inv _ _ _ _ (run_ext O fuel h1 igroup0 G1 xs1 ainv0 R1)) as I1.
  pose proof (istep_ext O fuel G1 o G2 _ I1 S) as X.
  pose proof (run_ext O fuel h2 G2 G xs' (x_inv _ _ _ _ X) R2) as H.
  destruct (istep_start _ _ _ _ _ _ _ GR S) as (G1' & x1 & SR & M).
  destruct x1 as [k|e]; destruct M as [M Q]; [discriminate|]. injection Q as <-. subst G1'.
  destruct (start_cases _ _ _ _ _ _ SR) as [SD SC].
  destruct (start_residual_ok O fuel G1 out r G2 _ I1 SR) as [(e & Q1 & Q2)|Q].
  - (* no check of the output failed, so the call got as far as registering *)
    exfalso. subst G2. clear e Q1. unfold start_residual in SR. cbv zeta in SR.
    destruct (_ && _) eqn:V; [|discriminate].
    destruct (Nat.eqb_spec r out) as [->|_]; [congruence|].
    destruct (adefined (ig_api G1) out) eqn:DF.
    + apply andb_true_iff in V. destruct V as [_ K].
      destruct (run_defined fuel h1 G1 xs1 out R1) as (j & q & r' & [J1 (y & J2)] & J3); [|assumption|].
      { destruct (akind (ig_api G1) out); congruence. }
      assert (Lj : j < length h1) by (apply nth_error_Some; congruence).
      apply (ND j q r'); [lia|assumption|]. split; [now rewrite nth_error_app1|].
      exists y. rewrite nth_error_app1 by lia. assumption.
    + destruct (residual_graph O fuel out r (anext (ig_api G1)) (adeps (ig_api G1)) (atick (ig_api G1))) as [d|]; [|discriminate].
      set (st1 := set_adeps (new_obj (ig_api G1) KInput (aname (ig_api G1) out) NoBuild) d (Datatypes.S (atick (ig_api G1)))) in *.
      pose proof (register_residual_next st1 r) as RN. destruct (register_residual O st1 r) as [st2 y].
      cbn [fst] in RN. injection SR as SR _.
      assert (Q : st2 = ig_api G1) by (rewrite <- SR; reflexivity). rewrite Q in RN. unfold st1 in RN. api. lia.
  - cbv zeta in Q. destruct Q as (A1 & A2 & A3 & A4 & A5 & A6 & A7 & A8 & A9 & A10 & A11 & A12 & A13 & A14 & _).
    assert (RO : In r (adeps (ig_api G1) root)).
    { unfold start_residual in SR. cbv zeta in SR.
      destruct (_ && _) eqn:V; [|discriminate].
      destruct (Nat.eqb_spec r out) as [->|_]; [congruence|]. rewrite A7 in SR.
      destruct (residual_graph O fuel out r (anext (ig_api G1)) (adeps (ig_api G1)) (atick (ig_api G1))) as [d|] eqn:RG; [|discriminate].
      set (st1 := set_adeps (new_obj (ig_api G1) KInput (aname (ig_api G1) out) NoBuild) d (Datatypes.S (atick (ig_api G1)))) in *.
      destruct (register_residual O st1 r) as [st2 y] eqn:RR. injection SR as SR ->.
      assert (E2 : st2 = ig_api G2) by (now rewrite <- SR).
      unfold register_residual in RR.
      assert (Q : mem r (adeps st1 root) = true /\ st2 = st1).
      { destruct (akind st1 r); [|discriminate| | | |];
          (destruct (mem r (adeps st1 root)); [injection RR as <-; auto|discriminate]). }
      destruct Q as [Q1 Q2]. apply mem_In in Q1.
      assert (Q3 : In r (adeps (ig_api G2) root)) by (rewrite <- E2, Q2; exact Q1).
      apply A12 in Q3. destruct Q3 as [Q3|((y & Q3) & _)]; [assumption|discriminate]. }
    assert (RG : In r (adeps (ig_api G) root)) by (apply (h_root _ _ _ _ H), (x_root _ _ _ _ X), RO).
    assert (IR : ig_isres G r = true).
    { apply (h_mono _ _ _ _ H). rewrite A14. apply upd_same. }
    destruct (build_parts O _ _ _ _ _ BP) as (ERS & _).
    assert (IN : In r rs).
    { rewrite ERS. apply kept_roots; [|auto]. apply (v_simple _ (proj1 (h_inv _ _ _ _ H))). }
    split; [assumption|].
    destruct (component_inputs O _ _ _ _ _ BP) as (CI & _).
    destruct (CI r IN K1 K2) as (oo & ins & MP & _).
    destruct (history_defs O fuel _ _ _ E0) as [D F]. rewrite (f_map _ _ _ _ _ _ F) in MP.
    assert (MK : forall D m, dict_get (aname (ig_api G) r)
               (fold_left (fun m d => dict_set (aname (ig_api G) (d_r d)) (d_o d) m) D m) = Some oo ->
             dict_get (aname (ig_api G) r) m = Some oo \/ exists d, In d D /\ aname (ig_api G) (d_r d) = aname (ig_api G) r).
    { clear. induction D as [|d D IH]; intros m Q; cbn [fold_left] in Q; [auto|].
      destruct (IH _ Q) as [Q1|(d' & Q1 & Q2)]; [|right; exists d'; split; [now right|assumption]].
      destruct (name_dec (aname (ig_api G) (d_r d)) (aname (ig_api G) r)) as [Q2|Q2].
      - right. exists d. split; [now left|assumption].
      - left. rewrite dict_get_set_other in Q1 by congruence. assumption. }
    destruct (MK D [] MP) as [Q|(d & Hd & Hn)]; [discriminate|].
    destruct (f_to _ _ _ _ _ _ F d Hd) as (j & q & out' & J1 & J2 & _).
    exists j, q, out', (d_r d). auto.
Qed.
End S.

(** C77 *)
Theorem solve_linear_actual md m dv d r :
  let os := map snd m in
  NoDup os ->
  let v := solve_linear md m dv (d, r) in
  (forall n, match md with Fwd => snd v n = r n | Rev => fst v n = d n end)
  /\ forall a, let old := match md with Fwd => d a | Rev => r a end in
     let new := match md with Fwd => fst v a | Rev => snd v a end in
     (~ In a os -> new = old)
     /\ (In a os -> shp new = shp old /\ forall i, dat new i =
           (dat old i + dat (match md with Fwd => r a | Rev => d a end) i / dat (dv a) i)%R).
Proof.
  intros os ND v. subst v. unfold solve_linear. fold os. destruct md.
  - destruct (solve_linear_fwd dv os d r ND) as (A & B & C). cbv zeta. split; [intros; now rewrite A|].
    intros a. split; [apply B|]. intros Ha. rewrite (C a Ha). split; [reflexivity|]. intros i. cbn [dat np_map2 np_map].
    unfold Rdiv. rewrite Rmult_1_l. now rewrite (Rmult_comm (/ _)).
  - destruct (solve_linear_rev dv os d r ND) as (A & B & C). cbv zeta. split; [intros; now rewrite A|].
    intros a. split; [apply B|]. intros Ha. rewrite (C a Ha). split; [reflexivity|]. intros i. cbn [dat np_map2 np_map].
    unfold Rdiv. rewrite Rmult_1_l. now rewrite (Rmult_comm (/ _)).
Qed.
