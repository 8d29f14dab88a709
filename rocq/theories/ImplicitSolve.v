(** Solving an implicit component: proofs. *)
From Coq Require Import Reals Lra.
From Verif Require Import PyBase SpecGraph GraphLemmas Graph Replace ReplaceProofs GroupApi SpecApi GroupApiProofs
  GroupApiAcyclic RSum NdArray CompElem Implicit SpecImplicit BisectProofs ImplicitProofs ImplicitSetup.
Import ListNotations.
Local Open Scope nat_scope.

Section S.
Variable O : oracle.

Lemma roots_of fuel h G xs rs c vs : run_iops O fuel igroup0 h = Some (G, xs) ->
  build_problem O fuel G = Some (Ok (rs, c, vs)) ->
  NoDup rs /\ forall n, In n rs <-> In n (adeps (ig_api G) root) /\ ig_isres G n = true.
Proof.
  intros HR E. pose proof (run_ext O fuel h igroup0 G xs ainv0 HR) as H.
  destruct (build_parts _ _ _ _ _ _ E) as (-> & _ & _). apply kept_roots.
  apply (v_simple _ (proj1 (h_inv _ _ _ _ H))).
Qed.

(** A component whose only residual was given with a bracket. *)
Lemma single_def fuel h G xs r c vs i out b1 b2 : run_iops O fuel igroup0 h = Some (G, xs) ->
  build_problem O fuel G = Some (Ok ([r], c, vs)) ->
  succeeded h xs i (DefineBracketed out r b1 b2) ->
  exists o, ig_map G = [(aname (ig_api G) r, o)] /\ ig_brackets G = Some ([(o, b1)], [(o, b2)]).
Proof.
  intros HR E Q. destruct (roots_of _ _ _ _ _ _ _ HR E) as [_ RT].
  destruct (history_defs O fuel h G xs HR) as [D F].
  destruct (f_from _ _ _ _ _ _ F i _ out r Q) as (d & B1 & B2 & B3 & _); [split; reflexivity|].
  assert (AR : forall d', In d' D -> d_r d' = r).
  { intros d' Hd. apply (f_root _ _ _ _ _ _ F), RT in Hd. destruct Hd as [Hd|[]]. auto. }
  assert (D = [d]) as ED.
  { pose proof (f_nodup _ _ _ _ _ _ F) as ND. destruct D as [|a [|b D]]; [contradiction| |].
    - destruct B1 as [->|[]]. reflexivity.
    - exfalso. inversion ND as [|? ? NI _]; subst. apply NI. left.
      rewrite (AR a), (AR b); auto using in_eq, in_cons. }
  subst D. exists (d_o d). rewrite (f_map _ _ _ _ _ _ F), (f_br _ _ _ _ _ _ F).
  unfold map_of, brackets_of. cbn [fold_left dict_set]. rewrite B2, B3. auto.
Qed.

(** C56 *)
Theorem bracketed_root fuel h G xs r c vs i out b1 b2 o s v x1 x2 F outputs f m :
  run_iops O fuel igroup0 h = Some (G, xs) ->
  build_problem O fuel G = Some (Ok ([r], c, vs)) ->
  succeeded h xs i (DefineBracketed out r b1 b2) ->
  In (o, (s, v)) (ic_outs c) -> stands_for b1 s x1 -> stands_for b2 s x2 ->
  elementwise F outputs o (aname (ig_api G) r) s f ->
  (forall j, j < size s -> (forall z, between (x1 j) (x2 j) z -> continuity_pt (f j) z)
                           /\ (f j (x1 j) * f j (x2 j) <= 0)%R) ->
  exists outputs', solve_nonlinear m G [r] F outputs = Ok outputs'
    /\ (forall n, n <> o -> outputs' n = outputs n) /\ shp (outputs' o) = s
    /\ forall j, j < size s -> exists z, between (x1 j) (x2 j) z /\ f j z = 0%R
         /\ (Rabs (dat (outputs' o) j - z) <= Rabs (x2 j - x1 j) / 2 ^ 101)%R.
Proof.
  intros HR E Q HO S1 S2 EL CS.
  destruct (single_def _ _ _ _ _ _ _ _ _ _ _ HR E Q) as (o' & EM & EB).
  apply (component_start O fuel G [r] c vs E) in HO.
  destruct HO as (r' & [<-|[]] & K1 & K2 & DG & ES & _).
  pose proof DG as DG'. rewrite EM in DG. cbn [dict_get] in DG. rewrite name_eqb_refl in DG. injection DG as ->.
  unfold solve_nonlinear. cbn [solve_loop].
  rewrite (proj2 (resroot_spec (ig_api G) r) (conj K1 K2)), DG', EB, <- ES.
  cbn [dict_get]. rewrite name_eqb_refl.
  destruct (bracket_ok b1 s x1 S1) as (a1 & -> & T1 & U1).
  destruct (bracket_ok b2 s x2 S2) as (a2 & -> & T2 & U2).
  rewrite EM. cbn [residual_name]. rewrite name_eqb_refl.
  eexists. split; [reflexivity|]. splits.
  - intros n Hn. now apply set_out_other.
  - now rewrite set_out_same.
  - intros j Hj. rewrite set_out_same. cbn [dat].
    destruct (CS j Hj) as [C P].
    rewrite <- (U1 j Hj), <- (U2 j Hj) in *.
    destruct (bisect_start (fun x => F (set_out outputs o x) (aname (ig_api G) r)) s (f j) a1 a2 j (component_maxiter m) Hj)
      as (z & Z1 & Z2 & Z3); auto.
    + intros x Hx. apply EL; auto. { apply set_out_same. } intros n Hn. now apply set_out_other.
    + exists z. splits; auto.
Qed.

(** C57 *)
Theorem limit_ignored m m' G rs F outputs : solve_nonlinear m G rs F outputs = solve_nonlinear m' G rs F outputs.
Proof. reflexivity. Qed.

(** C58 *)
Lemma solve_unbracketed G F m m1 m2 : ig_brackets G = Some (m1, m2) -> forall rs outputs r o,
  In r rs -> is_resroot (ig_api G) r = true -> dict_get (aname (ig_api G) r) (ig_map G) = Some o ->
  dict_get o m1 = None -> forall y, solve_loop G F m rs outputs <> Ok y.
Proof.
  intros EB. induction rs as [|q rs IH]; intros outputs r o Hr IR DG NB y E; [contradiction|].
  cbn [solve_loop] in E. rewrite EB in E. destruct Hr as [->|Hr].
  - rewrite IR, DG, NB in E. discriminate.
  - destruct (is_resroot (ig_api G) q); [|now apply (IH _ r o Hr IR DG NB y) in E].
    destruct (dict_get (aname (ig_api G) q) (ig_map G)) as [o'|]; [|discriminate].
    destruct (dict_get o' m1); [|discriminate]. destruct (dict_get o' m2); [|discriminate].
    destruct (bracket_array _ _); [|discriminate]. destruct (bracket_array _ _); [|discriminate].
    destruct (residual_name _ _); [|discriminate]. now apply (IH _ r o Hr IR DG NB y) in E.
Qed.

Lemma brackets_shape D : brackets_of D = None /\ (forall d, In d D -> d_br d = None)
  \/ exists o x1 x2, brackets_of D = Some ([(o, x1)], [(o, x2)])
       /\ exists d, In d D /\ d_o d = o /\ d_br d = Some (x1, x2).
Proof.
  induction D as [|d D IH] using rev_ind; [left; split; [reflexivity|intros ? []]|].
  unfold brackets_of. rewrite fold_left_app. cbn [fold_left]. fold (brackets_of D).
  destruct (d_br d) as [[x1 x2]|] eqn:E.
  - right. exists (d_o d), x1, x2. split; [reflexivity|]. exists d. splits; auto. apply in_app_iff. right. now left.
  - destruct IH as [[A B]|(o & x1 & x2 & A & d' & B1 & B2)].
    + left. split; [assumption|]. intros d' H. apply in_app_iff in H. destruct H as [H|[<-|[]]]; auto.
    + right. exists o, x1, x2. split; [assumption|]. exists d'. splits; try tauto. apply in_app_iff. now left.
Qed.

Theorem several_bracketed fuel h G xs rs c vs i out r b1 b2 o1 o2 p1 p2 m F outputs :
  run_iops O fuel igroup0 h = Some (G, xs) ->
  build_problem O fuel G = Some (Ok (rs, c, vs)) ->
  succeeded h xs i (DefineBracketed out r b1 b2) ->
  In (o1, p1) (ic_outs c) -> In (o2, p2) (ic_outs c) -> o1 <> o2 ->
  exists e, solve_nonlinear m G rs F outputs = Raise e.
Proof.
  intros HR E Q H1 H2 NE.
  destruct (history_defs O fuel h G xs HR) as [D FD].
  destruct (f_from _ _ _ _ _ _ FD i _ out r Q) as (d & B1 & B2 & B3 & _); [split; reflexivity|].
  cbn [op_brackets] in B3.
  destruct (brackets_shape D) as [[_ A]|(o & x1 & x2 & A & _)]; [rewrite (A d B1) in B3; discriminate|].
  rewrite <- (f_br _ _ _ _ _ _ FD) in A.
  assert (W : exists o' p, In (o', p) (ic_outs c) /\ o' <> o).
  { destruct (name_dec o1 o) as [->|W]; [exists o2, p2; split; [assumption|congruence]|exists o1, p1; auto]. }
  destruct W as (o' & [s v] & W1 & W2).
  apply (component_start O fuel G rs c vs E) in W1. destruct W1 as (r' & R1 & K1 & K2 & DG & _).
  destruct (solve_nonlinear m G rs F outputs) as [y|e] eqn:S; [|eauto]. exfalso. revert S.
  unfold solve_nonlinear. apply (solve_unbracketed _ _ _ _ _ A rs outputs r' o'); auto.
  - now apply resroot_spec.
  - cbn [dict_get]. assert (name_eqb o o' = false) as -> by (apply name_eqb_neq; congruence). reflexivity.
Qed.

(** C75, C78 *)
Lemma outvals_key D : outvals_of D = [] /\ (forall d, In d D -> d_br d <> None) \/
  (outvals_of D <> [] /\ forall o v, dict_get o (outvals_of D) = Some v ->
     exists d, In d D /\ d_o d = o /\ d_br d = None /\ d_v d = v).
Proof.
  induction D as [|d D IH] using rev_ind; [left; split; [reflexivity|intros ? []]|].
  unfold outvals_of. rewrite fold_left_app. cbn [fold_left]. fold (outvals_of D).
  destruct (d_br d) as [p|] eqn:E.
  - destruct IH as [[A B]|[A B]].
    + left. split; [assumption|]. intros d' H. apply in_app_iff in H. destruct H as [H|[<-|[]]]; [auto|congruence].
    + right. split; [assumption|]. intros o v Q. destruct (B o v Q) as (d' & B1 & B2).
      exists d'. split; [apply in_app_iff; now left|assumption].
  - right. split.
    + destruct (outvals_of D) as [|[k x] l]; cbn [dict_set]; [discriminate|]. destruct (name_eqb _ _); discriminate.
    + intros o v Q. destruct (name_dec o (d_o d)) as [->|N].
      * rewrite dict_get_set_same in Q. injection Q as <-. exists d. splits; auto. apply in_app_iff. right. now left.
      * rewrite dict_get_set_other in Q by assumption. destruct IH as [[A B]|[A B]].
        -- rewrite A in Q. discriminate.
        -- destruct (B o v Q) as (d' & B1 & B2). exists d'. split; [apply in_app_iff; now left|assumption].
Qed.

Lemma initial_values_keys G : forall rs vs, initial_values G rs = Ok vs -> forall r o, In r rs ->
  is_resroot (ig_api G) r = true -> dict_get (aname (ig_api G) r) (ig_map G) = Some o ->
  ig_outvals G <> [] -> exists v, dict_get o (ig_outvals G) = Some v.
Proof.
  induction rs as [|q rs IH]; intros vs E r o Hr IR DG NE; [contradiction|]. cbn [initial_values] in E.
  destruct Hr as [->|Hr].
  - rewrite IR, DG in E. destruct (ig_outvals G) as [|p l] eqn:EV; [congruence|].
    destruct (dict_get o (p :: l)) as [v|]; [eauto|discriminate].
  - destruct (is_resroot (ig_api G) q); [|eauto]. destruct (dict_get (aname (ig_api G) q) (ig_map G)) as [o'|]; [|discriminate].
    destruct (match ig_outvals G with [] => _ | _ :: _ => _ end); [|discriminate].
    destruct (initial_values G rs) as [l|] eqn:EI; [|discriminate]. eauto.
Qed.

Lemma initial_values_spec G : forall rs vs, initial_values G rs = Ok vs -> forall o v, In (o, v) vs <->
  exists r, In r rs /\ is_resroot (ig_api G) r = true /\ dict_get (aname (ig_api G) r) (ig_map G) = Some o
    /\ (ig_outvals G = [] /\ v = Nd [1] (fun _ => 1%R) \/ ig_outvals G <> [] /\ dict_get o (ig_outvals G) = Some v).
Proof.
  induction rs as [|q rs IH]; intros vs E o v; cbn [initial_values] in E.
  - injection E as <-. split; [intros []|intros (r & [] & _)].
  - destruct (is_resroot (ig_api G) q) eqn:IQ.
    + destruct (dict_get (aname (ig_api G) q) (ig_map G)) as [o'|] eqn:DQ; [|discriminate].
      assert (H : exists v' l, (ig_outvals G = [] /\ v' = Nd [1] (fun _ => 1%R) \/
                  ig_outvals G <> [] /\ dict_get o' (ig_outvals G) = Some v') /\
                  initial_values G rs = Ok l /\ vs = (o', v') :: l).
      { destruct (ig_outvals G) as [|p l'] eqn:EV.
        - destruct (initial_values G rs) as [l|]; [|discriminate]. injection E as <-.
          exists (Nd [1] (fun _ => 1%R)), l. splits; auto.
        - destruct (dict_get o' (p :: l')) as [v'|]; [|discriminate].
          destruct (initial_values G rs) as [l|]; [|discriminate]. injection E as <-.
          exists v', l. splits; auto. right. split; [discriminate|reflexivity]. }
      destruct H as (v' & l & Hv & El & ->). specialize (IH l El o v). cbn [In]. split.
      * intros [Q|Q]; [injection Q as <- <-; exists q; splits; auto|].
        apply IH in Q. destruct Q as (r & Hr & Q). exists r. split; [now right|exact Q].
      * intros (r & [<-|Hr] & Q1 & Q2 & Q3); [left|right; apply IH; now exists r].
        rewrite DQ in Q2. injection Q2 as <-. f_equal.
        destruct Hv as [[A ->]|[A B]], Q3 as [[C ->]|[C D]]; congruence.
    + specialize (IH vs E o v). rewrite IH. split; intros (r & Hr & Q).
      * exists r. split; [now right|exact Q].
      * destruct Hr as [<-|Hr]; [destruct Q as (Q & _); congruence|now exists r].
Qed.

(** C75: the values set in the internal problem *)
Theorem internal_start fuel G rs c vs : build_problem O fuel G = Some (Ok (rs, c, vs)) ->
  forall o v, In (o, v) vs <-> exists r, In r rs /\ akind (ig_api G) r <> KSubsystem
    /\ akind (ig_api G) r <> KExplicit /\ dict_get (aname (ig_api G) r) (ig_map G) = Some o
    /\ (ig_outvals G = [] /\ v = Nd [1] (fun _ => 1%R) \/ ig_outvals G <> [] /\ dict_get o (ig_outvals G) = Some v).
Proof.
  intros E o v. destruct (build_parts _ _ _ _ _ _ E) as (_ & _ & EV).
  rewrite (initial_values_spec G rs vs EV o v). split; intros (r & Q).
  - exists r. destruct Q as (Q1 & Q2 & Q3). apply resroot_spec in Q2. tauto.
  - exists r. destruct Q as (Q1 & Q2 & Q3 & Q4 & Q5). splits; auto. apply resroot_spec. tauto.
Qed.

Theorem guess_recorded fuel h G xs out r G' y : run_iops O fuel igroup0 h = Some (G, xs) ->
  istep O fuel G (DefineResidual out r) = Some (G', Ok y) ->
  forall o, dict_get o (ig_outvals G') =
    if name_dec o (aname (ig_api G) out) then Some (ig_val G out) else dict_get o (ig_outvals G).
Proof.
  intros HR S o. pose proof (run_ext O fuel h igroup0 G xs ainv0 HR) as H.
  pose proof (istep_ext O fuel G _ G' _ (h_inv _ _ _ _ H) S) as X.
  destruct (x_def _ _ _ _ X out r y) as (_ & _ & _ & _ & _ & _ & _ & _ & _ & _ & _ & _ & ->); [split; reflexivity|reflexivity|].
  cbn [new_outvals]. destruct (name_dec o (aname (ig_api G) out)) as [->|N].
  - apply dict_get_set_same.
  - now apply dict_get_set_other.
Qed.

Theorem mixed_outputs fuel h G xs rs c vs i out r :
  run_iops O fuel igroup0 h = Some (G, xs) ->
  build_problem O fuel G = Some (Ok (rs, c, vs)) ->
  succeeded h xs i (DefineResidual out r) ->
  forall o p, In (o, p) (ic_outs c) -> exists j out' r', succeeded h xs j (DefineResidual out' r')
    /\ named_at O fuel h j out' o.
Proof.
  intros HR E Q o [s v] Ho.
  destruct (history_defs O fuel h G xs HR) as [D FD].
  destruct (f_from _ _ _ _ _ _ FD i _ out r Q) as (d & B1 & B2 & B3 & _); [split; reflexivity|].
  cbn [op_brackets] in B3.
  destruct (outvals_key D) as [[_ A]|[A1 A2]]; [destruct (A d B1 B3)|].
  rewrite <- (f_vals _ _ _ _ _ _ FD) in A1, A2.
  apply (component_start O fuel G rs c vs E) in Ho. destruct Ho as (r' & R1 & K1 & K2 & DG & _).
  destruct (build_parts _ _ _ _ _ _ E) as (_ & _ & EV).
  destruct (initial_values_keys G rs vs EV r' o R1 (proj2 (resroot_spec _ _) (conj K1 K2)) DG A1) as [v' EV'].
  destruct (A2 o v' EV') as (d' & D1 & D2 & D3 & D4).
  destruct (f_to _ _ _ _ _ _ FD d' D1) as (j & q & out' & T1 & T2 & T3 & T4).
  rewrite D3 in T3. destruct q as [| |out'' r''|]; try contradiction; [|discriminate].
  destruct T2 as [-> _]. subst o. exists j, out', r''. auto.
Qed.
End S.
