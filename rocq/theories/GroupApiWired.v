(** Every object a component will read is a dependency of its node. *)
From Verif Require Import PyBase SpecGraph GraphLemmas Graph Replace ReplaceProofs
  GroupApi SpecApi GroupApiProofs GroupApiAcyclic GroupApiShape.

Record wired (st : api) : Prop := {
  w_expr : forall n f args a, abuild st n = BExpr f args -> In a args -> In a (adeps st n);
  w_pass : forall n e, abuild st n = BPass e -> In e (adeps st n);
  w_tgt : forall n nm e, In (nm, e) (atgt st n) -> In e (adeps st n);
  w_dec : forall x dc, adecomp st x = Some dc -> In x (adeps st dc);
  w_part : forall dc k e, In (k, e) (aparts st dc) -> In dc (adeps st e);
  w_tgtk : forall n, atgt st n <> [] -> akind st n = KExplicit
}.

Lemma wired0 : wired api0.
Proof. constructor; simpl; intros; try discriminate; try contradiction; congruence. Qed.

Section WithO.
Variable O : oracle.

(** A step that keeps builders, targets, decompositions and edges. *)
Lemma wired_keep st st' : wired st -> (forall n v, In v (adeps st n) -> In v (adeps st' n)) ->
  abuild st' = abuild st -> atgt st' = atgt st -> adecomp st' = adecomp st -> aparts st' = aparts st ->
  (forall n, akind st n = KExplicit -> akind st' n = KExplicit) ->
  wired st'.
Proof.
  intros [H1 H2 H3 H4 H5 H6] HE E1 E2 E3 E4 EK.
  constructor; rewrite ?E1, ?E2, ?E3, ?E4; eauto.
Qed.

Lemma wired_new st k nm b : shape st -> base st -> wired st -> (forall f args, b = BExpr f args -> args = []) ->
  (forall e, b <> BPass e) -> wired (new_obj st k nm b).
Proof.
  intros S B [H1 H2 H3 H4 H5 H6] Hb Hp. constructor; api.
  - intros n f args a E H. unfold upd in E. destruct (Nat.eqb n (anext st)); [|eauto].
    rewrite (Hb f args E) in H. contradiction.
  - intros n e E. unfold upd in E. destruct (Nat.eqb n (anext st)); [|eauto]. now apply Hp in E.
  - exact H3.
  - exact H4.
  - exact H5.
  - intros n H. specialize (H6 n H). rewrite upd_other; [assumption|].
    intros ->. rewrite new_fresh in H6 by assumption. discriminate.
Qed.

Lemma wired_deps st d t : wired st -> (forall n v, In v (adeps st n) -> In v (d n)) -> wired (set_adeps st d t).
Proof. intros W H. apply wired_keep with st; auto. Qed.

Lemma fold_keeps n l st m v : In v (adeps st m) -> In v (adeps (fold_left (fun st x => add_dep O st n x) l st) m).
Proof.
  intros H. destruct (fold_add_spec O n l st) as (d & t & -> & H1 & H2 & _). api.
  destruct (Nat.eq_dec m n) as [->|Q]; [apply H2; auto|]. now rewrite H1.
Qed.

Lemma wired_fold n l st : wired st -> wired (fold_left (fun st x => add_dep O st n x) l st).
Proof.
  intros W. pose proof (fun m v => fold_keeps n l st m v) as K.
  destruct (fold_add_spec O n l st) as (d & t & E & _). rewrite E in *. now apply wired_deps.
Qed.

Lemma wired_add n x st : wired st -> wired (add_dep O st n x).
Proof. intros W. rewrite add_dep_fold. now apply wired_fold. Qed.

Lemma wired_register st s n st' r : wired st -> register_output O st s n = (st', r) -> wired st'.
Proof.
  intros W E. unfold register_output in E.
  assert (G : wired (add_dep O (set_name st n (User s)) root n)).
  { apply wired_add. apply wired_keep with st; auto. }
  destruct (akind st n); try (destruct (mem n (adeps st root))); injection E as <- _; assumption.
Qed.

Lemma step_wired fuel st o st' r : ainv st -> shape st -> acyclic (adeps st) -> no_self_reference st o ->
  wired st -> step O fuel st o = Some (st', r) -> wired st'.
Proof.
  intros I S AC NS W E. destruct (step_inv O fuel st o st' r I E) as [_ X].
  assert (KE : forall n v, In v (adeps st n) -> In v (adeps st' n)).
  { intros n v H. apply (e_edge _ st st' X n v H). now apply not_lost. }
  clear X. destruct I as [B R]. pose proof (v_pos st B) as P.
  destruct o as [s|s|s|s n|s k g|f args|out expr|out expr key|x key]; cbn [step] in E; cbv zeta in E.
  - injection E as <- _.
    assert (W1 : wired (new_obj st KInput (User s) NoBuild)) by (apply wired_new; auto; discriminate).
    destruct (arecent st); [now apply wired_add|assumption].
  - injection E as E.
    assert (W1 : wired (new_obj st KIndep (User s) (BIndep (User s)))) by (apply wired_new; auto; discriminate).
    revert E. apply wired_register. destruct (arecent st); [now apply wired_add|assumption].
  - injection E as <- _. apply wired_add. apply wired_new; auto; discriminate.
  - destruct (visible st n) eqn:V; [injection E as E|injection E as <- _; assumption].
    revert E. now apply wired_register.
  - injection E as <- _. apply wired_add, wired_fold.
    apply wired_keep with (new_obj st KSubsystem (User s) (BSub k g)); auto. apply wired_new; auto; discriminate.
  - destruct (forallb (visible st) args) eqn:V; injection E as <- _; [|assumption].
    destruct (fold_add_spec O (anext st) args (new_obj st KVar (Auto (anext st)) (BExpr f args)))
      as (d & t & EF & H1 & H2 & _). rewrite EF in *.
    destruct W as [W1 W2 W3 W4 W5 W6]. constructor; api.
    + intros n f' args' a Eb Ha. unfold upd in Eb. destruct (Nat.eqb_spec n (anext st)) as [Q|Q]; [|eauto].
      injection Eb as <- <-. subst n. apply H2. auto.
    + intros n e Eb. unfold upd in Eb. destruct (Nat.eqb n (anext st)); [discriminate|eauto].
    + eauto.
    + eauto.
    + eauto.
    + intros n H. specialize (W6 n H). rewrite upd_other; [assumption|].
      intros ->. rewrite new_fresh in W6 by assumption. discriminate.
  - destruct (visible st out && visible st expr && _) eqn:V; [|injection E as <- _; assumption].
    apply andb_prop in V. destruct V as [V KX]. apply andb_prop in V. destruct V as [V1 V2].
    assert (KO : akind st out = KExplicit) by (destruct (akind st out); congruence). clear KX.
    apply visible_spec in V1. destruct V1 as (V1 & V1' & _).
    apply visible_spec in V2. destruct V2 as (V2 & V2' & _).
    destruct (Nat.eqb_spec expr out) as [Q|NE]; [injection E as <- _; assumption|].
    destruct (adefined st out) eqn:DF; [injection E as <- _; assumption|].
    destruct (define_graph O fuel out expr (anext st) (adeps st) (atick st)) as [d|] eqn:ED; [|discriminate].
    injection E as <- _.
    destruct (define_graph_partial O out expr (anext st) (adeps st) (anext st) (atick st) fuel d
                (v_fin st B) (v_simple st B) NE V2' V1' (le_n _) ED) as (P1 & _).
    destruct W as [W1 W2 W3 W4 W5 W6]. constructor; api.
    + intros n f args a Eb Ha. unfold upd in Eb. destruct (Nat.eqb n out); [discriminate|].
      destruct (Nat.eqb n (anext st)); [discriminate|]. eauto.
    + intros n e Eb. unfold upd in Eb. destruct (Nat.eqb_spec n out) as [Q|Q].
      * injection Eb as <-. subst n. apply (P1 out (or_introl eq_refl)). left. split; [assumption|]. now right.
      * destruct (Nat.eqb n (anext st)); [discriminate|]. eauto.
    + eauto.
    + eauto.
    + eauto.
    + intros n H. specialize (W6 n H). rewrite upd_other; [assumption|].
      intros ->. rewrite new_fresh in W6 by assumption. discriminate.
  - destruct (visible st out && visible st expr && _) eqn:V; [|injection E as <- _; assumption].
    apply andb_prop in V. destruct V as [V KX]. apply andb_prop in V. destruct V as [V1 V2].
    assert (KO : akind st out = KExplicit) by (destruct (akind st out); congruence). clear KX.
    assert (W1 : wired (add_dep O st out expr)) by (now apply wired_add).
    assert (NE : In expr (adeps (add_dep O st out expr) out)) by (apply add_dep_in; auto).
    destruct key as [idx|e]; [|injection E as <- _; assumption].
    destruct (existsb _ (atgt st out)); [injection E as <- _; assumption|].
    assert (W2 : wired (set_tgt (add_dep O st out expr) out (atgt st out ++ [(aname st expr, expr)]) (achecked st out ++ idx))).
    { destruct W1 as [Q1 Q2 Q3 Q4 Q5 Q6].
      constructor; try assumption; cbn [atgt adeps akind set_tgt]; unfold upd at 1.
      - intros n nm e. destruct (Nat.eqb_spec n out) as [Q|Q]; [|apply Q3]. subst n.
        rewrite in_app_iff. intros [H|[H|[]]]; [now apply (Q3 out nm)|]. injection H as _ <-. exact NE.
      - intros n H. destruct (Nat.eqb_spec n out) as [Q|Q]; [|now apply Q6]. subst n. exact KO. }
    destruct (existsb _ idx); injection E as <- _; [assumption|].
    destruct W2 as [Q1 Q2 Q3 Q4 Q5 Q6]. constructor; try assumption; cbn [abuild set_build adeps set_defined].
    + intros n f args a Eb. unfold upd in Eb. destruct (Nat.eqb n out); [discriminate|]. now apply (Q1 n f args a).
    + intros n e Eb. unfold upd in Eb. destruct (Nat.eqb n out); [discriminate|]. now apply (Q2 n e).
  - destruct (visible st x) eqn:V; [|injection E as <- _; assumption].
    apply visible_spec in V. destruct V as (V1 & V2 & _).
    match type of E with (let '(st1, dc) := ?m in _) = _ => destruct m as [st1 dc] eqn:ED end.
    assert (Q : wired st1 /\ In x (adeps st1 dc) /\ adecomp st1 x = Some dc).
    { destruct (adecomp st x) as [dc'|] eqn:EX.
      - injection ED as <- <-. split; [assumption|]. split; [now apply (w_dec st W)|assumption].
      - injection ED as <- <-. split; [|split; [apply add_dep_in; auto|api; apply upd_same]].
        assert (W1 : wired (new_obj st KVar (Decompose (aname st x)) NoBuild)) by (apply wired_new; auto; discriminate).
        assert (W2 : wired (add_dep O (new_obj st KVar (Decompose (aname st x)) NoBuild) (anext st) x)) by now apply wired_add.
        assert (NE : In x (adeps (add_dep O (new_obj st KVar (Decompose (aname st x)) NoBuild) (anext st) x) (anext st)))
          by (apply add_dep_in; auto).
        destruct W2 as [Q1 Q2 Q3 Q4 Q5 Q6].
        constructor; try assumption; cbn [adecomp aparts add_dep set_adeps set_parts]; unfold upd at 1.
        + intros y dc. destruct (Nat.eqb_spec y x) as [Q|Q]; [|apply Q4].
          intros H. injection H as <-. subst y. exact NE.
        + intros dc k e. destruct (Nat.eqb_spec dc (anext st)); [intros []|]. apply Q5. }
    destruct Q as (W1 & HX & DX).
    destruct (find (fun p => fst p =? key) (aparts st1 dc)) as [[k e]|] eqn:EF; [injection E as <- _; assumption|].
    injection E as <- _.
    assert (KV : akind st1 (anext st1) = KVar).
    { clear KE. destruct (adecomp st x) as [dc'|] eqn:EX; injection ED as <- <-; [now apply new_fresh|].
      api. rewrite upd_other by lia. apply (v_fresh st B). lia. }
    clear KE ED. set (e := anext st1) in *.
    set (stP := set_parts (new_obj st1 KVar (Auto e) NoBuild) x dc (aparts st1 dc ++ [(key, e)])).
    assert (NE : In dc (adeps (add_dep O stP e dc) e)) by (apply add_dep_in; auto).
    assert (KE : forall n v, In v (adeps st1 n) -> In v (adeps (add_dep O stP e dc) n)).
    { intros n v H. apply add_dep_in. left. exact H. }
    destruct W1 as [Q1 Q2 Q3 Q4 Q5 Q6]. constructor.
    + intros n f args a Eb Ha. apply KE. apply (Q1 n f args a); [|assumption].
      cbn [abuild set_build add_dep set_adeps stP set_parts new_obj] in Eb. unfold upd in Eb.
      destruct (Nat.eqb n dc); [discriminate|]. destruct (Nat.eqb n (anext st1)); [discriminate|assumption].
    + intros n a Eb. apply KE. apply (Q2 n a).
      cbn [abuild set_build add_dep set_adeps stP set_parts new_obj] in Eb. unfold upd in Eb.
      destruct (Nat.eqb n dc); [discriminate|]. destruct (Nat.eqb n (anext st1)); [discriminate|assumption].
    + intros n nm a H. apply KE. now apply (Q3 n nm a).
    + intros y dc' H. apply KE. apply Q4.
      cbn [adecomp set_build add_dep set_adeps stP set_parts new_obj] in H. unfold upd in H.
      destruct (Nat.eqb_spec y x); congruence.
    + intros dc' k a H. cbn [aparts set_build add_dep set_adeps stP set_parts new_obj] in H. unfold upd in H.
      destruct (Nat.eqb_spec dc' dc) as [Q|Q]; [|apply KE; now apply (Q5 dc' k a)]. subst dc'.
      apply in_app_iff in H. destruct H as [H|[H|[]]]; [apply KE; now apply (Q5 dc k a)|].
      injection H as _ <-. exact NE.
    + intros n H. specialize (Q6 n H). cbn [akind set_build add_dep set_adeps stP set_parts new_obj].
      rewrite upd_other; [assumption|]. intros ->. fold e in Q6. congruence.
Qed.

Lemma run_wired fuel : forall h st st' rs, ainv st -> shape st -> acyclic (adeps st) -> wired st ->
  throughout O no_self_reference fuel st h -> run_ops O fuel st h = Some (st', rs) -> wired st'.
Proof.
  induction h as [|o h IH]; intros st st' rs I S AC W TH E; cbn [run_ops throughout] in *.
  - injection E as <- _. assumption.
  - destruct (step O fuel st o) as [[st1 x]|] eqn:E1; [|discriminate].
    destruct (run_ops O fuel st1 h) as [[st2 xs]|] eqn:E2; [|discriminate]. injection E as <- _.
    destruct TH as [T1 T2].
    apply (IH st1 st2 xs); auto.
    + now apply (step_inv O fuel st o st1 x).
    + now apply (step_shape O fuel st o st1 x).
    + apply (step_acyclic O fuel st o st1 x); auto. now apply self_reference_assign.
    + now apply (step_wired fuel st o st1 x).
    + now apply (T2 st1 x).
Qed.
End WithO.
