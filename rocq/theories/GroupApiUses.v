(** The objects components read are ordinary expressions, and each has a
    component that writes its current name. *)
From Verif Require Import PyBase SpecGraph GraphLemmas Graph Replace ReplaceProofs
  GroupApi SpecApi GroupApiProofs GroupApiAcyclic GroupApiShape GroupApiWired.

Definition uses_ok (st : api) : Prop :=
  forall n a, uses st n a \/ (exists nm, In (nm, a) (atgt st n)) -> value_object st a.

Lemma visible_value st a : shape st -> visible st a = true -> value_object st a.
Proof.
  intros S V. pose proof (visible_name st a V) as N. apply visible_spec in V. destruct V as (V1 & V2 & V3).
  repeat split; auto. intros x H. destruct (s_decomp st S x a H) as (_ & _ & _ & _ & nm & Q). exact (N nm Q).
Qed.

Section WithO.
Variable O : oracle.

Lemma step_decomp fuel st o st' r x a : step O fuel st o = Some (st', r) ->
  adecomp st' x = Some a -> adecomp st x = Some a \/ a = anext st.
Proof.
  intros E D.
  destruct o as [s|s|s|s m|s i g|f args|out expr|out expr key|y key]; cbn [step] in E; cbv zeta in E.
  - left. injection E as <- _. destruct (arecent st); exact D.
  - left. injection E as E. unfold register_output in E.
    destruct (arecent st) eqn:Q; cbn [akind add_dep set_adeps new_obj] in E; rewrite upd_same in E;
    destruct (mem _ _); injection E as <- _; exact D.
  - left. injection E as <- _. exact D.
  - left. destruct (visible st m); [|injection E as <- _; exact D]. injection E as E. unfold register_output in E.
    destruct (akind st m); try destruct (mem _ _); injection E as <- _; exact D.
  - left. injection E as <- _.
    destruct (fold_add_spec O (anext st) (adeps st root)
      (set_recent (new_obj st KSubsystem (User s) (BSub i g)) (anext st))) as (d & t & EF & _). rewrite EF in D.
    exact D.
  - left. destruct (forallb (visible st) args); injection E as <- _; [|exact D].
    destruct (fold_add_spec O (anext st) args (new_obj st KVar (Auto (anext st)) (BExpr f args)))
      as (d & t & EF & _). rewrite EF in D. exact D.
  - left. destruct (visible st out && visible st expr && _); [|injection E as <- <-; exact D].
    destruct (Nat.eqb expr out); [injection E as <- <-; exact D|].
    destruct (adefined st out) eqn:DF; [injection E as <- <-; exact D|].
    destruct (define_graph _ _ _ _ _ _ _) as [d|]; [|discriminate].
    injection E as <- <-. exact D.
  - left. destruct (visible st out && visible st expr && _); [|injection E as <- <-; exact D].
    destruct key as [idx|e]; [|injection E as <- <-; exact D].
    destruct (existsb _ (atgt st out)); [injection E as <- <-; exact D|].
    destruct (existsb _ idx); injection E as <- <-; exact D.
  - destruct (visible st y); [|injection E as <- _; now left].
    destruct (adecomp st y) as [dc|] eqn:EY; destruct (find _ _) as [[k0 e]|]; injection E as <- _.
    + now left.
    + left. api. unfold upd in D. destruct (Nat.eqb_spec x y); congruence.
    + api. unfold upd in D. destruct (Nat.eqb_spec x y); [|now left]. right. now injection D.
    + api. unfold upd in D. destruct (Nat.eqb_spec x y); [|now left]. right. now injection D.
Qed.

Lemma value_object_step fuel st o st' r a : ainv st -> step O fuel st o = Some (st', r) ->
  value_object st a -> value_object st' a.
Proof.
  intros I E (V1 & V2 & V3 & V4). destruct (step_inv O _ _ _ _ _ I E) as [_ X].
  repeat split.
  - assumption.
  - pose proof (e_next _ _ _ X). lia.
  - now rewrite (e_kind _ _ _ X).
  - intros x D. destruct (step_decomp _ _ _ _ _ _ _ E D) as [Q|Q]; [now apply V4 in Q|lia].
Qed.

Lemma step_uses fuel st o st' r n a : step O fuel st o = Some (st', r) ->
  uses st' n a \/ (exists nm, In (nm, a) (atgt st' n)) ->
  (uses st n a \/ exists nm, In (nm, a) (atgt st n)) \/ visible st a = true.
Proof.
  intros E U.
  assert (SAME : abuild st' n = abuild st n -> atgt st' n = atgt st n ->
    (uses st n a \/ exists nm, In (nm, a) (atgt st n)) \/ visible st a = true).
  { intros E1 E2. left. rewrite E2 in U. destruct U as [U|U]; [left|now right].
    destruct U; rewrite E1 in *; [now apply (uses_arg _ _ f args)|now apply uses_def|now apply uses_whole]. }
  assert (NU : abuild st' n = NoBuild \/ (exists nm, abuild st' n = BIndep nm) \/ (exists k g, abuild st' n = BSub k g)
     \/ abuild st' n = BIndexed ->
     atgt st' n = atgt st n -> (uses st n a \/ exists nm, In (nm, a) (atgt st n)) \/ visible st a = true).
  { intros E1 E2. left. right. rewrite <- E2. destruct U as [U|U]; [|assumption]. exfalso.
    destruct U as [f args b H H'|e H|x H]; rewrite H in E1;
      destruct E1 as [E1|[[? E1]|[[? [? E1]]|E1]]]; discriminate. }
  destruct o as [s|s|s|s m|s i g|f args|out expr|out expr key|y key]; cbn [step] in E; cbv zeta in E.
  - injection E as <- _. destruct (Nat.eq_dec n (anext st)) as [Q|Q].
    + apply NU; [left|]; destruct (arecent st); api; unfold upd; subst; try rewrite Nat.eqb_refl; auto.
    + apply SAME; destruct (arecent st); api; auto; now rewrite upd_other.
  - injection E as E.
    assert (G : abuild st' n = upd (abuild st) (anext st) (BIndep (User s)) n /\ atgt st' n = atgt st n).
    { unfold register_output in E.
      destruct (arecent st) eqn:Q; cbn [akind add_dep set_adeps new_obj] in E; rewrite upd_same in E;
      destruct (mem _ _); injection E as <- _; auto. }
    destruct G as [G1 G2]. unfold upd in G1. destruct (Nat.eqb n (anext st)); [apply NU|apply SAME]; eauto.
  - injection E as <- _. destruct (Nat.eq_dec n (anext st)) as [Q|Q].
    + apply NU; [left|]; api; subst; auto. apply upd_same.
    + apply SAME; api; auto. now rewrite upd_other.
  - destruct (visible st m); [|injection E as <- _; apply SAME; reflexivity]. injection E as E. unfold register_output in E.
    destruct (akind st m); try destruct (mem _ _); injection E as <- _; apply SAME; reflexivity.
  - injection E as <- _.
    destruct (fold_add_spec O (anext st) (adeps st root)
      (set_recent (new_obj st KSubsystem (User s) (BSub i g)) (anext st))) as (d & t & EF & _). rewrite EF in *.
    destruct (Nat.eq_dec n (anext st)) as [Q|Q].
    + apply NU; [right; right; left; exists i, g|]; api; subst; auto. apply upd_same.
    + apply SAME; api; auto. now rewrite upd_other.
  - destruct (forallb (visible st) args) eqn:V; injection E as <- _; [|apply SAME; reflexivity].
    rewrite forallb_forall in V.
    destruct (fold_add_spec O (anext st) args (new_obj st KVar (Auto (anext st)) (BExpr f args)))
      as (d & t & EF & _). rewrite EF in *.
    destruct (Nat.eq_dec n (anext st)) as [Q|Q].
    + subst n. destruct U as [U|U]; [|left; right; exact U]. right. apply V.
      assert (EB : abuild (set_adeps (new_obj st KVar (Auto (anext st)) (BExpr f args)) d t) (anext st) = BExpr f args)
        by (api; apply upd_same).
      destruct U as [f' args' a H H'|e H|x H]; rewrite EB in H; try discriminate. injection H as <- <-. assumption.
    + apply SAME; api; auto. now rewrite upd_other.
  - destruct (visible st out && visible st expr && _) eqn:V; [|injection E as <- <-; apply SAME; reflexivity].
    apply andb_prop in V. destruct V as [V KX]. apply andb_prop in V. destruct V as [V1 V2].
    destruct (Nat.eqb expr out); [injection E as <- <-; apply SAME; reflexivity|].
    destruct (adefined st out) eqn:DF; [injection E as <- <-; apply SAME; reflexivity|].
    destruct (define_graph _ _ _ _ _ _ _) as [d|]; [|discriminate].
    injection E as <- <-. destruct (Nat.eq_dec n out) as [Q|Q].
    + destruct U as [U|U]; [|left; right; exact U]. right.
      destruct U as [f' args' a H H'|e H|x H]; api; subst n; rewrite upd_same in H; try discriminate.
      injection H as <-. assumption.
    + destruct (Nat.eq_dec n (anext st)) as [Q'|Q'].
      * apply NU; [left|reflexivity]. api. rewrite upd_other by assumption. subst. apply upd_same.
      * apply SAME; [|reflexivity]. api. rewrite !upd_other by assumption. reflexivity.
  - destruct (visible st out && visible st expr && _) eqn:V; [|injection E as <- <-; apply SAME; reflexivity].
    apply andb_prop in V. destruct V as [V KX]. apply andb_prop in V. destruct V as [V1 V2].
    destruct key as [idx|e]; [|injection E as <- <-; apply SAME; reflexivity].
    destruct (existsb _ (atgt st out)); [injection E as <- <-; apply SAME; reflexivity|].
    destruct (existsb _ idx); injection E as <- <-.
    + destruct U as [U|[nm U]].
      * left. left. destruct U; [now apply (uses_arg _ _ f args)|now apply uses_def|now apply uses_whole].
      * api. unfold upd in U. destruct (Nat.eqb_spec n out) as [Q|Q]; [|left; right; eauto]. subst n.
        apply in_app_iff in U. destruct U as [U|[U|[]]]; [left; right; eauto|]. right. injection U as _ <-. assumption.
    + destruct U as [U|[nm U]].
      * destruct (Nat.eq_dec n out) as [Q|Q].
        -- exfalso. destruct U as [f' args' a H H'|e H|x H]; api; subst n; rewrite upd_same in H; discriminate.
        -- left. left. destruct U as [f' args' a H H'|e H|x H]; api; rewrite upd_other in H by assumption;
             [now apply (uses_arg _ _ f' args')|now apply uses_def|now apply uses_whole].
      * api. unfold upd in U. destruct (Nat.eqb_spec n out) as [Q|Q]; [|left; right; eauto]. subst n.
        apply in_app_iff in U. destruct U as [U|[U|[]]]; [left; right; eauto|]. right. injection U as _ <-. assumption.
  - destruct (visible st y) eqn:V; [|injection E as <- _; apply SAME; reflexivity].
    destruct U as [U|U].
    2: { left. right. destruct (adecomp st y) as [dc|] eqn:EY; destruct (find _ _) as [[k0 e]|]; injection E as <- _; exact U. }
    assert (G : abuild st' n = abuild st n \/ abuild st' n = NoBuild \/ abuild st' n = BDecomp y).
    { destruct (adecomp st y) as [dc|] eqn:EY; destruct (find _ _) as [[k0 e]|]; injection E as <- _; auto;
        api; unfold upd; repeat match goal with |- context [if ?b then _ else _] => destruct b end; auto. }
    destruct G as [G|[G|G]].
    + left. left. destruct U; rewrite G in *; [now apply (uses_arg _ _ f args)|now apply uses_def|now apply uses_whole].
    + exfalso. destruct U; congruence.
    + right. destruct U as [f' args' a H H'|e H|x H]; rewrite G in H; try discriminate. injection H as <-. assumption.
Qed.

Lemma run_uses fuel : forall h st st' rs, ainv st -> shape st -> uses_ok st ->
  run_ops O fuel st h = Some (st', rs) -> uses_ok st'.
Proof.
  induction h as [|o h IH]; intros st st' rs I S U E; cbn [run_ops] in E.
  - injection E as <- _. assumption.
  - destruct (step O fuel st o) as [[st1 x]|] eqn:E1; [|discriminate].
    destruct (run_ops O fuel st1 h) as [[st2 xs]|] eqn:E2; [|discriminate]. injection E as <- _.
    apply (IH st1 st2 xs); auto.
    + now apply (step_inv O fuel st o st1 x).
    + now apply (step_shape O fuel st o st1 x).
    + intros n a H. apply (value_object_step fuel st o st1 x); auto.
      destruct (step_uses _ _ _ _ _ _ _ E1 H) as [Q|Q]; [now apply (U n)|now apply visible_value].
Qed.
End WithO.

Lemma uses_ok0 : uses_ok api0.
Proof. intros n a [H|[nm []]]. destruct H; discriminate. Qed.

(** Reading: the current name of every used object. *)
Lemma uses_reads sr st n a : uses st n a -> In (aname st a) (comp_reads sr st n).
Proof.
  unfold comp_reads. intros [f args b E H|e E|x E]; rewrite E; [now apply in_map|now left|now left].
Qed.

(** Writing: every value object that is not an input, and is defined, has a
    component that writes its current name. *)
Lemma value_producer sw st a : shape st -> value_object st a -> akind st a <> KInput ->
  (akind st a = KExplicit -> adefined st a = true) ->
  exists m, has_build st m = true /\ In (aname st a) (comp_writes sw st m)
    /\ (m = a \/ exists k, In (k, a) (aparts st m)).
Proof.
  intros S (V1 & V2 & V3 & V4) KI KE.
  assert (G : forall b, abuild st a = b -> (exists f args, b = BExpr f args) \/ (exists e, b = BPass e) \/ b = BIndexed
    -> exists m, has_build st m = true /\ In (aname st a) (comp_writes sw st m)
    /\ (m = a \/ exists k, In (k, a) (aparts st m))).
  { intros b E H. exists a. unfold has_build, comp_writes. rewrite E.
    destruct H as [(f & args & ->)|[(e & ->)| ->]]; simpl; auto. }
  destruct (akind st a) eqn:K; try congruence.
  - destruct (s_var st S a V1 V2 K) as [A|[[A1 (dc & k & A2)]|[x A]]].
    + apply (G _ eq_refl). auto.
    + destruct (s_parts st S dc k a A2) as (_ & _ & _ & x & DX).
      destruct (s_decomp st S x dc DX) as (_ & _ & _ & DB & _).
      exists dc. unfold has_build, comp_writes. rewrite DB. splits; auto; [|eauto].
      now apply (in_map (fun p => aname st (snd p)) _ (k, a)).
    + now apply V4 in A.
  - destruct (s_indep st S a K) as (s & A1 & A2). exists a. unfold has_build, comp_writes. rewrite A1, A2. simpl. auto.
  - destruct (s_expl st S a K) as [[_ Q]|[_ Q]]; [rewrite KE in Q by reflexivity; discriminate|].
    apply (G _ eq_refl). tauto.
  - now apply (s_imp st S) in K.
Qed.
