(** What kinds of objects exist after a history of calls, and how they are wired. *)
From Verif Require Import PyBase SpecGraph GraphLemmas Graph Replace ReplaceProofs
  GroupApi SpecApi GroupApiProofs GroupApiAcyclic.

Definition is_part (st : api) (n : nat) : Prop := exists dc k, In (k, n) (aparts st dc).

Record shape (st : api) : Prop := {
  s_input : forall n, akind st n = KInput -> abuild st n = NoBuild;
  s_indep : forall n, akind st n = KIndep -> exists s, abuild st n = BIndep (User s) /\ aname st n = User s;
  s_expl : forall n, akind st n = KExplicit ->
    (abuild st n = NoBuild /\ adefined st n = false)
    \/ (adefined st n = true /\ ((exists e, abuild st n = BPass e) \/ abuild st n = BIndexed));
  s_var : forall n, 0 < n -> n < anext st -> akind st n = KVar ->
    (exists f args, abuild st n = BExpr f args) \/ (abuild st n = NoBuild /\ is_part st n)
    \/ (exists x, adecomp st x = Some n);
  s_imp : forall n, akind st n <> KImplicit;
  s_decomp : forall x dc, adecomp st x = Some dc -> 0 < x < anext st /\ dc < anext st /\ akind st dc = KVar
    /\ abuild st dc = BDecomp x /\ (exists nm, aname st dc = Decompose nm);
  s_parts : forall dc k e, In (k, e) (aparts st dc) -> e < anext st /\ akind st e = KVar
    /\ abuild st e = NoBuild /\ (exists x, adecomp st x = Some dc);
  s_partinj : forall dc k e dc' k', In (k, e) (aparts st dc) -> In (k', e) (aparts st dc') -> dc = dc' /\ k = k';
  s_partkeys : forall dc, NoDup (map fst (aparts st dc));
  s_fresh : forall n, anext st <= n -> abuild st n = NoBuild /\ aparts st n = [] /\ aname st n = Auto n
                                       /\ adefined st n = false;
  s_root : abuild st root = NoBuild /\ aname st root = Auto root;
  s_auto : forall n m, aname st n = Auto m -> n = m;
  s_explname : forall n, akind st n = KExplicit -> exists s, aname st n = User s
}.

Lemma shape0 : shape api0.
Proof.
  constructor; simpl; intros; try discriminate; try contradiction; auto; try lia; try congruence.
  constructor.
Qed.

Lemma shape_deps st d t : shape st -> shape (set_adeps st d t).
Proof. intros [H1 H2 H3 H4 H5 H6 H7 H8 H9 H10 H11 H12 H13]. constructor; assumption. Qed.

Lemma shape_new st k nm b : base st -> shape st ->
  (k = KInput -> b = NoBuild) ->
  (k = KIndep -> exists s, b = BIndep (User s) /\ nm = User s) ->
  (k = KExplicit -> b = NoBuild) ->
  (k = KVar -> exists f args, b = BExpr f args) ->
  k <> KImplicit ->
  (forall m, nm = Auto m -> m = anext st) ->
  (k = KExplicit -> exists s, nm = User s) ->
  shape (new_obj st k nm b).
Proof.
  intros B S C1 C2 C3 C4 C5 C6 C7. pose proof (v_pos st B) as P.
  destruct (s_fresh st S (anext st) (le_n _)) as (F1 & F2 & F3 & F4).
  constructor; unfold is_part; api; unfold upd.
  - intros n H. eqcase n (anext st) Hn; [auto|now apply (s_input st S)].
  - intros n H. eqcase n (anext st) Hn; [auto|now apply (s_indep st S)].
  - intros n H. eqcase n (anext st) Hn; [left; auto|now apply (s_expl st S)].
  - intros n L1 L2 H. eqcase n (anext st) Hn; [left; auto|].
    apply (s_var st S); auto. lia.
  - intros n. eqcase n (anext st) Hn; [auto|apply (s_imp st S)].
  - intros x dc H. destruct (s_decomp st S x dc H) as (A1 & A2 & A3 & A4 & A5).
    assert (dc <> anext st) by lia. destruct (Nat.eqb_spec dc (anext st)); [contradiction|].
    splits; auto; lia.
  - intros dc i e H. destruct (s_parts st S dc i e H) as (A1 & A2 & A3 & A4).
    destruct (Nat.eqb_spec e (anext st)); [lia|]. splits; auto.
  - exact (s_partinj st S).
  - exact (s_partkeys st S).
  - intros n L. destruct (Nat.eqb_spec n (anext st)); [lia|]. apply (s_fresh st S). lia.
  - destruct (Nat.eqb_spec root (anext st)); [unfold root in *; lia|]. apply (s_root st S).
  - intros n m H. eqcase n (anext st) Hn; [symmetry; auto|now apply (s_auto st S)].
  - intros n H. eqcase n (anext st) Hn; [auto|now apply (s_explname st S)].
Qed.

Lemma nodup_snoc {A} (l : list A) x : NoDup l -> ~ In x l -> NoDup (l ++ [x]).
Proof.
  intros N H. apply Permutation_NoDup with (x :: l); [|now constructor].
  apply Permutation_cons_append.
Qed.

Section WithO.
Variable O : oracle.

Lemma shape_fold n l st : shape st -> shape (fold_left (fun st x => add_dep O st n x) l st).
Proof.
  intros S. destruct (fold_add_spec O n l st) as (d & t & -> & _). now apply shape_deps.
Qed.
Lemma shape_add n x st : shape st -> shape (add_dep O st n x).
Proof. intros S. now apply shape_deps. Qed.

Lemma shape_register st s n st' r : shape st -> 0 < n -> n < anext st ->
  (akind st n = KIndep -> aname st n = User s \/ In n (adeps st root)) ->
  (forall nm, aname st n <> Decompose nm) ->
  register_output O st s n = (st', r) -> shape st'.
Proof.
  intros S H0 L HI HD E. unfold register_output in E.
  assert (G : forall d t, ~ In n (adeps st root) -> shape (set_adeps (set_name st n (User s)) d t)).
  { intros d t NI. apply shape_deps. destruct S. constructor; api; auto; unfold upd.
    - intros m K. eqcase m n Hn; [|auto]. destruct (s_indep0 n K) as (s' & A & A'). exists s'.
      split; [assumption|]. destruct (HI K) as [Q|Q]; [congruence|contradiction].
    - intros x dc H. destruct (s_decomp0 x dc H) as (A1 & A2 & A3 & A4 & nm & A5). splits; auto; try tauto.
      destruct (Nat.eqb_spec dc n) as [Q|Q]; [subst; now apply HD in A5|]. eauto.
    - intros m L'. destruct (Nat.eqb_spec m n); [lia|]. auto.
    - destruct (Nat.eqb_spec root n); [unfold root in *; lia|]. auto.
    - intros m k. destruct (Nat.eqb_spec m n); [discriminate|]. auto.
    - intros m K. destruct (Nat.eqb_spec m n); eauto. }
  destruct (akind st n); try (destruct (mem n (adeps st root)) eqn:M);
    injection E as <- _; auto; apply G; intros Q; apply mem_In in Q; congruence.
Qed.

Lemma visible_name st n : visible st n = true -> forall nm, aname st n <> Decompose nm.
Proof.
  unfold visible. rewrite !andb_true_iff. intros (_ & C) nm E. rewrite E in C. discriminate.
Qed.

Lemma shape_explicit st out b ix : shape st -> out < anext st -> 0 < out -> akind st out = KExplicit ->
  (exists e, b = BPass e) \/ b = BIndexed ->
  shape (set_build (set_defined st out ix) out b).
Proof.
  intros S LO PO K HB. destruct S. constructor; api; unfold is_part in *; api; auto; unfold upd.
  - intros n H. eqcase n out Hn; [congruence|auto].
  - intros n H. eqcase n out Hn; [congruence|auto].
  - intros n H. eqcase n out Hn; [|auto]. right. split; [reflexivity|].
    destruct HB as [[e ->]| ->]; eauto.
  - intros n L1 L2 H. eqcase n out Hn; [congruence|auto].
  - intros x dc H. destruct (s_decomp0 x dc H) as (A1 & A2 & A3 & A4 & A5).
    destruct (Nat.eqb_spec dc out) as [Q|Q]; [congruence|]. splits; auto; lia.
  - intros dc k e H. destruct (s_parts0 dc k e H) as (A1 & A2 & A3 & A4).
    destruct (Nat.eqb_spec e out) as [Q|Q]; [congruence|]. splits; auto.
  - intros n L. destruct (s_fresh0 n L) as (A1 & A2 & A3 & A4).
    destruct (Nat.eqb_spec n out) as [Q|Q]; [lia|]. auto.
  - destruct (Nat.eqb_spec root out); [unfold root in *; lia|auto].
Qed.

Lemma shape_tgt st n l c : shape st -> shape (set_tgt st n l c).
Proof. intros S. destruct S. constructor; assumption. Qed.

Lemma shape_buildext st st' : shape st -> (forall n, abuild st' n = abuild st n) ->
  akind st' = akind st -> aname st' = aname st -> adefined st' = adefined st -> adecomp st' = adecomp st ->
  aparts st' = aparts st -> anext st' = anext st -> shape st'.
Proof.
  intros S HB E1 E2 E3 E4 E5 E6. destruct S.
  constructor; unfold is_part in *; rewrite ?E1, ?E2, ?E3, ?E4, ?E5, ?E6; intros;
    repeat match goal with |- context [abuild st' ?n] => rewrite (HB n) end; auto.
  - now apply (s_parts0 dc k).
  - eauto.
Qed.

Lemma shape_newdecomp st x nm : base st -> shape st -> 0 < x -> x < anext st -> adecomp st x = None ->
  shape (set_build (set_parts (new_obj st KVar (Decompose nm) NoBuild) x (anext st) []) (anext st) (BDecomp x)).
Proof.
  intros B S X0 X1 DN. pose proof (v_pos st B) as P.
  destruct (s_fresh st S (anext st) (le_n _)) as (F1 & F2 & F3 & F4).
  assert (FK : akind st (anext st) = KVar) by (now apply new_fresh).
  assert (PT : forall n, is_part st n -> is_part (set_build (set_parts (new_obj st KVar (Decompose nm) NoBuild) x (anext st) []) (anext st) (BDecomp x)) n).
  { intros n (dc & k & H). exists dc, k. api. unfold upd. eqcase dc (anext st) Hn; [|assumption].
    rewrite F2 in H. contradiction. }
  constructor; api; unfold upd.
  - intros n H. destruct (Nat.eqb_spec n (anext st)); [discriminate|now apply (s_input st S)].
  - intros n H. destruct (Nat.eqb_spec n (anext st)); [discriminate|now apply (s_indep st S)].
  - intros n H. destruct (Nat.eqb_spec n (anext st)); [discriminate|now apply (s_expl st S)].
  - intros n L1 L2 H. destruct (Nat.eqb_spec n (anext st)) as [Q|Q].
    + right. right. exists x. rewrite Nat.eqb_refl. congruence.
    + destruct (s_var st S n L1 ltac:(lia) H) as [A|[[A1 A2]|[y A]]]; auto.
      right. right. exists y. destruct (Nat.eqb_spec y x); [congruence|assumption].
  - intros n. destruct (Nat.eqb_spec n (anext st)); [discriminate|apply (s_imp st S)].
  - intros y dc. destruct (Nat.eqb_spec y x) as [Q|Q].
    + intros H. injection H as <-. rewrite Nat.eqb_refl. splits; eauto; try lia; try congruence.
    + intros H. destruct (s_decomp st S y dc H) as (A1 & A2 & A3 & A4 & A5).
      destruct (Nat.eqb_spec dc (anext st)); [lia|]. splits; auto; lia.
  - intros dc i e. destruct (Nat.eqb_spec dc (anext st)) as [Q|Q]; [intros []|]. intros H.
    destruct (s_parts st S dc i e H) as (A1 & A2 & A3 & y & A4).
    destruct (Nat.eqb_spec e (anext st)); [lia|]. splits; auto. exists y.
    destruct (Nat.eqb_spec y x); [congruence|assumption].
  - intros dc k e dc' k'. destruct (Nat.eqb dc (anext st)); [intros []|].
    destruct (Nat.eqb dc' (anext st)); [intros _ []|]. apply (s_partinj st S).
  - intros dc. destruct (Nat.eqb dc (anext st)); [constructor|apply (s_partkeys st S)].
  - intros n L. destruct (Nat.eqb_spec n (anext st)); [lia|]. apply (s_fresh st S). lia.
  - destruct (Nat.eqb_spec root (anext st)); [unfold root in *; lia|]. apply (s_root st S).
  - intros n m. destruct (Nat.eqb n (anext st)); [discriminate|]. apply (s_auto st S).
  - intros n. destruct (Nat.eqb n (anext st)); [discriminate|]. apply (s_explname st S).
Qed.

Lemma shape_part st x dc key : base st -> shape st -> adecomp st x = Some dc ->
  ~ In key (map fst (aparts st dc)) ->
  shape (set_build (set_parts (new_obj st KVar (Auto (anext st)) NoBuild) x dc
           (aparts st dc ++ [(key, anext st)])) dc (BDecomp x)).
Proof.
  intros B S DX NK. pose proof (v_pos st B) as P.
  destruct (s_fresh st S (anext st) (le_n _)) as (F1 & F2 & F3 & F4).
  assert (FK : akind st (anext st) = KVar) by (now apply new_fresh).
  destruct (s_decomp st S x dc DX) as (D1 & D2 & D3 & D4 & nm & D5).
  assert (HP : forall dc' i e, In (i, e) (upd (aparts st) dc (aparts st dc ++ [(key, anext st)]) dc') ->
    In (i, e) (aparts st dc') \/ (dc' = dc /\ i = key /\ e = anext st)).
  { intros dc' i e. unfold upd. destruct (Nat.eqb_spec dc' dc) as [Q|Q]; [|auto]. subst dc'.
    rewrite in_app_iff. intros [H|[H|[]]]; [auto|]. right. injection H as <- <-. auto. }
  assert (PT : forall n, is_part st n \/ n = anext st -> is_part (set_build (set_parts (new_obj st KVar (Auto (anext st)) NoBuild) x dc
           (aparts st dc ++ [(key, anext st)])) dc (BDecomp x)) n).
  { intros n [(dc' & k & H)| ->].
    - exists dc', k. api. unfold upd. destruct (Nat.eqb_spec dc' dc) as [Q|Q]; [|assumption].
      subst dc'. apply in_or_app. now left.
    - exists dc, key. api. rewrite upd_same. apply in_or_app. right. now left. }
  assert (NE : dc <> anext st) by lia.
  constructor; api.
  - intros n H. unfold upd in *. eqcase n (anext st) Hn; [discriminate|].
    destruct (Nat.eqb_spec n dc); [congruence|]. now apply (s_input st S).
  - intros n H. unfold upd in *. eqcase n (anext st) Hn; [discriminate|].
    destruct (Nat.eqb_spec n dc); [congruence|]. now apply (s_indep st S).
  - intros n H. unfold upd in *. eqcase n (anext st) Hn; [discriminate|].
    destruct (Nat.eqb_spec n dc); [congruence|]. now apply (s_expl st S).
  - intros n L1 L2 H. destruct (Nat.eq_dec n (anext st)) as [Q|Q].
    + right. left. subst n. rewrite upd_other by auto. rewrite upd_same. auto.
    + rewrite upd_other in H by assumption.
      destruct (Nat.eq_dec n dc) as [Q1|Q1].
      * right. right. exists x. rewrite upd_same. congruence.
      * rewrite !upd_other by assumption.
        destruct (s_var st S n L1 ltac:(lia) H) as [A|[[A1 A2]|[y A]]]; [now left|right; left; now auto|].
        right. right. exists y. unfold upd. destruct (Nat.eqb_spec y x); [congruence|assumption].
  - intros n. unfold upd. destruct (Nat.eqb_spec n (anext st)); [discriminate|apply (s_imp st S)].
  - intros y dc' H.
    assert (H' : adecomp st y = Some dc').
    { unfold upd in H. destruct (Nat.eqb_spec y x); congruence. }
    destruct (s_decomp st S y dc' H') as (A1 & A2 & A3 & A4 & A5).
    unfold upd. destruct (Nat.eqb_spec dc' (anext st)); [lia|].
    destruct (Nat.eqb_spec dc' dc) as [Q|Q]; splits; auto; try lia. subst dc'. congruence.
  - intros dc' i e H. apply HP in H. destruct H as [H|(-> & -> & ->)].
    + destruct (s_parts st S dc' i e H) as (A1 & A2 & A3 & y & A4).
      unfold upd. destruct (Nat.eqb_spec e (anext st)); [lia|].
      destruct (Nat.eqb_spec e dc); [congruence|]. splits; auto. exists y.
      destruct (Nat.eqb_spec y x); [congruence|assumption].
    + rewrite upd_same, upd_other, upd_same by auto. splits; auto. exists x. apply upd_same.
  - intros dc1 k1 e dc2 k2 H1 H2. apply HP in H1. apply HP in H2.
    destruct H1 as [H1|(-> & -> & ->)], H2 as [H2|(E1 & E2 & E3)].
    + now apply (s_partinj st S dc1 k1 e dc2 k2).
    + subst. apply (s_parts st S) in H1. lia.
    + apply (s_parts st S) in H2. lia.
    + auto.
  - intros dc'. unfold upd. destruct (Nat.eqb_spec dc' dc) as [Q|Q]; [|apply (s_partkeys st S)].
    rewrite map_app. simpl. apply nodup_snoc; [apply (s_partkeys st S)|assumption].
  - intros n L. unfold upd. destruct (Nat.eqb_spec n dc); [lia|].
    destruct (Nat.eqb_spec n (anext st)); [lia|]. apply (s_fresh st S). lia.
  - unfold upd. destruct (Nat.eqb_spec root dc) as [Q|Q].
    + exfalso. destruct (s_root st S) as [A _]. rewrite Q in A. congruence.
    + destruct (Nat.eqb_spec root (anext st)); [unfold root in *; lia|]. apply (s_root st S).
  - intros n m. unfold upd. destruct (Nat.eqb n (anext st)) eqn:Q.
    + apply Nat.eqb_eq in Q. intros H. injection H as <-. auto.
    + apply (s_auto st S).
  - intros n. unfold upd. destruct (Nat.eqb n (anext st)); [discriminate|]. apply (s_explname st S).
Qed.

Lemma step_shape fuel st o st' r : ainv st -> shape st -> step O fuel st o = Some (st', r) -> shape st'.
Proof.
  intros [B R] S E. pose proof (v_pos st B) as P.
  destruct o as [s|s|s|s n|s k g|f args|out expr|out expr key|x key]; cbn [step] in E; cbv zeta in E.
  - injection E as <- _.
    assert (S1 : shape (new_obj st KInput (User s) NoBuild)) by (apply shape_new; try discriminate; auto).
    destruct (arecent st); [now apply shape_add|assumption].
  - injection E as E.
    assert (S1 : shape (new_obj st KIndep (User s) (BIndep (User s)))).
    { apply shape_new; try discriminate; eauto. }
    revert E. apply shape_register.
    + destruct (arecent st); [now apply shape_add|assumption].
    + lia.
    + destruct (arecent st); api; lia.
    + intros _. left. destruct (arecent st); api; apply upd_same.
    + intros nm. destruct (arecent st); api; rewrite upd_same; discriminate.
  - injection E as <- _. apply shape_add. apply shape_new; try discriminate; eauto.
  - destruct (visible st n) eqn:V; [injection E as E|injection E as <- _; assumption].
    pose proof (visible_name st n V) as VN. apply visible_spec in V. destruct V as (V1 & V2 & _).
    revert E. apply shape_register; auto. intros K. right. apply R. now rewrite K.
  - injection E as <- _. apply shape_add, shape_fold.
    assert (S1 : shape (new_obj st KSubsystem (User s) (BSub k g))) by (apply shape_new; try discriminate; auto).
    destruct S1. constructor; assumption.
  - destruct (forallb (visible st) args) eqn:V; injection E as <- _; [|assumption].
    apply shape_fold. apply shape_new; try discriminate; eauto. intros m H. now injection H.
  - destruct (visible st out && visible st expr && _) eqn:V; [|injection E as <- _; assumption].
    apply andb_prop in V. destruct V as [V KE]. apply andb_prop in V. destruct V as [V1 V2].
    assert (KO : akind st out = KExplicit) by (destruct (akind st out); congruence). clear KE.
    apply visible_spec in V1. destruct V1 as (V1 & V1' & _).
    destruct (Nat.eqb_spec expr out) as [Q|NE]; [injection E as <- _; assumption|].
    destruct (adefined st out) eqn:DF; [injection E as <- _; assumption|].
    destruct (define_graph O fuel out expr (anext st) (adeps st) (atick st)) as [d|] eqn:ED; [|discriminate].
    injection E as <- _.
    assert (S1 : shape (new_obj st KInput (aname st out) NoBuild)).
    { apply shape_new; try discriminate; auto. intros m H.
      destruct (s_explname st S out KO) as [s Q]. congruence. }
    assert (S2 : shape (set_build (set_defined (new_obj st KInput (aname st out) NoBuild) out false) out (BPass expr))).
    { apply shape_explicit; auto; api; [lia|rewrite upd_other by lia; assumption|eauto]. }
    destruct S2. constructor; assumption.
  - destruct (visible st out && visible st expr && _) eqn:V; [|injection E as <- _; assumption].
    apply andb_prop in V. destruct V as [V KE]. apply andb_prop in V. destruct V as [V1 V2].
    assert (KO : akind st out = KExplicit) by (destruct (akind st out); congruence). clear KE.
    apply visible_spec in V1. destruct V1 as (V1 & V1' & _).
    assert (S1 : shape (add_dep O st out expr)) by (now apply shape_add).
    destruct key as [idx|e]; [|injection E as <- _; assumption].
    destruct (existsb _ (atgt st out)); [injection E as <- _; assumption|].
    destruct (existsb _ idx); injection E as <- _.
    + now apply shape_tgt.
    + apply shape_explicit; auto. now apply shape_tgt.
  - destruct (visible st x) eqn:V; [|injection E as <- _; assumption].
    apply visible_spec in V. destruct V as (V1 & V2 & _).
    destruct (adecomp st x) as [dc|] eqn:EX.
    + destruct (find (fun p => fst p =? key) (aparts st dc)) as [[k e]|] eqn:EF; injection E as <- _; [assumption|].
      apply shape_buildext with (set_build (set_parts (new_obj st KVar (Auto (anext st)) NoBuild) x dc
           (aparts st dc ++ [(key, anext st)])) dc (BDecomp x)); try reflexivity.
      apply shape_part; auto. intros H. apply in_map_iff in H. destruct H as ([k e] & Q & H). simpl in Q. subst k.
      apply (find_none _ _ EF) in H. simpl in H. rewrite Nat.eqb_refl in H. discriminate.
    + set (st0 := new_obj st KVar (Decompose (aname st x)) NoBuild) in *.
      set (stA := set_parts st0 x (anext st) []) in *.
      set (stB := set_build stA (anext st) (BDecomp x)) in *.
      assert (SB : shape stB) by (apply shape_newdecomp; auto).
      assert (BB : base stB).
      { clear E. assert (B0 : base st0) by (apply new_obj_base; [assumption|discriminate]).
        destruct B0 as [Q1 Q2 Q3 Q4 Q5 Q6 Q7 Q8 Q9 Q10 v_dec0 v_parts0]. unfold stB, stA, st0 in *. constructor; try assumption; api.
        - intros n K. unfold upd in *. destruct (Nat.eqb_spec n (anext st)); [discriminate|]. now apply (v_sub st B).
        - intros n K D. unfold has_build. api. unfold upd in *.
          destruct (Nat.eqb_spec n (anext st)); [reflexivity|]. now apply (v_defb st B).
        - intros y dc H. unfold upd at 1 in H. destruct (Nat.eqb_spec y x) as [Q|Q]; [|now apply (v_dec0 y)].
          injection H as <-. rewrite upd_same. splits; auto; lia.
        - intros dc k e H. unfold upd at 1 in H. destruct (Nat.eqb_spec dc (anext st)); [contradiction|].
          now apply (v_parts0 dc k). }
      assert (PN : aparts (add_dep O stA (anext st) x) (anext st) = []) by (clear E; unfold stA; api; apply upd_same).
      rewrite PN in E. cbn [find] in E. injection E as <- _.
      assert (SC : shape (set_build (set_parts (new_obj stB KVar (Auto (anext stB)) NoBuild) x (anext st)
           (aparts stB (anext st) ++ [(key, anext stB)])) (anext st) (BDecomp x))).
      { apply shape_part; auto.
        - unfold stB, stA. api. apply upd_same.
        - unfold stB, stA. api. rewrite upd_same. simpl. tauto. }
      apply shape_buildext with (1 := SC); try reflexivity.
      * intros n. unfold stB, stA, st0. api. unfold upd. destruct (Nat.eqb n (anext st)); reflexivity.
      * unfold stB, stA, st0. api. rewrite !upd_same. reflexivity.
Qed.

Lemma run_shape fuel : forall h st st' rs, ainv st -> shape st -> run_ops O fuel st h = Some (st', rs) -> shape st'.
Proof.
  induction h as [|o h IH]; intros st st' rs I S E; cbn [run_ops] in E.
  - injection E as <- _. assumption.
  - destruct (step O fuel st o) as [[st1 x]|] eqn:E1; [|discriminate].
    destruct (run_ops O fuel st1 h) as [[st2 xs]|] eqn:E2; [|discriminate]. injection E as <- _.
    apply (IH st1 st2 xs); [| |assumption].
    + now apply (step_inv O fuel st o st1 x).
    + now apply (step_shape fuel st o st1 x).
Qed.
End WithO.
