(** Which of several definitions of an output counts in the end. *)
From Verif Require Import PyBase SpecGraph GraphLemmas Graph Replace ReplaceProofs
  GroupApi SpecApi GroupApiProofs GroupApiAcyclic GroupApiShape GroupApiHistory.

Section WithO.
Variable O : oracle.

(** what a call does to an output that has a definition *)
Lemma step_build fuel st o st' r out : shape st -> base st -> out < anext st -> akind st out = KExplicit ->
  adefined st out = true -> step O fuel st o = Some (st', r) ->
  ((exists e k, o = Setitem out e k /\ r = Ok out) /\ abuild st' out = BIndexed)
  \/ (~ (exists e k m, o = Setitem out e k /\ r = Ok m) /\ abuild st' out = abuild st out).
Proof.
  intros S B L K D E.
  destruct o as [s|s|s|s m|s i g|f args|o' expr|o' expr key|y key]; cbn [step] in E; cbv zeta in E.
  1-7,9: right; split; [intros (? & ? & ? & Q & _); discriminate|].
  - injection E as <- _. destruct (arecent st); api; rewrite upd_other by lia; reflexivity.
  - injection E as E. assert (G : abuild st' out = upd (abuild st) (anext st) (BIndep (User s)) out).
    { unfold register_output in E.
      destruct (arecent st) eqn:Q; cbn [akind add_dep set_adeps new_obj] in E; rewrite upd_same in E;
      destruct (mem _ _); injection E as <- _; auto. }
    rewrite G. apply upd_other. lia.
  - injection E as <- _. api. apply upd_other. lia.
  - destruct (visible st m); [|injection E as <- _; reflexivity]. injection E as E. unfold register_output in E.
    destruct (akind st m); try destruct (mem _ _); injection E as <- _; reflexivity.
  - injection E as <- _.
    destruct (fold_add_spec O (anext st) (adeps st root)
      (set_recent (new_obj st KSubsystem (User s) (BSub i g)) (anext st))) as (d & t & EF & _). rewrite EF in *.
    api. apply upd_other. lia.
  - destruct (forallb (visible st) args) eqn:V; injection E as <- _; [|reflexivity].
    destruct (fold_add_spec O (anext st) args (new_obj st KVar (Auto (anext st)) (BExpr f args)))
      as (d & t & EF & _). rewrite EF in *. api. apply upd_other. lia.
  - destruct (visible st o' && visible st expr && _) eqn:V; [|injection E as <- <-; reflexivity].
    destruct (Nat.eqb expr o'); [injection E as <- <-; reflexivity|].
    destruct (adefined st o') eqn:DF; [injection E as <- <-; reflexivity|].
    destruct (define_graph _ _ _ _ _ _ _) as [d|]; [|discriminate].
    injection E as <- <-. api. rewrite upd_other by congruence. apply upd_other. lia.
  - destruct (visible st y) eqn:V; [|injection E as <- _; reflexivity].
    destruct (adecomp st y) as [dc|] eqn:EY.
    + destruct (s_decomp st S y dc EY) as (_ & _ & KD & _).
      destruct (find _ _) as [[k0 e]|]; injection E as <- _; [reflexivity|]. api.
      rewrite upd_other by congruence. apply upd_other. lia.
    + destruct (find _ _) as [[k0 e]|]; injection E as <- _; api; rewrite ?upd_other by lia; reflexivity.
  - destruct (visible st o' && visible st expr && _) eqn:V;
      [|injection E as <- <-; right; split; [intros (? & ? & ? & _ & Q); discriminate|reflexivity]].
    destruct key as [idx|e]; [|injection E as <- <-; right; split; [intros (? & ? & ? & _ & Q); discriminate|reflexivity]].
    destruct (existsb _ (atgt st o')); [injection E as <- <-; right; split; [intros (? & ? & ? & _ & Q); discriminate|reflexivity]|].
    destruct (existsb _ idx); injection E as <- <-; [right; split; [intros (? & ? & ? & _ & Q); discriminate|reflexivity]|].
    destruct (Nat.eq_dec out o') as [Q|Q].
    + subst o'. left. split; [eauto|]. api. apply upd_same.
    + right. split; [intros (? & ? & ? & H & _); congruence|]. api. now apply upd_other.
Qed.

Lemma run_build fuel out : forall h st st' rs, ainv st -> shape st -> out < anext st -> akind st out = KExplicit ->
  adefined st out = true -> run_ops O fuel st h = Some (st', rs) ->
  ((exists i e k m, returned h rs i (Setitem out e k) m) -> abuild st' out = BIndexed)
  /\ (~ (exists i e k m, returned h rs i (Setitem out e k) m) -> abuild st' out = abuild st out)
  /\ (abuild st out = BIndexed -> abuild st' out = BIndexed).
Proof.
  induction h as [|o h IH]; intros st st' rs I S L K D E.
  - cbn [run_ops] in E. injection E as <- <-. splits; auto.
    intros (i & e & k & m & H & _). destruct i; discriminate.
  - destruct (run_cons O _ _ _ _ _ _ E) as (st1 & r & rs' & E1 & E2 & ->).
    destruct (step_inv O fuel st o st1 r I E1) as [I1 X1].
    assert (S1 : shape st1) by exact (step_shape O _ _ _ _ _ I S E1).
    assert (L1 : out < anext st1) by (pose proof (e_next _ _ _ X1); lia).
    assert (K1 : akind st1 out = KExplicit) by (rewrite (e_kind _ _ _ X1); assumption).
    assert (D1 : adefined st1 out = true) by (apply (step_defined O _ _ _ _ _ out E1); now left).
    destruct (IH _ _ _ I1 S1 L1 K1 D1 E2) as (A1 & A2 & A3).
    destruct (step_build fuel st o st1 r out S (proj1 I) L K D E1) as [[(e & k & -> & ->) BI]|[NS BS]].
    + splits; auto. intros NO. exfalso. apply NO. exists 0, e, k, out. now split.
    + splits.
      * intros (i & e & k & m & H). apply returned_cons in H. destruct H as [(-> & -> & ->)|(j & -> & H)].
        -- exfalso. apply NS. eauto.
        -- apply A1. eauto 6.
      * intros NO. rewrite A2; [assumption|]. intros (i & e & k & m & H). apply NO. exists (Datatypes.S i), e, k, m. exact H.
      * intros Q. apply A3. congruence.
Qed.

(** every recorded source comes from an assignment by index *)
Lemma step_tgt fuel st o st' r out : step O fuel st o = Some (st', r) ->
  atgt st' out = atgt st out \/
  exists e idx, o = Setitem out e (Ok idx) /\ atgt st' out = atgt st out ++ [(aname st e, e)].
Proof.
  intros E.
  destruct o as [s|s|s|s m|s i g|f args|o' expr|o' expr key|y key]; cbn [step] in E; cbv zeta in E.
  1-7,9: left.
  - injection E as <- _. now destruct (arecent st).
  - injection E as E. unfold register_output in E.
    destruct (arecent st) eqn:Q; cbn [akind add_dep set_adeps new_obj] in E; rewrite upd_same in E;
    destruct (mem _ _); injection E as <- _; auto.
  - injection E as <- _. reflexivity.
  - destruct (visible st m); [|injection E as <- _; reflexivity]. injection E as E. unfold register_output in E.
    destruct (akind st m); try destruct (mem _ _); injection E as <- _; reflexivity.
  - injection E as <- _.
    destruct (fold_add_spec O (anext st) (adeps st root)
      (set_recent (new_obj st KSubsystem (User s) (BSub i g)) (anext st))) as (d & t & EF & _). rewrite EF in *.
    reflexivity.
  - destruct (forallb (visible st) args) eqn:V; injection E as <- _; [|reflexivity].
    destruct (fold_add_spec O (anext st) args (new_obj st KVar (Auto (anext st)) (BExpr f args)))
      as (d & t & EF & _). rewrite EF in *. reflexivity.
  - destruct (visible st o' && visible st expr && _) eqn:V; [|injection E as <- <-; reflexivity].
    destruct (Nat.eqb expr o'); [injection E as <- <-; reflexivity|].
    destruct (adefined st o') eqn:DF; [injection E as <- <-; reflexivity|].
    destruct (define_graph _ _ _ _ _ _ _) as [d|]; [|discriminate].
    injection E as <- <-. reflexivity.
  - destruct (visible st y) eqn:V; [|injection E as <- _; reflexivity].
    destruct (adecomp st y) as [dc|] eqn:EY; destruct (find _ _) as [[k0 e]|]; injection E as <- _; reflexivity.
  - destruct (visible st o' && visible st expr && _) eqn:V; [|injection E as <- <-; now left].
    destruct key as [idx|e]; [|injection E as <- <-; now left].
    destruct (existsb _ (atgt st o')); [injection E as <- <-; now left|].
    destruct (Nat.eq_dec out o') as [Q|Q].
    + subst o'. right. exists expr, idx. split; [reflexivity|].
      destruct (existsb _ idx); injection E as <- <-; api; apply upd_same.
    + left. destruct (existsb _ idx); injection E as <- <-; api; now apply upd_other.
Qed.

Lemma run_tgt fuel out : forall h st st' rs, run_ops O fuel st h = Some (st', rs) ->
  forall nm e, In (nm, e) (atgt st' out) -> In (nm, e) (atgt st out) \/
    exists i idx, nth_error h i = Some (Setitem out e (Ok idx)).
Proof.
  induction h as [|o h IH]; intros st st' rs E nm e H.
  - cbn [run_ops] in E. injection E as <- <-. auto.
  - destruct (run_cons O _ _ _ _ _ _ E) as (st1 & r & rs' & E1 & E2 & ->).
    destruct (IH _ _ _ E2 nm e H) as [Q|(i & idx & Q)]; [|right; exists (S i), idx; exact Q].
    destruct (step_tgt fuel st o st1 r out E1) as [T|(e' & idx & -> & T)]; rewrite T in Q; [auto|].
    apply in_app_iff in Q. destruct Q as [Q|[Q|[]]]; [auto|]. injection Q as _ ->. right. exists 0, idx. reflexivity.
Qed.

(** the object a successful definition belongs to *)
Lemma gives_explicit fuel st o st' m out : ainv st -> step O fuel st o = Some (st', Ok m) ->
  (exists e, o = Define out e) \/ (exists e k, o = Setitem out e k) ->
  out < anext st' /\ akind st' out = KExplicit /\ adefined st' out = true
  /\ abuild st' out = match o with Define _ e => BPass e | _ => BIndexed end.
Proof.
  intros I E H. destruct (step_inv O fuel st o st' (Ok m) I E) as [_ X].
  assert (G : visible st out = true /\ akind st out = KExplicit).
  { destruct H as [(e & ->)|(e & k & ->)]; cbn [step] in E; cbv zeta in E;
      destruct (visible st out && visible st e && _) eqn:V; try discriminate;
      apply andb_prop in V; destruct V as [V KX]; apply andb_prop in V; destruct V as [V1 V2];
      (split; [assumption|]); destruct (akind st out); try discriminate; reflexivity. }
  destruct G as [G1 G2]. apply visible_spec in G1. splits.
  - pose proof (e_next _ _ _ X). lia.
  - rewrite (e_kind _ _ _ X); [assumption|lia].
  - apply (step_defined O _ _ _ _ _ out E). right. split; [reflexivity|].
    destruct H as [(e & ->)|(e & k & ->)]; reflexivity.
  - destruct H as [(e & ->)|(e & k & ->)]; cbn [step] in E; cbv zeta in E; destruct (visible st out && visible st e && _); try discriminate.
    + destruct (Nat.eqb e out); [discriminate|]. destruct (adefined st out); [discriminate|].
      destruct (define_graph _ _ _ _ _ _ _) as [d|]; [|discriminate]. injection E as <- _. api. apply upd_same.
    + destruct k as [idx|x]; [|discriminate]. destruct (existsb _ (atgt st out)); [discriminate|].
      destruct (existsb _ idx); [discriminate|]. injection E as <- _. api. apply upd_same.
Qed.

(** C25 *)
Lemma last_definition sr fuel h st rs out : run_ops O fuel api0 h = Some (st, rs) ->
  ((exists i e k m, returned h rs i (Setitem out e k) m) ->
     abuild st out = BIndexed /\ comp_reads sr st out = map fst (atgt st out)
     /\ (forall nm e, In (nm, e) (atgt st out) -> exists i idx, nth_error h i = Some (Setitem out e (Ok idx))))
  /\ (forall i e m, returned h rs i (Define out e) m -> ~ (exists i e k m, returned h rs i (Setitem out e k) m) ->
     abuild st out = BPass e /\ comp_reads sr st out = [aname st e]).
Proof.
  intros E.
  assert (G : forall i o m, returned h rs i o m -> (exists e, o = Define out e) \/ (exists e k, o = Setitem out e k) ->
    (((exists i e k m, returned h rs i (Setitem out e k) m) -> abuild st out = BIndexed) /\
     (~ (exists i e k m, returned h rs i (Setitem out e k) m) ->
      abuild st out = match o with Define _ e => BPass e | _ => BIndexed end))).
  { intros i o m [H1 H2] Ho.
    destruct (run_at O _ _ _ _ _ _ _ E H1) as (h1 & h2 & st1 & rs1 & st2 & r & rs2 & -> & L1 & A & Bq & C & -> & L2).
    rewrite nth_error_app2, L2, Nat.sub_diag in H2 by lia. cbn [nth_error] in H2. injection H2 as ->.
    pose proof (run_inv O _ _ _ _ _ ainv0 A) as I1.
    pose proof (run_shape O _ _ _ _ _ ainv0 shape0 A) as S1.
    destruct (step_inv O _ _ _ _ _ I1 Bq) as [I2 X2].
    assert (S2 : shape st2) by exact (step_shape O _ _ _ _ _ I1 S1 Bq).
    destruct (gives_explicit _ _ _ _ _ out I1 Bq Ho) as (Q1 & Q2 & Q3 & Q4).
    destruct (run_build fuel out h2 st2 st rs2 I2 S2 Q1 Q2 Q3 C) as (R1 & R2 & R3).
    assert (NB : ~ (exists i e k q, returned (h1 ++ o :: h2) (rs1 ++ Ok m :: rs2) i (Setitem out e k) q) ->
                 ~ exists i e k m, returned h2 rs2 i (Setitem out e k) m).
    { clear - L1 L2. intros N (j & e & k & m' & J1 & J2). apply N. exists (length h1 + S j), e, k, m'. split.
      - rewrite nth_error_app2 by lia. replace (length h1 + S j - length h1) with (S j) by lia. exact J1.
      - rewrite nth_error_app2 by lia. replace (length h1 + S j - length rs1) with (S j) by lia. exact J2. }
    split.
    - intros SX. destruct SX as (j & e & k & m' & J1 & J2).
      destruct (Nat.lt_trichotomy j i) as [Lj|[Lj|Lj]].
      + (* an assignment before this call *)
        destruct (run_at O _ _ _ _ _ _ _ A ltac:(rewrite nth_error_app1 in J1 by lia; exact J1))
          as (h3 & h4 & st3 & rs3 & st4 & r' & rs4 & -> & L3 & A' & Bq' & C' & -> & L4).
        assert (r' = Ok m').
        { rewrite <- app_assoc, nth_error_app2, L4, Nat.sub_diag in J2 by lia. now injection J2. }
        subst r'.
        pose proof (run_inv O _ _ _ _ _ ainv0 A') as I3.
        pose proof (run_shape O _ _ _ _ _ ainv0 shape0 A') as S3.
        destruct (step_inv O _ _ _ _ _ I3 Bq') as [I4 X4].
        assert (S4 : shape st4) by exact (step_shape O _ _ _ _ _ I3 S3 Bq').
        destruct (gives_explicit _ _ _ _ _ out I3 Bq' (or_intror (ex_intro _ e (ex_intro _ k eq_refl)))) as (U1 & U2 & U3 & U4).
        destruct (run_build fuel out h4 st4 st1 rs4 I4 S4 U1 U2 U3 C') as (_ & _ & V3).
        specialize (V3 U4).
        destruct Ho as [(e' & ->)|(e' & k' & ->)]; [|now apply R3].
        exfalso. cbn [step] in Bq. cbv zeta in Bq.
        assert (D1 : adefined st1 out = true).
        { apply (history_defined O _ _ _ _ _ C'). now left. }
        rewrite D1 in Bq. destruct (visible st1 out && visible st1 e' && _); [|discriminate].
        destruct (Nat.eqb e' out); discriminate.
      + subst j. rewrite nth_error_app2, L1, Nat.sub_diag in J1 by lia. cbn [nth_error] in J1. injection J1 as ->.
        now apply R3.
      + apply R1. exists (j - S i), e, k, m'. split.
        * rewrite nth_error_app2 in J1 by lia. rewrite L1 in J1. destruct (j - i) as [|q] eqn:Eq; [lia|].
          replace (j - S i) with q by lia. exact J1.
        * rewrite nth_error_app2 in J2 by lia. rewrite L2 in J2. destruct (j - i) as [|q] eqn:Eq; [lia|].
          replace (j - S i) with q by lia. exact J2.
    - intros NS. rewrite R2 by (apply NB; exact NS). exact Q4. }
  split.
  - intros SX. pose proof SX as (i & e & k & m & H).
    destruct (G i _ m H) as [G1 _]; [right; eauto|]. specialize (G1 SX). splits; [assumption| |].
    + unfold comp_reads. now rewrite G1.
    + intros nm x Hx. destruct (run_tgt fuel out _ _ _ _ E nm x Hx) as [[]|Q]. exact Q.
  - intros i e m H NS. destruct (G i _ m H) as [_ G2]; [left; eauto|]. specialize (G2 NS). split; [assumption|].
    unfold comp_reads. now rewrite G2.
Qed.
End WithO.
