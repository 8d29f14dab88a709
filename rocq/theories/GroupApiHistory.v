(** Facts about whole histories of Group calls. *)
From Verif Require Import PyBase PySet PySetProofs SpecGraph GraphLemmas Graph SpecSetup GraphSetup GraphTheorems
  Replace ReplaceProofs GroupApi SpecApi GroupApiProofs GroupApiAcyclic GroupApiShape GroupApiWired GroupApiSetup.

Section WithO.
Variable O : oracle.

(** * What one call returns and changes *)
Lemma register_kind st s n st' r : register_output O st s n = (st', r) ->
  akind st' = akind st /\ adefined st' = adefined st /\ anext st' = anext st /\ (forall m, r = Ok m -> m = n).
Proof.
  unfold register_output. intros E.
  destruct (akind st n); try (destruct (mem n (adeps st root))); injection E as <- <-; splits; auto;
    intros m H; try discriminate; now injection H.
Qed.

Lemma step_kind fuel st o st' r n k : step O fuel st o = Some (st', r) -> base st ->
  (k = KExplicit \/ k = KInput) -> akind st n <> k -> akind st' n = k ->
  (k = KExplicit /\ (exists s, o = CreateOutput s) /\ r = Ok n)
  \/ (k = KInput /\ n = anext st /\ ((exists s, o = DeclareInput s /\ r = Ok n) \/ exists out e, o = Define out e)).
Proof.
  intros E B Hk NK K. pose proof (new_fresh st B) as FK.
  assert (NV : k <> KVar /\ k <> KIndep /\ k <> KSubsystem) by (destruct Hk; subst; splits; discriminate).
  destruct o as [s|s|s|s m|s i g|f args|out expr|out expr key|x key]; cbn [step] in E; cbv zeta in E.
  - injection E as <- <-. destruct (arecent st); api; unfold upd in K;
      destruct (Nat.eqb_spec n (anext st)); subst; intuition eauto 6; try congruence.
    all: right; splits; eauto.
  - injection E as E. destruct (register_kind _ _ _ _ _ E) as (Q & _). rewrite Q in K.
    destruct (arecent st); api; unfold upd in K; destruct (Nat.eqb_spec n (anext st)); subst; intuition congruence.
  - injection E as <- <-. api. unfold upd in K. destruct (Nat.eqb_spec n (anext st)); [|congruence].
    subst. left. splits; eauto.
  - destruct (visible st m); [|injection E as <- _; congruence]. injection E as E.
    destruct (register_kind _ _ _ _ _ E) as (Q & _). congruence.
  - injection E as <- <-. api.
    destruct (fold_add_spec O (anext st) (adeps st root)
      (set_recent (new_obj st KSubsystem (User s) (BSub i g)) (anext st))) as (d & t & EF & _). rewrite EF in K.
    api. unfold upd in K. destruct (Nat.eqb_spec n (anext st)); subst; intuition congruence.
  - destruct (forallb (visible st) args); [|injection E as <- _; congruence]. injection E as <- _.
    destruct (fold_add_spec O (anext st) args (new_obj st KVar (Auto (anext st)) (BExpr f args)))
      as (d & t & EF & _). rewrite EF in K. api. unfold upd in K.
    destruct (Nat.eqb_spec n (anext st)); subst; intuition congruence.
  - destruct (visible st out && visible st expr && _); [|injection E as <- _; congruence].
    destruct (Nat.eqb expr out); [injection E as <- _; congruence|].
    destruct (adefined st out); [injection E as <- _; congruence|].
    destruct (define_graph _ _ _ _ _ _ _) as [d|]; [|discriminate].
    injection E as <- _. api. unfold upd in K. destruct (Nat.eqb_spec n (anext st)); [|congruence].
    right. splits; eauto.
  - destruct (visible st out && visible st expr && _); [|injection E as <- _; congruence].
    destruct key as [idx|e]; [|injection E as <- _; api; congruence].
    destruct (existsb _ (atgt st out)); [injection E as <- _; api; congruence|].
    destruct (existsb _ idx); injection E as <- _; api; congruence.
  - destruct (visible st x); [|injection E as <- _; congruence].
    destruct (adecomp st x) as [dc|].
    + destruct (find _ _) as [[k0 e]|]; injection E as <- _; [congruence|]. api.
      unfold upd in K. destruct (Nat.eqb_spec n (anext st)); subst; intuition congruence.
    + destruct (find _ _) as [[k0 e]|]; injection E as <- _; api; unfold upd in K.
      * destruct (Nat.eqb_spec n (anext st)); subst; intuition congruence.
      * destruct (Nat.eqb_spec n (S (anext st))); [subst; intuition congruence|].
        destruct (Nat.eqb_spec n (anext st)); subst; intuition congruence.
Qed.

Lemma created_kind fuel st s st' r n : step O fuel st (CreateOutput s) = Some (st', r) -> r = Ok n ->
  akind st' n = KExplicit /\ n = anext st.
Proof. cbn [step]. intros E ->. injection E as <- <-. api. now rewrite upd_same. Qed.
Lemma declared_kind fuel st s st' r n : step O fuel st (DeclareInput s) = Some (st', r) -> r = Ok n ->
  akind st' n = KInput /\ n = anext st.
Proof. cbn [step]. intros E ->. injection E as <- <-. destruct (arecent st); api; now rewrite upd_same. Qed.

Definition gives (o : op) (r : res nat) (out : nat) : Prop :=
  is_ok r = true /\ match o with Define x _ | Setitem x _ _ => x = out | _ => False end.

Lemma step_defined fuel st o st' r n : step O fuel st o = Some (st', r) ->
  (adefined st' n = true <-> adefined st n = true \/ gives o r n).
Proof.
  intros E. unfold gives.
  assert (SAME : adefined st' = adefined st ->
    match o with Define _ _ | Setitem _ _ _ => is_ok r = false | _ => True end ->
    (adefined st' n = true <-> adefined st n = true \/
       is_ok r = true /\ match o with Define x _ | Setitem x _ _ => x = n | _ => False end)).
  { intros -> H. destruct o; try tauto; rewrite H; intuition discriminate. }
  destruct o as [s|s|s|s m|s i g|f args|out expr|out expr key|x key]; cbn [step] in E; cbv zeta in E.
  - apply SAME; [|exact I]. injection E as <- <-. now destruct (arecent st).
  - apply SAME; [|exact I]. injection E as E. destruct (register_kind _ _ _ _ _ E) as (_ & Q & _). rewrite Q.
    now destruct (arecent st).
  - apply SAME; [|exact I]. injection E as <- <-. reflexivity.
  - apply SAME; [|exact I]. destruct (visible st m); [|injection E as <- _; reflexivity]. injection E as E.
    now destruct (register_kind _ _ _ _ _ E) as (_ & Q & _).
  - apply SAME; [|exact I]. injection E as <- <-.
    destruct (fold_add_spec O (anext st) (adeps st root)
      (set_recent (new_obj st KSubsystem (User s) (BSub i g)) (anext st))) as (d & t & EF & _). now rewrite EF.
  - apply SAME; [|exact I]. destruct (forallb (visible st) args); injection E as <- _; [|reflexivity].
    destruct (fold_add_spec O (anext st) args (new_obj st KVar (Auto (anext st)) (BExpr f args)))
      as (d & t & EF & _). now rewrite EF.
  - destruct (visible st out && visible st expr && _); [|injection E as <- <-; apply SAME; reflexivity].
    destruct (Nat.eqb expr out); [injection E as <- <-; apply SAME; reflexivity|].
    destruct (adefined st out) eqn:DF; [injection E as <- <-; apply SAME; reflexivity|].
    destruct (define_graph _ _ _ _ _ _ _) as [d|]; [|discriminate].
    injection E as <- <-. api. unfold upd. destruct (Nat.eqb_spec n out); simpl; intuition congruence.
  - destruct (visible st out && visible st expr && _); [|injection E as <- <-; apply SAME; reflexivity].
    destruct key as [idx|e]; [|injection E as <- <-; apply SAME; reflexivity].
    destruct (existsb _ (atgt st out)); [injection E as <- <-; apply SAME; reflexivity|].
    destruct (existsb _ idx); injection E as <- <-; [apply SAME; reflexivity|].
    api. unfold upd. destruct (Nat.eqb_spec n out); simpl; intuition congruence.
  - apply SAME; [|exact I]. destruct (visible st x); [|injection E as <- _; reflexivity].
    destruct (adecomp st x) as [dc|]; destruct (find _ _) as [[k0 e]|]; injection E as <- _; reflexivity.
Qed.

(** * Induction over histories *)
Lemma run_cons fuel st o h st' rs : run_ops O fuel st (o :: h) = Some (st', rs) ->
  exists st1 r rs', step O fuel st o = Some (st1, r) /\ run_ops O fuel st1 h = Some (st', rs') /\ rs = r :: rs'.
Proof.
  cbn [run_ops]. destruct (step O fuel st o) as [[st1 x]|]; [|discriminate].
  destruct (run_ops O fuel st1 h) as [[st2 xs]|] eqn:E; [|discriminate].
  intros H. injection H as <- <-. eauto 6.
Qed.

Lemma returned_cons o h r rs i o' m : returned (o :: h) (r :: rs) i o' m <->
  (i = 0 /\ o = o' /\ r = Ok m) \/ exists j, i = S j /\ returned h rs j o' m.
Proof.
  unfold returned. destruct i as [|j]; simpl; split.
  - intros [A B]. injection A as ->. injection B as ->. auto.
  - intros [(_ & -> & ->)|(j & Q & _)]; [auto|discriminate].
  - intros H. right. eauto.
  - intros [(Q & _)|(j' & Q & H)]; [discriminate|]. injection Q as ->. assumption.
Qed.

Lemma history_kind fuel : forall h st st' rs, ainv st -> run_ops O fuel st h = Some (st', rs) ->
  (forall n, akind st' n = KExplicit <-> akind st n = KExplicit \/ created_output h rs n)
  /\ (forall i s n, returned h rs i (DeclareInput s) n -> akind st' n = KInput).
Proof.
  induction h as [|o h IH]; intros st st' rs I E.
  - cbn [run_ops] in E. injection E as <- <-. split.
    + intros n. split; [auto|]. intros [H|(i & s & H & _)]; [assumption|]. destruct i; discriminate.
    + intros i s n [H _]. destruct i; discriminate.
  - destruct (run_cons _ _ _ _ _ _ E) as (st1 & r & rs' & E1 & E2 & ->).
    destruct (step_inv O fuel st o st1 r I E1) as [I1 X1]. destruct (IH _ _ _ I1 E2) as [IH1 IH2].
    assert (PK : forall n, akind st n = KExplicit -> akind st1 n = KExplicit).
    { intros n K. rewrite (e_kind _ _ _ X1); [assumption|]. apply special_lt; [apply I|now rewrite K]. }
    split.
    + intros n. rewrite IH1. split.
      * intros [K|(i & s & H)].
        -- destruct (akind st n) eqn:KN; try (now left);
           (destruct (step_kind fuel st o st1 r n KExplicit E1 (proj1 I) (or_introl eq_refl) ltac:(congruence) K)
             as [(_ & (s & ->) & ->)|(Q & _)]; [|discriminate Q];
            right; exists 0, s; now split).
        -- right. exists (S i), s. exact H.
      * intros [K|(i & s & H)]; [left; now apply PK|].
        apply returned_cons in H. destruct H as [(-> & -> & ->)|(j & -> & H)].
        -- left. now apply (created_kind fuel st s st1 (Ok n)).
        -- right. exists j, s. exact H.
    + intros i s n H. apply returned_cons in H. destruct H as [(-> & -> & ->)|(j & -> & H)].
      * destruct (declared_kind fuel st s st1 (Ok n) n E1 eq_refl) as [K ->].
        pose proof (run_ext O fuel h st1 st' rs' I1 E2) as X2.
        rewrite (e_kind _ _ _ X2); [assumption|].
        cbn [step] in E1. injection E1 as <-. destruct (arecent st); simpl; lia.
      * now apply (IH2 j s).
Qed.

Lemma history_defined fuel : forall h st st' rs, run_ops O fuel st h = Some (st', rs) ->
  forall n, adefined st' n = true <-> adefined st n = true \/ exists i, given_value h rs i n.
Proof.
  induction h as [|o h IH]; intros st st' rs E n.
  - cbn [run_ops] in E. injection E as <- <-. split; [auto|]. intros [H|(i & H)]; [assumption|].
    destruct H as [(e & m & H & _)|(e & k & m & H & _)]; destruct i; discriminate.
  - destruct (run_cons _ _ _ _ _ _ E) as (st1 & r & rs' & E1 & E2 & ->).
    rewrite (IH _ _ _ E2 n), (step_defined _ _ _ _ _ n E1). split.
    + intros [[H|[H1 H2]]|(i & H)]; [auto| |].
      * right. exists 0. destruct r as [m|]; [|discriminate].
        destruct o; try contradiction; subst n; [left; exists expr, m|right; exists expr, key, m]; now split.
      * right. exists (S i). exact H.
    + intros [H|(i & H)]; [auto|]. destruct H as [(e & m & H)|(e & k & m & H)];
        apply returned_cons in H; destruct H as [(-> & -> & ->)|(j & -> & H)].
      * left. right. now split.
      * right. exists j. left. eauto.
      * left. right. now split.
      * right. exists j. right. eauto.
Qed.

(** Split a history at a call. *)
Lemma run_at fuel h st st' rs i o : run_ops O fuel st h = Some (st', rs) -> nth_error h i = Some o ->
  exists h1 h2 st1 rs1 st2 r rs2, h = h1 ++ o :: h2 /\ length h1 = i /\ run_ops O fuel st h1 = Some (st1, rs1)
    /\ step O fuel st1 o = Some (st2, r) /\ run_ops O fuel st2 h2 = Some (st', rs2)
    /\ rs = rs1 ++ r :: rs2 /\ length rs1 = i.
Proof.
  intros E H. destruct (nth_error_split _ _ H) as (h1 & h2 & -> & L).
  destruct (run_app O _ _ _ _ _ _ E) as (st1 & rs1 & rs2' & A & Bq & -> & LR).
  destruct (run_cons _ _ _ _ _ _ Bq) as (st2 & r & rs2 & C & D & ->).
  exists h1, h2, st1, rs1, st2, r, rs2. splits; auto. congruence.
Qed.

(** * C11 *)
Lemma step_register_ok fuel st s n st' m : base st -> step O fuel st (Register s n) = Some (st', Ok m) ->
  m = n /\ akind st n <> KInput /\ ~ In n (adeps st root) /\ In n (adeps st' root).
Proof.
  intros B E. cbn [step] in E. destruct (visible st n) eqn:V; [|discriminate].
  injection E as E. apply visible_spec in V. destruct V as (V1 & V2 & _).
  destruct (register_ok O st s n B V1 V2 _ _ E) as (_ & _ & Q). intuition.
Qed.

Lemma register_once fuel h st rs i j s s' n m m' : run_ops O fuel api0 h = Some (st, rs) ->
  returned h rs i (Register s n) m -> returned h rs j (Register s' n) m' -> i = j.
Proof.
  assert (G : forall i j s s' m m', run_ops O fuel api0 h = Some (st, rs) ->
    returned h rs i (Register s n) m -> returned h rs j (Register s' n) m' -> i < j -> False).
  { clear. intros i j s s' m m' E [H1 H2] [H3 H4] L.
    destruct (run_at _ _ _ _ _ _ _ E H1) as (h1 & h2 & st1 & rs1 & st2 & r & rs2 & -> & L1 & A & Bq & C & -> & L2).
    rewrite nth_error_app2, L2, Nat.sub_diag in H2 by lia. cbn [nth_error] in H2. injection H2 as ->.
    rewrite nth_error_app2 in H3 by lia. rewrite nth_error_app2 in H4 by lia.
    rewrite L1 in H3. rewrite L2 in H4. destruct (j - i) as [|k] eqn:EJ; [lia|]. cbn [nth_error] in H3, H4.
    destruct (run_at _ _ _ _ _ _ _ C H3) as (h3 & h4 & st3 & rs3 & st4 & r' & rs4 & -> & L3 & A' & Bq' & _ & -> & L4).
    rewrite nth_error_app2, L4, Nat.sub_diag in H4 by lia. cbn [nth_error] in H4. injection H4 as ->.
    pose proof (run_inv O _ _ _ _ _ ainv0 A) as I1.
    destruct (step_register_ok _ _ _ _ _ _ (proj1 I1) Bq) as (_ & _ & _ & R2).
    destruct (step_inv O _ _ _ _ _ I1 Bq) as [I2 _].
    pose proof (run_ext O _ _ _ _ _ I2 A') as X.
    pose proof (run_inv O _ _ _ _ _ I2 A') as I3.
    destruct (step_register_ok _ _ _ _ _ _ (proj1 I3) Bq') as (_ & _ & R3 & _).
    apply R3. now apply (e_root _ _ _ X). }
  intros E R1 R2. destruct (Nat.lt_trichotomy i j) as [L|[L|L]]; [|assumption|]; exfalso; eauto.
Qed.

Lemma register_input fuel h st rs i j s s' n m : run_ops O fuel api0 h = Some (st, rs) ->
  returned h rs i (DeclareInput s) n -> ~ returned h rs j (Register s' n) m.
Proof.
  intros E R1 [H1 H2].
  destruct (history_kind _ _ _ _ _ ainv0 E) as [_ K]. specialize (K i s n R1).
  destruct (run_at _ _ _ _ _ _ _ E H1) as (h1 & h2 & st1 & rs1 & st2 & r & rs2 & -> & L1 & A & Bq & C & -> & L2).
  rewrite nth_error_app2, L2, Nat.sub_diag in H2 by lia. cbn [nth_error] in H2. injection H2 as ->.
  pose proof (run_inv O _ _ _ _ _ ainv0 A) as I1.
  destruct (step_register_ok _ _ _ _ _ _ (proj1 I1) Bq) as (_ & KN & _ & R2).
  destruct (step_inv O _ _ _ _ _ I1 Bq) as [I2 X1].
  pose proof (run_ext O _ _ _ _ _ I2 C) as X2.
  assert (L : n < anext st1).
  { cbn [step] in Bq. destruct (visible st1 n) eqn:V; [|discriminate]. apply visible_spec in V. tauto. }
  apply KN. rewrite <- K. rewrite (e_kind _ _ _ X2); [symmetry; now apply (e_kind _ _ _ X1)|].
  pose proof (e_next _ _ _ X1). lia.
Qed.

Lemma register_failed fuel st s n st' e : step O fuel st (Register s n) = Some (st', Raise e) -> st' = st.
Proof.
  cbn [step]. destruct (visible st n); intros E; [|now injection E].
  injection E as E. unfold register_output in E.
  destruct (akind st n); try (destruct (mem n (adeps st root))); injection E as <- Q; congruence.
Qed.

(** * C25 *)
Lemma define_after fuel h st rs i j out e r : run_ops O fuel api0 h = Some (st, rs) ->
  given_value h rs i out -> i < j -> nth_error h j = Some (Define out e) -> nth_error rs j = Some r ->
  exists x, r = Raise x.
Proof.
  intros E G L H3 H4.
  destruct (run_at _ _ _ _ _ _ _ E H3) as (h1 & h2 & st1 & rs1 & st2 & r' & rs2 & -> & L1 & A & Bq & C & -> & L2).
  rewrite nth_error_app2, L2, Nat.sub_diag in H4 by lia. cbn [nth_error] in H4. injection H4 as ->.
  assert (G1 : given_value h1 rs1 i out).
  { destruct G as [(e' & m & G1 & G2)|(e' & k & m & G1 & G2)]; [left; exists e', m|right; exists e', k, m];
      (split; [rewrite nth_error_app1 in G1 by lia; exact G1|rewrite nth_error_app1 in G2 by lia; exact G2]). }
  assert (D : adefined st1 out = true).
  { apply (history_defined _ _ _ _ _ A). right. eauto. }
  cbn [step] in Bq. rewrite D in Bq. destruct (visible st1 out && visible st1 e && _).
  - destruct (Nat.eqb e out); injection Bq as _ <-; eauto.
  - injection Bq as _ <-. eauto.
Qed.

(** * C06 *)
Lemma step_edge_kind fuel st o st' r n v : ainv st -> step O fuel st o = Some (st', r) ->
  akind st v <> KExplicit -> In v (adeps st n) -> In v (adeps st' n).
Proof.
  intros I E K H. destruct (step_inv O _ _ _ _ _ I E) as [_ X].
  destruct o as [s|s|s|s m|s i g|f args|out expr|out expr key|x key];
    try (apply (e_edge _ _ _ X); [assumption|]; intros (e & Q & _); discriminate).
  destruct (Nat.eq_dec out v) as [->|NE].
  - cbn [step] in E. destruct (akind st v); try congruence; rewrite andb_false_r in E;
      injection E as <- _; assumption.
  - apply (e_edge _ _ _ X); [assumption|]. intros (e & Q & _). congruence.
Qed.

Lemma step_recent fuel st o st' r : step O fuel st o = Some (st', r) ->
  arecent st' = arecent st \/ (exists s k g, o = AddSubsystem s k g /\ r = Ok (anext st) /\ arecent st' = Some (anext st)
     /\ (forall v, In v (adeps st root) -> In v (adeps st' (anext st)))).
Proof.
  intros E.
  destruct o as [s|s|s|s m|s i g|f args|out expr|out expr key|x key]; cbn [step] in E; cbv zeta in E.
  - left. injection E as <- _. destruct (arecent st) eqn:Q; api; auto.
  - left. injection E as E. unfold register_output in E.
    destruct (arecent st) eqn:Q; cbn [akind add_dep set_adeps new_obj] in E; rewrite upd_same in E;
    destruct (mem _ _); injection E as <- _; api; auto.
  - left. injection E as <- _. reflexivity.
  - left. destruct (visible st m); [|injection E as <- _; reflexivity]. injection E as E. unfold register_output in E.
    destruct (akind st m); try destruct (mem _ _); injection E as <- _; reflexivity.
  - right. injection E as <- <-. exists s, i, g.
    destruct (fold_add_spec O (anext st) (adeps st root)
      (set_recent (new_obj st KSubsystem (User s) (BSub i g)) (anext st))) as (d & t & EF & H1 & H2 & _). rewrite EF.
    splits; auto. intros v H. apply add_dep_in. left. apply H2. auto.
  - left. destruct (forallb (visible st) args); injection E as <- _; [|reflexivity].
    destruct (fold_add_spec O (anext st) args (new_obj st KVar (Auto (anext st)) (BExpr f args)))
      as (d & t & EF & _). now rewrite EF.
  - left. destruct (visible st out && visible st expr && _); [|injection E as <- <-; reflexivity].
    destruct (Nat.eqb expr out); [injection E as <- <-; reflexivity|].
    destruct (adefined st out) eqn:DF; [injection E as <- <-; reflexivity|].
    destruct (define_graph _ _ _ _ _ _ _) as [d|]; [|discriminate].
    injection E as <- <-. reflexivity.
  - left. destruct (visible st out && visible st expr && _); [|injection E as <- <-; reflexivity].
    destruct key as [idx|e]; [|injection E as <- <-; reflexivity].
    destruct (existsb _ (atgt st out)); [injection E as <- <-; reflexivity|].
    destruct (existsb _ idx); injection E as <- <-; reflexivity.
  - left. destruct (visible st x); [|injection E as <- _; reflexivity].
    destruct (adecomp st x) as [dc|]; destruct (find _ _) as [[k0 e]|]; injection E as <- _; reflexivity.
Qed.

Lemma history_edge_kind fuel : forall h st st' rs n v, ainv st -> run_ops O fuel st h = Some (st', rs) ->
  v < anext st -> akind st v <> KExplicit -> In v (adeps st n) -> In v (adeps st' n).
Proof.
  induction h as [|o h IH]; intros st st' rs n v I E L K H.
  - cbn [run_ops] in E. injection E as <- _. assumption.
  - destruct (run_cons _ _ _ _ _ _ E) as (st1 & r & rs' & E1 & E2 & ->).
    destruct (step_inv O _ _ _ _ _ I E1) as [I1 X1].
    apply (IH st1 st' rs'); auto.
    + pose proof (e_next _ _ _ X1). lia.
    + now rewrite (e_kind _ _ _ X1).
    + now apply (step_edge_kind fuel st o st1 r n v).
Qed.

Lemma history_recent fuel : forall h st st' rs b, ainv st -> run_ops O fuel st h = Some (st', rs) ->
  akind st b = KSubsystem -> (exists r, arecent st = Some r /\ (r = b \/ In b (adeps st r))) ->
  exists r, arecent st' = Some r /\ (r = b \/ In b (adeps st' r)).
Proof.
  induction h as [|o h IH]; intros st st' rs b I E K R.
  - cbn [run_ops] in E. injection E as <- _. assumption.
  - destruct (run_cons _ _ _ _ _ _ E) as (st1 & r & rs' & E1 & E2 & ->).
    destruct (step_inv O _ _ _ _ _ I E1) as [I1 X1].
    assert (L : b < anext st) by (apply special_lt; [apply I|now rewrite K]).
    apply (IH st1 st' rs' b I1 E2); [now rewrite (e_kind _ _ _ X1)|].
    destruct (step_recent _ _ _ _ _ E1) as [Q|(s & k & g & -> & _ & Q & Hd)].
    + destruct R as (r0 & R1 & R2). exists r0. split; [congruence|].
      destruct R2 as [R2|R2]; [auto|]. right. apply (step_edge_kind fuel st o st1 r); auto. congruence.
    + exists (anext st). split; [assumption|]. right. apply Hd. apply (proj2 I). now rewrite K.
Qed.

Lemma subsystem_edges fuel h1 st1 rs1 s k g st2 b h2 st rs2 :
  run_ops O fuel api0 h1 = Some (st1, rs1) ->
  step O fuel st1 (AddSubsystem s k g) = Some (st2, Ok b) ->
  run_ops O fuel st2 h2 = Some (st, rs2) ->
  akind st b = KSubsystem /\ In b (adeps st root) /\ has_build st b = true
  /\ (forall v, In v (adeps st1 root) -> ~ lost_in O fuel st2 h2 b v -> In v (adeps st b))
  /\ (forall j s' i, returned h2 rs2 j (DeclareInput s') i -> dep_on (adeps st) i b).
Proof.
  intros E1 E2 E3. pose proof (run_inv O _ _ _ _ _ ainv0 E1) as I1.
  destruct (step_inv O _ _ _ _ _ I1 E2) as [I2 X2].
  pose proof (run_ext O _ _ _ _ _ I2 E3) as X3. pose proof (run_inv O _ _ _ _ _ I2 E3) as I3.
  assert (QB : b = anext st1).
  { cbn [step] in E2. injection E2 as _ E2. auto. }
  assert (KB : akind st2 b = KSubsystem).
  { destruct (step_recent _ _ _ _ _ E2) as [Q|(_ & _ & _ & _ & _ & Q & _)].
    - exfalso. cbn [step] in E2. cbv zeta in E2. injection E2 as E2 _.
      destruct (fold_add_spec O (anext st1) (adeps st1 root)
        (set_recent (new_obj st1 KSubsystem (User s) (BSub k g)) (anext st1))) as (d & t & EF & _).
      rewrite EF in E2. subst st2. api. symmetry in Q. destruct I1 as [B1 _].
      apply (v_recent st1 B1) in Q. rewrite new_fresh in Q by assumption. discriminate.
    - destruct I2 as [B2 _]. apply (v_recent st2 B2). congruence. }
  assert (LB : b < anext st2) by (apply special_lt; [apply I2|now rewrite KB]).
  assert (KB3 : akind st b = KSubsystem) by (now rewrite (e_kind _ _ _ X3)).
  destruct (step_recent _ _ _ _ _ E2) as [Q|(s0 & k0 & g0 & _ & _ & QR & Hd)].
  { exfalso. destruct I2 as [B2 _], I1 as [B1 _].
    cbn [step] in E2. cbv zeta in E2. injection E2 as E2 _.
    destruct (fold_add_spec O (anext st1) (adeps st1 root)
        (set_recent (new_obj st1 KSubsystem (User s) (BSub k g)) (anext st1))) as (d & t & EF & _).
    rewrite EF in E2. subst st2. api. symmetry in Q.
    apply (v_recent st1 B1) in Q. rewrite new_fresh in Q by assumption. discriminate. }
  splits.
  - assumption.
  - apply (proj2 I3). now rewrite KB3.
  - unfold has_build. destruct I3 as [B3 _]. destruct (v_sub st B3 b KB3) as (k1 & g1 & ->). reflexivity.
  - intros v Hv NL. apply (e_edge _ _ _ X3); [|assumption]. rewrite QB. now apply Hd.
  - intros j s' i [H1 H2].
    destruct (run_at _ _ _ _ _ _ _ E3 H1) as (h3 & h4 & st3 & rs3 & st4 & r & rs4 & -> & L1 & A & Bq & C & -> & L2).
    rewrite nth_error_app2, L2, Nat.sub_diag in H2 by lia. cbn [nth_error] in H2. injection H2 as ->.
    destruct (history_recent _ _ _ _ _ b I2 A KB) as (r0 & R1 & R2); [exists b; split; [congruence|auto]|].
    pose proof (run_inv O _ _ _ _ _ I2 A) as I4. pose proof (run_ext O _ _ _ _ _ I2 A) as X4.
    pose proof (v_recent st3 (proj1 I4) r0 R1) as KR.
    assert (LR : r0 < anext st3) by (apply special_lt; [apply I4|now rewrite KR]).
    destruct (step_inv O _ _ _ _ _ I4 Bq) as [I5 X5].
    assert (Hi : In r0 (adeps st4 i)).
    { cbn [step] in Bq. cbv zeta in Bq. rewrite R1 in Bq. injection Bq as <- <-. apply add_dep_in. auto. }
    assert (Hi' : In r0 (adeps st i)).
    { apply (history_edge_kind fuel h4 st4 st rs4 i r0 I5 C); auto.
      - pose proof (e_next _ _ _ X5). lia.
      - rewrite (e_kind _ _ _ X5), KR by assumption. discriminate. }
    destruct R2 as [R2|R2]; [subst r0; now constructor|].
    apply dep_step with r0; [assumption|]. constructor.
    assert (KB4 : akind st3 b = KSubsystem) by (now rewrite (e_kind _ _ _ X4)).
    apply (history_edge_kind fuel h4 st4 st rs4 r0 b I5 C).
    + pose proof (e_next _ _ _ X5). pose proof (e_next _ _ _ X4). lia.
    + rewrite (e_kind _ _ _ X5), KB4; [discriminate|]. pose proof (e_next _ _ _ X4). lia.
    + apply (step_edge_kind fuel st3 (DeclareInput s') st4 (Ok i)); auto. congruence.
Qed.
End WithO.
