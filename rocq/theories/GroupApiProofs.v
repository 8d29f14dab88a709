(** Invariants of the Group API along arbitrary histories of calls. *)
From Verif Require Import PyBase SpecGraph GraphLemmas Graph Replace ReplaceProofs GroupApi SpecApi.

Ltac eqcase n m H := let Q := fresh "Q" in destruct (Nat.eqb_spec n m) as [Q|H]; [subst n|].

Ltac api := cbn [adeps akind aname abuild adefined aindexed atgt achecked adecomp aparts anext arecent atick
  new_obj set_adeps set_name set_build set_defined set_tgt set_recent set_parts add_dep] in *.

Definition special (k : kind) : bool :=
  match k with KIndep | KExplicit | KSubsystem => true | _ => false end.

Record base (st : api) : Prop := {
  v_pos : 0 < anext st;
  v_fin : finite_graph (anext st) (adeps st);
  v_simple : simple_graph (adeps st);
  v_noroot : forall n, ~ In root (adeps st n);
  v_kroot : akind st root = KVar;
  v_fresh : forall n, anext st <= n -> akind st n = KVar /\ adefined st n = false;
  v_indep : forall n, akind st n = KIndep -> adeps st n = [];
  v_recent : forall r, arecent st = Some r -> akind st r = KSubsystem;
  v_sub : forall n, akind st n = KSubsystem -> exists k g, abuild st n = BSub k g;
  v_defb : forall n, akind st n = KExplicit -> adefined st n = true -> has_build st n = true;
  v_dec : forall x dc, adecomp st x = Some dc -> 0 < dc /\ dc < anext st /\ akind st dc = KVar;
  v_parts : forall dc k e, In (k, e) (aparts st dc) -> 0 < e /\ e < anext st /\ akind st e = KVar
}.

Lemma nn_em (P : Prop) : ~ ~ (P \/ ~ P).
Proof. tauto. Qed.

Definition rooted (st : api) : Prop := forall n, special (akind st n) = true -> In n (adeps st root).
Definition ainv (st : api) : Prop := base st /\ rooted st.

(** the same with [rooted] under an assumption *)
Definition binv (P : Prop) (st : api) : Prop := base st /\ (P -> rooted st).
Lemma ainv_binv st : ainv st <-> binv True st.
Proof. unfold ainv, binv. tauto. Qed.

Lemma ainv0 : ainv api0.
Proof.
  split; [constructor|]; simpl; try lia; auto; unfold finite_graph, simple_graph, rooted; simpl;
    intros; try discriminate; try contradiction; auto using NoDup_nil.
Qed.

Lemma new_fresh st : base st -> akind st (anext st) = KVar.
Proof. intros B. now apply (v_fresh st B). Qed.
Lemma new_nodeps st : base st -> adeps st (anext st) = [].
Proof.
  intros B. destruct (adeps st (anext st)) as [|x r] eqn:E; [reflexivity|].
  assert (In x (adeps st (anext st))) as H by (rewrite E; now left).
  apply (v_fin st B) in H. lia.
Qed.
Lemma new_notin st n : base st -> ~ In (anext st) (adeps st n).
Proof. intros B H. apply (v_fin st B) in H. lia. Qed.
Lemma special_lt st n : base st -> special (akind st n) = true -> n < anext st.
Proof.
  intros B H. destruct (le_lt_dec (anext st) n) as [L|L]; [|assumption].
  destruct (v_fresh st B n L) as [K _]. rewrite K in H. discriminate.
Qed.

(** * Creating an object *)
Lemma new_obj_base st k nm b : base st -> (k = KSubsystem -> exists i g, b = BSub i g) ->
  base (new_obj st k nm b).
Proof.
  intros B HS. pose proof (v_pos st B) as P. constructor; simpl.
  - lia.
  - intros u v H. apply (v_fin st B) in H. lia.
  - exact (v_simple st B).
  - exact (v_noroot st B).
  - rewrite upd_other by (unfold root; lia). exact (v_kroot st B).
  - intros n L. rewrite upd_other by lia. apply (v_fresh st B). lia.
  - intros n H. unfold upd in H. eqcase n (anext st) Hne; [now apply new_nodeps|].
    now apply (v_indep st B).
  - intros r H. assert (r < anext st).
    { apply special_lt; [assumption|]. now rewrite (v_recent st B r H). }
    rewrite upd_other by lia. now apply (v_recent st B).
  - intros n H. unfold upd in *. eqcase n (anext st) Hne; [auto|].
    now apply (v_sub st B).
  - intros n K D. unfold has_build. simpl. unfold upd in *.
    eqcase n (anext st) Hne.
    + destruct (v_fresh st B (anext st) (le_n _)) as [_ Q]. congruence.
    + now apply (v_defb st B).
  - intros x dc H. destruct (v_dec st B x dc H) as (A1 & A2 & A3). rewrite upd_other by lia. auto.
  - intros dc i e H. destruct (v_parts st B dc i e H) as (A1 & A2 & A3). rewrite upd_other by lia. auto.
Qed.

(** * Adding dependencies *)
Section WithO.
Variable O : oracle.

Lemma fold_add_spec n : forall l st, exists d t,
  fold_left (fun st x => add_dep O st n x) l st = set_adeps st d t
  /\ (forall m, m <> n -> d m = adeps st m)
  /\ (forall v, In v (d n) <-> In v (adeps st n) \/ In v l)
  /\ (NoDup (adeps st n) -> NoDup (d n)).
Proof.
  induction l as [|x l IH]; intros st.
  - exists (adeps st), (atick st). destruct st; simpl. splits; auto. intros v. tauto.
  - cbn [fold_left]. destruct (IH (add_dep O st n x)) as (d & t & E & H1 & H2 & H3).
    exists d, t. splits.
    + rewrite E. reflexivity.
    + intros m Hm. rewrite H1 by assumption. api. now apply upd_other.
    + intros v. rewrite H2. api. rewrite upd_same, ord_in, in_app_iff. simpl. tauto.
    + intros _. apply H3. api. rewrite upd_same. apply ord_nodup.
Qed.

Lemma add_dep_fold st n x : add_dep O st n x = fold_left (fun st x => add_dep O st n x) [x] st.
Proof. reflexivity. Qed.

Lemma fold_add_base n l st : base st -> n < anext st -> akind st n <> KIndep ->
  (forall x, In x l -> x < anext st /\ x <> root) ->
  base (fold_left (fun st x => add_dep O st n x) l st).
Proof.
  intros B Hn Hk Hl. destruct (fold_add_spec n l st) as (d & t & -> & H1 & H2 & H3).
  assert (HD : forall m v, In v (d m) -> In v (adeps st m) \/ m = n /\ In v l).
  { intros m v H. destruct (Nat.eq_dec m n) as [->|Q]; [apply H2 in H; tauto|].
    rewrite H1 in H by assumption. auto. }
  constructor; api; try (destruct B; assumption).
  - intros u v H. apply HD in H. destruct H as [H|[-> H]]; [now apply (v_fin st B)|].
    apply Hl in H. lia.
  - intros m. destruct (Nat.eq_dec m n) as [->|Q]; [apply H3, (v_simple st B)|].
    rewrite H1 by assumption. apply (v_simple st B).
  - intros m H. apply HD in H. destruct H as [H|[-> H]]; [now apply (v_noroot st B) in H|].
    apply Hl in H. tauto.
  - intros m K. rewrite H1; [now apply (v_indep st B)|]. congruence.
Qed.

Lemma add_dep_base st n x : base st -> n < anext st -> akind st n <> KIndep ->
  x < anext st -> x <> root -> base (add_dep O st n x).
Proof.
  intros. rewrite add_dep_fold. apply fold_add_base; auto.
  intros y [<-|[]]. auto.
Qed.

Lemma add_dep_in st n x m v :
  In v (adeps (add_dep O st n x) m) <-> In v (adeps st m) \/ m = n /\ v = x.
Proof.
  api. unfold upd. eqcase m n H.
  - rewrite ord_in, in_app_iff. simpl. intuition.
  - intuition.
Qed.

(** * What one step may do *)
Record ext (T : nat -> nat -> Prop) (st st' : api) : Prop := {
  e_next : anext st <= anext st';
  e_kind : forall n, n < anext st -> akind st' n = akind st n;
  e_root : forall v, In v (adeps st root) -> In v (adeps st' root);
  e_edge : forall n v, In v (adeps st n) -> ~ T n v -> In v (adeps st' n)
}.

Lemma ext_refl T st : ext T st st.
Proof. constructor; auto. Qed.
Lemma ext_trans T a b c : ext T a b -> ext T b c -> ext T a c.
Proof.
  intros [A1 A2 A3 A4] [B1 B2 B3 B4]. constructor.
  - lia.
  - intros n L. rewrite B2 by lia. auto.
  - auto.
  - intros n v H1 H2. auto.
Qed.
Lemma ext_weaken (T T' : nat -> nat -> Prop) st st' : (forall n v, T n v -> T' n v) -> ext T st st' -> ext T' st st'.
Proof. intros H [A1 A2 A3 A4]. constructor; auto. Qed.

Lemma visible_spec st n : visible st n = true ->
  0 < n /\ n < anext st /\ akind st n <> KSubsystem.
Proof.
  unfold visible. rewrite !andb_true_iff, !Nat.ltb_lt. intros (((A & B) & C) & _).
  splits; auto. intros E. rewrite E in C. discriminate.
Qed.

Lemma ext_new st k nm b T : ext T st (new_obj st k nm b).
Proof. constructor; api; auto. intros n L. rewrite upd_other by lia. reflexivity. Qed.
Lemma ext_add st n x T : ext T st (add_dep O st n x).
Proof.
  constructor.
  - api. auto.
  - api. auto.
  - intros v H. apply add_dep_in. auto.
  - intros m v H _. apply add_dep_in. auto.
Qed.
Lemma ext_fold st n l T : ext T st (fold_left (fun st x => add_dep O st n x) l st).
Proof.
  revert st. induction l as [|x l IH]; intros st; [apply ext_refl|].
  cbn [fold_left]. eapply ext_trans; [apply ext_add|apply IH].
Qed.

(** ** register_output *)
Lemma register_ok st s n : base st -> 0 < n -> n < anext st -> forall st' r,
  register_output O st s n = (st', r) ->
  base st' /\ (forall T, ext T st st')
  /\ match r with
     | Ok m => m = n /\ akind st n <> KInput /\ ~ In n (adeps st root) /\ In n (adeps st' root)
               /\ (forall v, In v (adeps st' root) -> In v (adeps st root) \/ v = n)
               /\ (forall m, m <> root -> adeps st' m = adeps st m)
               /\ aname st' n = User s /\ (forall m, m <> n -> aname st' m = aname st m)
               /\ akind st' = akind st /\ anext st' = anext st /\ arecent st' = arecent st
               /\ adefined st' = adefined st /\ abuild st' = abuild st
     | Raise e => st' = st /\ ((akind st n = KInput /\ e = TypeError)
                               \/ (akind st n <> KInput /\ In n (adeps st root) /\ e = ValueError))
     end.
Proof.
  intros B H0 Hn st' r E. unfold register_output in E.
  assert (K : akind st n = KInput \/ akind st n <> KInput) by (destruct (akind st n); auto; right; discriminate).
  destruct K as [K|K].
  - rewrite K in E. injection E as <- <-. splits; auto using ext_refl.
  - assert (E' : (if mem n (adeps st root) then (st, Raise ValueError)
                  else (add_dep O (set_name st n (User s)) root n, Ok n)) = (st', r)).
    { destruct (akind st n); congruence. }
    clear E. destruct (mem n (adeps st root)) eqn:M; injection E' as <- <-.
    + apply mem_In in M. splits; auto using ext_refl.
    + assert (NI : ~ In n (adeps st root)) by (intros Q; apply mem_In in Q; congruence).
      assert (B1 : base (set_name st n (User s))) by (destruct B; constructor; assumption).
      splits; auto.
      * apply add_dep_base; auto; api; try (apply (v_pos st B)).
        -- rewrite (v_kroot st B). discriminate.
        -- unfold root. lia.
      * intros T. eapply ext_trans; [|apply ext_add]. constructor; api; auto.
      * apply add_dep_in. auto.
      * intros v Hv. apply add_dep_in in Hv. simpl in Hv. tauto.
      * intros m Hm. api. now apply upd_other.
      * api. apply upd_same.
      * intros m Hm. api. now apply upd_other.
Qed.

(** ** One call keeps the invariant, and only define removes edges, into its target. *)
Lemma step_binv P fuel st o st' r : binv P st -> step O fuel st o = Some (st', r) ->
  binv P st' /\ ext (lost st o) st st'.
Proof.
  intros [B R] E. pose proof (v_pos st B) as PO.
  assert (RR : akind st root <> KIndep) by (rewrite (v_kroot st B); discriminate).
  assert (NR : anext st <> root) by (unfold root; lia).
  assert (RZ : root < anext st) by exact PO.
  destruct o as [s|s|s|s n|s k g|f args|out expr|out expr key|x key]; cbn [step] in E; cbv zeta in E.
  - (* DeclareInput *)
    injection E as <- _.
    assert (B1 : base (new_obj st KInput (User s) NoBuild)) by (apply new_obj_base; [assumption|discriminate]).
    assert (R1 : P -> rooted (new_obj st KInput (User s) NoBuild)).
    { intros HR n H. api. unfold upd in H. destruct (Nat.eqb_spec n (anext st)); [discriminate|now apply R]. }
    destruct (arecent st) as [r0|] eqn:ER.
    + pose proof (v_recent st B r0 ER) as KR.
      assert (r0 < anext st) by (apply special_lt; [assumption|now rewrite KR]).
      assert (r0 <> root) by (intros ->; rewrite (v_kroot st B) in KR; discriminate).
      split; [split|].
      * apply add_dep_base; auto; api; try lia. rewrite upd_same. discriminate.
      * intros HR n H'. apply add_dep_in. left. now apply R1.
      * eapply ext_trans; [apply ext_new|apply ext_add].
    + split; [split; assumption|apply ext_new].
  - (* CreateIndep *)
    injection E as E.
    set (st1 := new_obj st KIndep (User s) (BIndep (User s))) in *.
    assert (B1 : base st1) by (apply new_obj_base; [assumption|discriminate]).
    set (st2 := match arecent st with Some sub => add_dep O st1 sub (anext st) | None => st1 end) in *.
    assert (S2 : base st2 /\ (forall T, ext T st st2) /\ akind st2 = akind st1 /\ anext st2 = anext st1
                 /\ adeps st2 root = adeps st root).
    { unfold st2. destruct (arecent st) as [r0|] eqn:ER.
      - pose proof (v_recent st B r0 ER) as KR.
        assert (r0 < anext st) by (apply special_lt; [assumption|now rewrite KR]).
        assert (r0 <> root) by (intros ->; rewrite (v_kroot st B) in KR; discriminate).
        splits; auto.
        + apply add_dep_base; auto; unfold st1; api; try lia.
          rewrite upd_other by lia. rewrite KR. discriminate.
        + intros T. eapply ext_trans; [apply ext_new|apply ext_add].
        + api. apply upd_other. auto.
      - splits; auto. intros T. apply ext_new. }
    destruct S2 as (B2 & X2 & K2 & N2 & D2).
    destruct (register_ok st2 s (anext st) B2 ltac:(lia) ltac:(rewrite N2; unfold st1; simpl; lia) st' r E)
      as (B3 & X3 & Q).
    split; [split; [assumption|]|eapply ext_trans; [apply X2|apply X3]].
    assert (K1 : akind st2 (anext st) = KIndep) by (rewrite K2; api; apply upd_same).
    destruct r as [m|e].
    + destruct Q as (_ & _ & _ & Q & _ & _ & _ & _ & KK & _). intros HR n H. rewrite KK, K2 in H. simpl in H.
      unfold upd in H. eqcase n (anext st) Hne; [assumption|].
      apply (e_root (fun _ _ => False) st2 st' (X3 _)). rewrite D2. now apply R.
    + exfalso. destruct Q as [_ [[Q _]|[_ [Q _]]]]; [congruence|]. rewrite D2 in Q. now apply new_notin in Q.
  - (* CreateOutput *)
    injection E as <- _.
    assert (B1 : base (new_obj st KExplicit (User s) NoBuild)) by (apply new_obj_base; [assumption|discriminate]).
    split; [split|].
    + apply add_dep_base; auto; api; try lia. rewrite upd_other by auto. assumption.
    + intros HR n H. apply add_dep_in. api. unfold upd in H.
      eqcase n (anext st) Hne; [auto|]. left. now apply R.
    + eapply ext_trans; [apply ext_new|apply ext_add].
  - (* Register *)
    destruct (visible st n) eqn:V; [injection E as E|injection E as <- _; split; [split; assumption|apply ext_refl]].
    apply visible_spec in V. destruct V as (V1 & V2 & _).
    destruct (register_ok st s n B V1 V2 st' r E) as (B3 & X3 & Q).
    split; [split; [assumption|]|apply X3].
    destruct r as [m|e].
    + destruct Q as (_ & _ & _ & Q & _ & _ & _ & _ & KK & _). intros HR k H. rewrite KK in H.
      apply (e_root (fun _ _ => False) st st' (X3 _)). now apply R.
    + destruct Q as [-> _]. assumption.
  - (* AddSubsystem *)
    injection E as <- _.
    set (st1 := set_recent (new_obj st KSubsystem (User s) (BSub k g)) (anext st)) in *.
    assert (B1 : base st1).
    { assert (B0 : base (new_obj st KSubsystem (User s) (BSub k g))) by (apply new_obj_base; eauto).
      destruct B0. constructor; try assumption. intros r0 H. injection H as <-. api. apply upd_same. }
    set (st2 := fold_left (fun st0 x => add_dep O st0 (anext st) x) (adeps st root) st1).
    assert (B2 : base st2).
    { apply fold_add_base; [assumption| | |].
      - unfold st1. api. lia.
      - unfold st1. api. rewrite upd_same. discriminate.
      - intros x Hx. split.
        + apply (v_fin st B) in Hx. unfold st1. api. lia.
        + intros ->. exact (v_noroot st B _ Hx). }
    assert (N2 : anext st2 = S (anext st) /\ akind st2 = akind st1 /\ adeps st2 root = adeps st root).
    { unfold st2. destruct (fold_add_spec (anext st) (adeps st root) st1) as (d & t & -> & H1 & _).
      split; [reflexivity|]. split; [reflexivity|]. exact (H1 root ltac:(auto)). }
    destruct N2 as (N2 & K2 & D2).
    split; [split|].
    + apply add_dep_base; auto; rewrite ?N2, ?K2; unfold st1; api; try lia.
      rewrite upd_other by auto. assumption.
    + intros HR n H. apply add_dep_in. rewrite D2. simpl in H. rewrite K2 in H. unfold st1 in H. simpl in H.
      unfold upd in H. eqcase n (anext st) Hne; [auto|]. left. now apply R.
    + apply ext_trans with st1; [|apply ext_trans with st2; [apply ext_fold|apply ext_add]].
      destruct (ext_new st KSubsystem (User s) (BSub k g) (lost st (AddSubsystem s k g))).
      constructor; assumption.
  - (* Expr *)
    destruct (forallb (visible st) args) eqn:V; injection E as <- _;
      [|split; [split; assumption|apply ext_refl]].
    rewrite forallb_forall in V.
    set (st1 := new_obj st KVar (Auto (anext st)) (BExpr f args)) in *.
    assert (B1 : base st1) by (apply new_obj_base; [assumption|discriminate]).
    assert (B2 : base (fold_left (fun st0 x => add_dep O st0 (anext st) x) args st1)).
    { apply fold_add_base; [assumption| | |].
      - unfold st1. api. lia.
      - unfold st1. api. rewrite upd_same. discriminate.
      - intros x Hx. apply V, visible_spec in Hx. unfold st1, root. api. lia. }
    split; [split; [assumption|]|].
    + destruct (fold_add_spec (anext st) args st1) as (d & t & -> & H1 & _).
      intros HR n H. api. rewrite H1 by auto. unfold st1 in *. api. unfold upd in H.
      destruct (Nat.eqb_spec n (anext st)); [discriminate|now apply R].
    + eapply ext_trans; [apply ext_new|apply ext_fold].
  - (* Define *)
    destruct (visible st out && visible st expr && _) eqn:V; [|injection E as <- _; split; [split; assumption|apply ext_refl]].
    apply andb_prop in V. destruct V as [V KE]. apply andb_prop in V. destruct V as [V1 V2].
    assert (KO : akind st out = KExplicit) by (destruct (akind st out); congruence). clear KE.
    apply visible_spec in V1. apply visible_spec in V2.
    destruct V1 as (V1 & V1' & _), V2 as (V2 & V2' & _).
    eqcase expr out NE; [injection E as <- _; split; [split; assumption|apply ext_refl]|].
    destruct (adefined st out) eqn:DF; [injection E as <- _; split; [split; assumption|apply ext_refl]|].
    destruct (define_graph O fuel out expr (anext st) (adeps st) (atick st)) as [d|] eqn:ED; [|discriminate].
    injection E as <- _.
    destruct (define_graph_partial O out expr (anext st) (adeps st) (anext st) (atick st) fuel d
                (v_fin st B) (v_simple st B) NE V2' V1' (le_n _) ED) as (P1 & P2 & P3 & P4 & _).
    (* every edge of the result *)
    assert (HD : forall m v, In v (d m) -> In v (adeps st m) \/ (m = out /\ v = expr)
                              \/ (v = anext st /\ In out (adeps st m))).
    { intros m v H.
      destruct (in_dec Nat.eq_dec v (adeps st m)) as [|N1]; [auto|].
      destruct (in_dec Nat.eq_dec out (adeps st m)) as [J|J];
        destruct (Nat.eq_dec v (anext st)) as [J1|J1]; try (right; right; now split).
      all: destruct (Nat.eq_dec m out) as [J2|J2]; destruct (Nat.eq_dec v expr) as [J3|J3];
           try (right; left; now split).
      all: exfalso; apply (nn_em (m = out \/ m = expr \/ dep_on (adeps st) out m \/ dep_on (adeps st) expr m));
           intros [Q|Q]; [apply (P1 m Q) in H; tauto|rewrite P2 in H by tauto; auto]. }
    assert (HK : forall m v, In v (adeps st m) ->
      (v = out -> ~ (m = out \/ m = expr \/ dep_on (adeps st) out m \/ dep_on (adeps st) expr m)) -> In v (d m)).
    { intros m v H Hv. destruct (in_dec Nat.eq_dec v (d m)) as [|N1]; [assumption|].
      exfalso; apply (nn_em (m = out \/ m = expr \/ dep_on (adeps st) out m \/ dep_on (adeps st) expr m));
           intros [Q|Q]; [|apply N1; rewrite P2 by tauto; assumption].
      apply N1, (P1 m Q). left. split; [|auto]. intros QQ. exact (Hv QQ Q). }
    assert (DR : d root = adeps st root).
    { apply P2; auto.
      - unfold root. lia.
      - unfold root. lia.
      - intros D. destruct (dep_on_last _ _ _ D) as (w & _ & Hw). exact (v_noroot st B _ Hw).
      - intros D. destruct (dep_on_last _ _ _ D) as (w & _ & Hw). exact (v_noroot st B _ Hw). }
    split; [split|].
    + constructor; api.
      * lia.
      * exact P4.
      * exact P3.
      * intros n H. apply HD in H. destruct H as [H|[[_ H]|[H _]]].
        -- exact (v_noroot st B _ H).
        -- unfold root in H. lia.
        -- congruence.
      * rewrite upd_other by auto. exact (v_kroot st B).
      * intros n L. rewrite !upd_other by lia. apply (v_fresh st B). lia.
      * intros n K. unfold upd in K. eqcase n (anext st) Hn; [discriminate|].
        destruct (d n) as [|w l] eqn:EW; [reflexivity|].
        assert (In w (d n)) as H by (rewrite EW; now left). apply HD in H.
        rewrite (v_indep st B n K) in H. simpl in H. destruct H as [[]|[[-> _]|[_ []]]]. congruence.
      * intros r0 H. pose proof (v_recent st B r0 H) as KR.
        rewrite upd_other; [assumption|]. intros ->. rewrite new_fresh in KR by assumption. discriminate.
      * intros n K. unfold upd in *. eqcase n (anext st) Hn; [discriminate|].
        eqcase n out Ho; [congruence|]. now apply (v_sub st B).
      * intros n K D. unfold has_build. api. unfold upd in *.
        eqcase n out Ho; [reflexivity|].
        eqcase n (anext st) Hn; [discriminate|].
        now apply (v_defb st B).
      * intros x dc H. destruct (v_dec st B x dc H) as (A1 & A2 & A3). rewrite upd_other by lia. auto.
      * intros dc i e H. destruct (v_parts st B dc i e H) as (A1 & A2 & A3). rewrite upd_other by lia. auto.
    + intros HR n H. api. rewrite DR. unfold upd in H.
      destruct (Nat.eqb_spec n (anext st)); [discriminate|]. now apply R.
    + constructor; api.
      * lia.
      * intros n L. now rewrite upd_other by lia.
      * intros v H. rewrite DR. assumption.
      * intros n v H T. apply HK; [assumption|]. intros -> Q. apply T. now exists expr.
  - (* Setitem *)
    destruct (visible st out && visible st expr && _) eqn:V; [|injection E as <- _; split; [split; assumption|apply ext_refl]].
    apply andb_prop in V. destruct V as [V KE]. apply andb_prop in V. destruct V as [V1 V2].
    assert (KO : akind st out = KExplicit) by (destruct (akind st out); congruence). clear KE.
    apply visible_spec in V1. apply visible_spec in V2.
    assert (B1 : base (add_dep O st out expr)).
    { apply add_dep_base; auto; try tauto; [rewrite KO; discriminate|unfold root; lia]. }
    assert (R1 : P -> rooted (add_dep O st out expr)).
    { intros HR n H. apply add_dep_in. left. now apply R. }
    assert (X1 : ext (lost st (Setitem out expr key)) st (add_dep O st out expr)) by apply ext_add.
    destruct key as [idx|e]; [|injection E as <- _; split; [split|]; assumption].
    destruct (existsb _ (atgt st out)); [injection E as <- _; split; [split|]; assumption|].
    destruct (existsb _ idx); injection E as <- _.
    + split; [split|].
      * destruct B1. constructor; assumption.
      * exact R1.
      * destruct X1. constructor; assumption.
    + split; [split|].
      * destruct B1 as [Q1 Q2 Q3 Q4 Q5 Q6 Q7 Q8 Q9 Q10]. constructor; try assumption.
        -- intros n L. destruct (Q6 n L) as [A1 A2]. split; [assumption|]. api.
           rewrite upd_other; [assumption|]. lia.
        -- intros n K. api. rewrite upd_other; [now apply Q9|]. congruence.
        -- intros n K D. unfold has_build. api. unfold upd in *.
           eqcase n out Hne; [reflexivity|]. now apply Q10.
      * exact R1.
      * destruct X1. constructor; assumption.
  - (* Getitem *)
    destruct (visible st x) eqn:V; [|injection E as <- _; split; [split; assumption|apply ext_refl]].
    apply visible_spec in V. destruct V as (V1 & V2 & _).
    match type of E with (let '(st1, dc) := ?m in _) = _ => destruct m as [st1 dc] eqn:ED end.
    assert (Q : binv P st1 /\ ext (lost st (Getitem x key)) st st1 /\ 0 < dc /\ dc < anext st1 /\ akind st1 dc = KVar).
    { destruct (adecomp st x) as [dc'|] eqn:EX.
      - injection ED as <- <-. destruct (v_dec st B x dc' EX) as (A1 & A2 & A3).
        splits; auto; [split; assumption|apply ext_refl].
      - injection ED as <- <-.
        set (st0 := new_obj st KVar (Decompose (aname st x)) NoBuild).
        assert (B0 : base st0) by (apply new_obj_base; [assumption|discriminate]).
        assert (B1 : base (set_parts st0 x (anext st) [])).
        { destruct B0. unfold st0 in *. constructor; try assumption; api.
          - intros y dc. unfold upd at 1. eqcase y x Hne.
            + intros H. injection H as <-. rewrite upd_same. splits; auto; lia.
            + apply v_dec0.
          - intros dc k e. unfold upd at 1. eqcase dc (anext st) Hne; [intros []|].
            apply v_parts0. }
        split; [split|splits].
        + unfold st0 in *. apply add_dep_base; auto; api; try lia.
          * rewrite upd_same. discriminate.
          * unfold root. lia.
        + unfold st0 in *. intros HR n H. apply add_dep_in. left. api. unfold upd in H.
          destruct (Nat.eqb_spec n (anext st)); [discriminate|]. now apply R.
        + apply ext_trans with st0; [apply ext_new|].
          apply ext_trans with (set_parts st0 x (anext st) []); [constructor; auto|apply ext_add].
        + lia.
        + unfold st0. api. lia.
        + unfold st0. api. apply upd_same. }
    clear ED. destruct Q as ([B1 R1] & X1 & D1 & D2 & D3).
    destruct (find _ (aparts st1 dc)) as [[k e]|] eqn:EF.
    + injection E as <- _. split; [split|]; assumption.
    + injection E as <- _.
      set (e := anext st1).
      set (st0 := new_obj st1 KVar (Auto e) NoBuild).
      assert (B0 : base st0) by (apply new_obj_base; [assumption|discriminate]).
      set (st2 := set_parts st0 x dc (aparts st1 dc ++ [(key, e)])).
      assert (B2 : base st2).
      { destruct B0. unfold st2, st0 in *. constructor; try assumption; api.
        - intros y dc'. unfold upd at 1. eqcase y x Hne.
          + intros H. injection H as <-. splits; auto; try lia. rewrite upd_other by lia. assumption.
          + apply v_dec0.
        - intros dc' k e'. unfold upd at 1. destruct (Nat.eqb_spec dc' dc) as [->|Hne]; [|apply v_parts0].
          rewrite in_app_iff. intros [H|[H|[]]].
          + apply v_parts0 in H. exact H.
          + injection H as _ <-. fold e. rewrite upd_same. unfold e. splits; auto; lia. }
      assert (B3 : base (add_dep O st2 e dc)).
      { apply add_dep_base; auto; unfold st2, st0, e; api; try lia.
        - rewrite upd_same. discriminate.
        - unfold root. lia. }
      split; [split|].
      * destruct B3 as [Q1 Q2 Q3 Q4 Q5 Q6 Q7 Q8 Q9 Q10 Q11 Q12]. constructor; try assumption.
        -- intros n K. cbn [akind abuild set_build] in *. rewrite upd_other; [now apply Q9|].
           intros ->. unfold add_dep, st2, st0 in K. simpl in K. rewrite upd_other in K by lia. congruence.
        -- intros n K D. unfold has_build. cbn [akind abuild set_build] in *. unfold upd.
           eqcase n dc Hne; [reflexivity|]. now apply Q10.
      * intros HR n H. apply (add_dep_in st2 e dc root n). left. unfold st2, st0 in *. api. unfold upd in H.
        destruct (Nat.eqb_spec n (anext st1)); [discriminate|]. now apply R1.
      * eapply ext_trans; [exact X1|].
        apply ext_trans with st0; [apply ext_new|].
        apply ext_trans with st2; [constructor; auto|].
        apply ext_trans with (add_dep O st2 e dc); [apply ext_add|constructor; auto].
Qed.
Lemma step_inv fuel st o st' r : ainv st -> step O fuel st o = Some (st', r) ->
  ainv st' /\ ext (lost st o) st st'.
Proof. rewrite !ainv_binv. apply step_binv. Qed.
End WithO.
