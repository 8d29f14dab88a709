(** Promotions, design variables and repeated setup: proofs. *)
From Verif Require Import PyBase PySet PySetProofs PySetWide SpecGraph GraphLemmas GraphPrune GraphRegister GraphEdges Graph SpecSetup
  GraphSetup GraphTheorems Replace ReplaceProofs GroupApi SpecApi GroupApiProofs GroupApiAcyclic GroupApiShape
  GroupApiSetup GroupApiHistory ApiTheorems Assemble SpecAssemble.

Section WithO.
Variable O : oracle.

(** * Names, builders and attributes of subsystems and independent variables *)
Definition fixed (st : api) (n : nat) : Prop := akind st n = KSubsystem \/ akind st n = KIndep.

Lemma fixed_lt st n : base st -> fixed st n -> n < anext st.
Proof. intros B [K|K]; apply special_lt; auto; now rewrite K. Qed.

Lemma register_fixed st s m st' r n : rooted st -> fixed st n -> visible st m = true ->
  register_output O st s m = (st', r) -> aname st' n = aname st n /\ abuild st' n = abuild st n.
Proof.
  intros R F V E. unfold register_output in E. apply visible_spec in V. destruct V as (_ & _ & V).
  destruct (Nat.eq_dec n m) as [<-|NE].
  - assert (M : In n (adeps st root)) by (apply R; destruct F as [F|F]; now rewrite F).
    apply mem_In in M. rewrite M in E. destruct (akind st n); injection E as <- _; auto.
  - destruct (akind st m); try destruct (mem m (adeps st root)); injection E as <- _; auto;
      api; rewrite upd_other by auto; auto.
Qed.

Lemma step_fixed fuel st o st' r n : ainv st -> step O fuel st o = Some (st', r) -> fixed st n ->
  aname st' n = aname st n /\ abuild st' n = abuild st n.
Proof.
  intros [B R] E F. pose proof (fixed_lt st n B F) as L. assert (NE : n <> anext st) by lia.
  destruct o as [s|s|s|s m|s i g|f args|out expr|out expr key|x key]; cbn [step] in E; cbv zeta in E.
  - injection E as <- _. destruct (arecent st); api; now rewrite !upd_other by auto.
  - injection E as E. unfold register_output in E.
    destruct (arecent st); cbn [akind add_dep set_adeps new_obj adeps] in E; rewrite upd_same in E;
      destruct (mem _ _); injection E as <- _; api; now rewrite !upd_other by auto.
  - injection E as <- _. api. now rewrite !upd_other by auto.
  - destruct (visible st m) eqn:V; [|injection E as <- _; auto]. injection E as E.
    now apply (register_fixed st s m st' r n).
  - injection E as <- _.
    destruct (fold_add_spec O (anext st) (adeps st root)
      (set_recent (new_obj st KSubsystem (User s) (BSub i g)) (anext st))) as (d & t & EF & _). rewrite EF.
    api. now rewrite !upd_other by auto.
  - destruct (forallb (visible st) args); [|injection E as <- _; auto]. injection E as <- _.
    destruct (fold_add_spec O (anext st) args (new_obj st KVar (Auto (anext st)) (BExpr f args)))
      as (d & t & EF & _). rewrite EF. api. now rewrite !upd_other by auto.
  - destruct (visible st out && visible st expr && _) eqn:V; [|injection E as <- _; auto].
    apply andb_true_iff in V. destruct V as [_ V].
    assert (NO : n <> out).
    { intros ->. destruct F as [F|F]; rewrite F in V; discriminate. }
    destruct (Nat.eqb expr out); [injection E as <- _; auto|].
    destruct (adefined st out); [injection E as <- _; auto|].
    destruct (define_graph _ _ _ _ _ _ _) as [d|]; [|discriminate].
    injection E as <- _. api. now rewrite !upd_other by auto.
  - destruct (visible st out && visible st expr && _) eqn:V; [|injection E as <- _; auto].
    apply andb_true_iff in V. destruct V as [_ V].
    assert (NO : n <> out).
    { intros ->. destruct F as [F|F]; rewrite F in V; discriminate. }
    destruct key as [idx|e]; [|injection E as <- _; auto].
    destruct (existsb _ (atgt st out)); [injection E as <- _; auto|].
    destruct (existsb _ idx); injection E as <- _; auto. api. now rewrite !upd_other by auto.
  - destruct (visible st x); [|injection E as <- _; auto].
    destruct (adecomp st x) as [dc|] eqn:ED.
    + destruct (v_dec st B x dc ED) as (_ & _ & KD).
      assert (ND : n <> dc) by (intros ->; destruct F as [F|F]; congruence).
      destruct (find _ _) as [[k0 e]|]; injection E as <- _; auto. api. now rewrite !upd_other by auto.
    + destruct (find _ _) as [[k0 e]|]; injection E as <- _; api; rewrite ?upd_other by lia; auto.
Qed.

Lemma run_fixed fuel : forall h st st' rs n, ainv st -> run_ops O fuel st h = Some (st', rs) -> fixed st n ->
  aname st' n = aname st n /\ abuild st' n = abuild st n /\ akind st' n = akind st n.
Proof.
  induction h as [|o h IH]; intros st st' rs n I E F.
  - cbn [run_ops] in E. injection E as <- _. auto.
  - destruct (run_cons _ _ _ _ _ _ _ E) as (st1 & r & rs' & E1 & E2 & ->).
    destruct (step_inv O _ _ _ _ _ I E1) as [I1 X1].
    destruct (step_fixed _ _ _ _ _ _ I E1 F) as [A1 A2].
    pose proof (e_kind _ _ _ X1 n (fixed_lt _ _ (proj1 I) F)) as A3.
    destruct (IH _ _ _ n I1 E2) as (C1 & C2 & C3); [unfold fixed; now rewrite A3|].
    splits; congruence.
Qed.

(** The two calls that keep keyword arguments. *)
Lemma step_sub fuel st s k g st' r : step O fuel st (AddSubsystem s k g) = Some (st', r) ->
  r = Ok (anext st) /\ anext st' = S (anext st)
  /\ aname st' (anext st) = User s /\ abuild st' (anext st) = BSub k g /\ akind st' (anext st) = KSubsystem.
Proof.
  cbn [step]. intros E. injection E as <- <-.
  destruct (fold_add_spec O (anext st) (adeps st root)
    (set_recent (new_obj st KSubsystem (User s) (BSub k g)) (anext st))) as (d & t & EF & _). rewrite EF.
  api. rewrite !upd_same. auto.
Qed.

Lemma step_indep fuel st s st' r : ainv st -> step O fuel st (CreateIndep s) = Some (st', r) ->
  r = Ok (anext st) /\ anext st' = S (anext st)
  /\ aname st' (anext st) = User s /\ akind st' (anext st) = KIndep.
Proof.
  intros [B R] E. cbn [step] in E. cbv zeta in E. injection E as E.
  pose proof (new_notin st root B) as NI.
  assert (NR : root <> anext st) by (pose proof (v_pos st B); unfold root; lia).
  unfold register_output in E.
  assert (M : mem (anext st) (adeps st root) = false).
  { destruct (mem (anext st) (adeps st root)) eqn:Q; [|reflexivity]. apply mem_In in Q. contradiction. }
  destruct (arecent st) as [sub|] eqn:ER.
  - pose proof (v_recent st B sub ER) as KR.
    assert (SR : root <> sub) by (intros <-; rewrite (v_kroot st B) in KR; discriminate).
    cbn [akind add_dep set_adeps new_obj adeps atick] in E. rewrite upd_same in E.
    rewrite upd_other in E by auto. rewrite M in E. injection E as <- <-. api. rewrite !upd_same. auto.
  - cbn [akind add_dep set_adeps new_obj adeps atick] in E. rewrite upd_same, M in E.
    injection E as <- <-. api. rewrite !upd_same. auto.
Qed.

(** Independent variables come from create_indep_var only. *)
Lemma register_kinds st s m st' r : register_output O st s m = (st', r) -> akind st' = akind st.
Proof. intros E. now destruct (register_kind O _ _ _ _ _ E). Qed.

Lemma step_indep_only fuel st o st' r n : ainv st -> step O fuel st o = Some (st', r) -> akind st' n = KIndep ->
  akind st n = KIndep \/ (n = anext st /\ exists s, o = CreateIndep s).
Proof.
  intros I E K. destruct I as [B R].
  destruct o as [s|s|s|s m|s i g|f args|out expr|out expr key|x key]; cbn [step] in E; cbv zeta in E.
  - injection E as <- _. left. destruct (arecent st); api; unfold upd in K;
      destruct (Nat.eqb n (anext st)); auto; discriminate.
  - injection E as E. rewrite (register_kinds _ _ _ _ _ E) in K.
    destruct (arecent st); api; unfold upd in K; destruct (Nat.eqb_spec n (anext st)); eauto.
  - injection E as <- _. left. api. unfold upd in K. destruct (Nat.eqb n (anext st)); auto; discriminate.
  - left. destruct (visible st m); [|injection E as <- _; auto]. injection E as E.
    now rewrite (register_kinds _ _ _ _ _ E) in K.
  - injection E as <- _. left.
    destruct (fold_add_spec O (anext st) (adeps st root)
      (set_recent (new_obj st KSubsystem (User s) (BSub i g)) (anext st))) as (d & t & EF & _). rewrite EF in K.
    api. unfold upd in K. destruct (Nat.eqb n (anext st)); auto; discriminate.
  - left. destruct (forallb (visible st) args); [|injection E as <- _; auto]. injection E as <- _.
    destruct (fold_add_spec O (anext st) args (new_obj st KVar (Auto (anext st)) (BExpr f args)))
      as (d & t & EF & _). rewrite EF in K. api. unfold upd in K.
    destruct (Nat.eqb n (anext st)); auto; discriminate.
  - left. destruct (visible st out && visible st expr && _); [|injection E as <- _; auto].
    destruct (Nat.eqb expr out); [injection E as <- _; auto|].
    destruct (adefined st out); [injection E as <- _; auto|].
    destruct (define_graph _ _ _ _ _ _ _) as [d|]; [|discriminate].
    injection E as <- _. api. unfold upd in K. destruct (Nat.eqb n (anext st)); auto; discriminate.
  - left. destruct (visible st out && visible st expr && _); [|injection E as <- _; auto].
    destruct key as [idx|e]; [|injection E as <- _; auto].
    destruct (existsb _ (atgt st out)); [injection E as <- _; auto|].
    destruct (existsb _ idx); injection E as <- _; auto.
  - left. destruct (visible st x); [|injection E as <- _; auto].
    destruct (adecomp st x) as [dc|].
    + destruct (find _ _) as [[k0 e]|]; injection E as <- _; auto.
      api. unfold upd in K. destruct (Nat.eqb n (anext st)); auto; discriminate.
    + destruct (find _ _) as [[k0 e]|]; injection E as <- _; api; unfold upd in K;
      repeat (match type of K with context [if ?c then _ else _] => destruct c end); auto; discriminate.
Qed.

(** A call writes attributes of the object it makes only. *)
Lemma note_old fuel st c st' r a n : ainv st -> step O fuel st (call_op c) = Some (st', r) -> n < anext st ->
  kept_request (note_call c r a) n = kept_request a n /\ kept_dv (note_call c r a) n = kept_dv a n.
Proof.
  intros I E L. unfold note_call. destruct (call_op c) as [s|s|s|s m|s i g|f args|out expr|out expr key|x key] eqn:EC; auto.
  - destruct (step_indep _ _ _ _ _ I E) as (-> & _). cbn [kept_request kept_dv].
    rewrite upd_other by lia. auto.
  - destruct (step_sub _ _ _ _ _ _ _ E) as (-> & _). cbn [kept_request kept_dv].
    rewrite upd_other by lia. auto.
Qed.

Lemma called_cons c0 cs i o c : called (c0 :: cs) i o c <->
  (i = 0 /\ c0 = c /\ call_op c = o) \/ exists j, i = S j /\ called cs j o c.
Proof.
  unfold called. destruct i as [|j]; simpl; split.
  - intros [A B]. injection A as ->. auto.
  - intros [(_ & -> & ->)|(j & Q & _)]; [auto|discriminate].
  - intros H. right. eauto.
  - intros [(Q & _)|(j' & Q & H)]; [discriminate|]. injection Q as ->. assumption.
Qed.

Lemma history_attrs fuel : forall cs st st' rs a, ainv st ->
  run_ops O fuel st (map call_op cs) = Some (st', rs) ->
  (forall n, n < anext st -> kept_request (attributes cs rs a) n = kept_request a n
                             /\ kept_dv (attributes cs rs a) n = kept_dv a n)
  /\ (forall i s k g c, called cs i (AddSubsystem s k g) c -> exists n,
        akind st' n = KSubsystem /\ aname st' n = User s /\ abuild st' n = BSub k g
        /\ kept_request (attributes cs rs a) n = wanted c)
  /\ (forall i s c, called cs i (CreateIndep s) c -> exists n,
        akind st' n = KIndep /\ aname st' n = User s /\ kept_dv (attributes cs rs a) n = as_dv c)
  /\ (forall n, akind st' n = KIndep -> akind st n = KIndep
        \/ exists i s c, called cs i (CreateIndep s) c /\ aname st' n = User s
                         /\ kept_dv (attributes cs rs a) n = as_dv c).
Proof.
  induction cs as [|c0 cs IH]; intros st st' rs a I E.
  - cbn in E. injection E as <- <-. splits; auto.
    + intros i s k g c [H _]. destruct i; discriminate.
    + intros i s c [H _]. destruct i; discriminate.
  - cbn [map] in E. destruct (run_cons _ _ _ _ _ _ _ E) as (st1 & r & rs' & E1 & E2 & ->).
    destruct (step_inv O _ _ _ _ _ I E1) as [I1 X1]. pose proof (e_next _ _ _ X1) as LE.
    destruct (IH st1 st' rs' (note_call c0 r a) I1 E2) as (H1 & H2 & H3 & H4).
    cbn [attributes]. splits.
    + intros n L. destruct (H1 n ltac:(lia)) as [-> ->]. now apply (note_old fuel st c0 st1 r a n).
    + intros i s k g c H. apply called_cons in H. destruct H as [(-> & -> & Q)|(j & -> & H)]; [|now apply (H2 j s k g c)].
      rewrite Q in E1. destruct (step_sub _ _ _ _ _ _ _ E1) as (-> & N1 & A1 & A2 & A3).
      exists (anext st).
      destruct (run_fixed _ _ _ _ _ (anext st) I1 E2 (or_introl A3)) as (C1 & C2 & C3).
      splits; try congruence. destruct (H1 (anext st) ltac:(lia)) as [-> _].
      unfold note_call. rewrite Q. cbn [kept_request]. apply upd_same.
    + intros i s c H. apply called_cons in H. destruct H as [(-> & -> & Q)|(j & -> & H)]; [|now apply (H3 j s c)].
      rewrite Q in E1. destruct (step_indep _ _ _ _ _ I E1) as (-> & N1 & A1 & A3).
      exists (anext st).
      destruct (run_fixed _ _ _ _ _ (anext st) I1 E2 (or_intror A3)) as (C1 & C2 & C3).
      splits; try congruence. destruct (H1 (anext st) ltac:(lia)) as [_ ->].
      unfold note_call. rewrite Q. cbn [kept_dv]. apply upd_same.
    + intros n K. destruct (H4 n K) as [K1|(i & s & c & H & A & D)].
      * destruct (step_indep_only _ _ _ _ _ _ I E1 K1) as [K0|(-> & s & Q)]; [now left|].
        right. exists 0, s, c0. rewrite Q in E1.
        destruct (step_indep _ _ _ _ _ I E1) as (-> & N1 & A1 & A3).
        destruct (run_fixed _ _ _ _ _ (anext st) I1 E2 (or_intror A3)) as (C1 & _ & _).
        splits; [split; [reflexivity|assumption]|congruence|].
        destruct (H1 (anext st) ltac:(lia)) as [_ ->]. unfold note_call. rewrite Q. cbn [kept_dv]. apply upd_same.
      * right. exists (S i), s, c. splits; auto.
Qed.

(** * What OpenMDAO is given *)
Lemma added_once_map st a added n : NoDup added -> In n added ->
  (forall u v, In u added -> In v added -> label st u = label st v -> u = v) ->
  added_once (map (fun n => (label st n, passed_request st a n)) added) (label st n) (passed_request st a n).
Proof.
  intros ND HI LD. apply in_split in HI. destruct HI as (l1 & l2 & ->).
  exists (map (fun n => (label st n, passed_request st a n)) l1), (map (fun n => (label st n, passed_request st a n)) l2).
  rewrite map_app. split; [reflexivity|]. intros r'.
  assert (NM : ~ In n (l1 ++ l2)) by now apply NoDup_remove_2 in ND.
  split; intros H; apply in_map_iff in H; destruct H as (m & Q & Hm); injection Q as Q _;
    apply NM; apply in_or_app.
  - left. rewrite <- (LD m n); auto; apply in_or_app; [now left|right; now left].
  - right. rewrite <- (LD m n); auto; apply in_or_app; right; [now right|now left].
Qed.

Section Assembled.
Variables (uid : nat -> nat) (reverse : bool) (fuel : nat) (cs : list call) (st : api) (rs : list (res nat)).
Hypothesis E : run_ops O fuel api0 (map call_op cs) = Some (st, rs).
Hypothesis SCH : schedulable uid st.
Hypothesis G : forall out, created_output (map call_op cs) rs out -> exists i, given_value (map call_op cs) rs i out.
Hypothesis LD : labels_distinct st.
Let a := attributes cs rs attrs0.

Lemma assembled : exists l,
  eventually (fun f => assemble O set_list uid f reverse st a)
    (Ok (map (fun n => (label st n, passed_request st a n)) (filter (has_build st) l), design_vars st a l))
  /\ NoDup l /\ (forall n, In n l <-> dep_on (adeps st) root n).
Proof.
  destruct (history_inv O _ _ _ _ E) as [I SH]. pose proof SCH as (_ & _ & UD).
  destruct (setup_graph_spec O set_list set_list_placed (akind st) root reverse uid (adeps st)
    (api_graph_ok uid st I SCH) UD) as (N & nodes & l & s' & EV & (ND & SP & _) & _).
  exists (rev l). splits; auto.
  exists N. intros f L. unfold assemble. rewrite EV by assumption.
  rewrite build_all_ok; auto.
  - intros n _ K. apply (all_defined O fuel _ st rs E G). now apply is_output_explicit.
  - intros u v Hu Hv. apply LD; now apply SP.
Qed.

Lemma labels_inj l : (forall n, In n l <-> dep_on (adeps st) root n) ->
  forall u v, In u (filter (has_build st) l) -> In v (filter (has_build st) l) -> label st u = label st v -> u = v.
Proof.
  intros SP u v Hu Hv. apply filter_In in Hu, Hv. destruct Hu as [Hu Bu], Hv as [Hv Bv].
  apply LD; auto; now apply SP.
Qed.

Lemma promotions : exists parts dvs,
  eventually (fun f => assemble O set_list uid f reverse st a) (Ok (parts, dvs))
  /\ (forall i s k c, called cs i (AddSubsystem s k true) c -> added_once parts (false, User s) (wanted c))
  /\ (forall i s k c, called cs i (AddSubsystem s k false) c ->
        added_once parts (true, User s) (Request (Some [Everything]) None None)).
Proof.
  destruct (history_inv O _ _ _ _ E) as [I SH]. destruct assembled as (l & EV & ND & SP).
  destruct (history_attrs fuel cs api0 st rs attrs0 ainv0 E) as (_ & HS & _).
  assert (IN : forall n, akind st n = KSubsystem -> In n (filter (has_build st) l)).
  { intros n K. apply filter_In. split.
    - apply SP. constructor. apply (proj2 I). now rewrite K.
    - destruct (v_sub st (proj1 I) n K) as (k & g & Q). unfold has_build. now rewrite Q. }
  exists (map (fun n => (label st n, passed_request st a n)) (filter (has_build st) l)), (design_vars st a l).
  splits; auto; intros i s k c H; apply HS in H; destruct H as (n & K & A & Bd & Q);
    pose proof (added_once_map st a _ n (NoDup_filter (has_build st) ND) (IN n K) (labels_inj l SP)) as X;
    unfold label, passed_request in X; rewrite Bd, A in X; fold a in Q; rewrite ?Q in X; exact X.
Qed.

Lemma design_in l nm : In nm (design_vars st a l) <->
  exists n, In n l /\ akind st n = KIndep /\ kept_dv a n = true /\ aname st n = nm.
Proof.
  unfold design_vars. rewrite in_flat_map. split.
  - intros (n & Hn & H). destruct (is_indep (akind st n)) eqn:K; [|contradiction].
    destruct (kept_dv a n) eqn:D; [|contradiction]. destruct H as [<-|[]].
    exists n. splits; auto. now apply is_indep_true.
  - intros (n & Hn & K & D & <-). exists n. split; [assumption|].
    apply is_indep_true in K. rewrite K, D. now left.
Qed.

Lemma design_variables : exists parts dvs,
  eventually (fun f => assemble O set_list uid f reverse st a) (Ok (parts, dvs))
  /\ NoDup dvs
  /\ (forall nm, In nm dvs <-> exists i s c, called cs i (CreateIndep s) c /\ as_dv c = true /\ nm = User s)
  /\ (forall nm, In nm dvs -> added_once parts (true, nm) (Request (Some [Everything]) None None)).
Proof.
  destruct (history_inv O _ _ _ _ E) as [I SH]. destruct assembled as (l & EV & ND & SP).
  destruct (history_attrs fuel cs api0 st rs attrs0 ainv0 E) as (_ & _ & HI & HK).
  exists (map (fun n => (label st n, passed_request st a n)) (filter (has_build st) l)), (design_vars st a l).
  assert (IL : forall n, akind st n = KIndep -> In n l).
  { intros n K. apply SP. constructor. apply (proj2 I). now rewrite K. }
  assert (IB : forall n, akind st n = KIndep -> In n (filter (has_build st) l)).
  { intros n K. apply filter_In. split; [auto|].
    destruct (s_indep st SH n K) as (s & Q & _). unfold has_build. now rewrite Q. }
  assert (LB : forall n, akind st n = KIndep ->
    label st n = (true, aname st n) /\ passed_request st a n = Request (Some [Everything]) None None).
  { intros n K. destruct (s_indep st SH n K) as (s & Q & _). unfold label, passed_request. now rewrite Q. }
  splits; auto.
  - (* distinct objects have distinct names *)
    assert (P : forall m, (forall n, In n m -> In n l) -> NoDup m -> NoDup (design_vars st a m)).
    { induction m as [|n m IH]; intros Sub Nm; [constructor|].
      inversion Nm as [|? ? Hn Nm']; subst. unfold design_vars. cbn [flat_map].
      fold (design_vars st a m). assert (R : NoDup (design_vars st a m)) by (apply IH; auto; intros x Hx; apply Sub; now right).
      destruct (is_indep (akind st n) && kept_dv a n) eqn:C; [|exact R].
      apply andb_true_iff in C. destruct C as [K D]. apply is_indep_true in K. cbn [app].
      constructor; [|exact R]. intros H. apply design_in in H. destruct H as (n' & Hn' & K' & D' & Q).
      assert (n' = n); [|now subst].
      apply (labels_inj l SP); auto. rewrite (proj1 (LB n K)), (proj1 (LB n' K')). congruence. }
    apply P; auto.
  - intros nm. rewrite design_in. split.
    + intros (n & Hn & K & D & <-). destruct (HK n K) as [Q|(i & s & c & H & A & D')]; [discriminate|].
      exists i, s, c. splits; auto. fold a in D'. congruence.
    + intros (i & s & c & H & D & ->). destruct (HI i s c H) as (n & K & A & D').
      exists n. splits; auto. fold a in D'. congruence.
  - intros nm H. apply design_in in H. destruct H as (n & Hn & K & D & <-).
    pose proof (added_once_map st a _ n (NoDup_filter (has_build st) ND) (IB n K) (labels_inj l SP)) as X.
    now rewrite (proj1 (LB n K)), (proj2 (LB n K)) in X.
Qed.
End Assembled.
End WithO.
