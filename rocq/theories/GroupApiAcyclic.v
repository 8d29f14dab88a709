(** Acyclicity of the expression graph along histories of Group calls. *)
From Verif Require Import PyBase SpecGraph GraphLemmas Graph Replace ReplaceProofs GroupApi SpecApi GroupApiProofs.

Lemma acyclic_add (d d' : nat -> list nat) n l :
  acyclic d ->
  (forall m v, In v (d' m) -> In v (d m) \/ m = n /\ In v l) ->
  (forall v, In v l -> v <> n /\ ~ dep_on d v n) ->
  acyclic d'.
Proof.
  intros AC HD HL.
  assert (G : forall u v, dep_on d' u v -> dep_on d u v
    \/ ((u = n \/ dep_on d u n) /\ exists x, In x l /\ (v = x \/ dep_on d x v))).
  { induction 1 as [u v H|u w v H D IH].
    - apply HD in H. destruct H as [H|[-> H]]; [left; now constructor|].
      right. split; [now left|]. exists v. auto.
    - apply HD in H. destruct H as [H|[-> H]].
      + destruct IH as [IH|[IH1 IH2]]; [left; now apply dep_step with w|].
        right. split; [|assumption]. right.
        destruct IH1 as [->|IH1]; [now constructor|now apply dep_step with w].
      + right. split; [now left|]. destruct IH as [IH|[_ IH2]]; [|assumption].
        exists w. auto. }
  intros m D. destruct (G m m D) as [D'|[A (x & Hx & B)]]; [exact (AC m D')|].
  destruct (HL x Hx) as [N1 N2]. destruct A as [A|A]; destruct B as [B|B]; subst; try tauto.
  apply N2. now apply dep_on_trans with m.
Qed.

Lemma no_dep_leaf (d : nat -> list nat) n v : d n = [] -> ~ dep_on d n v.
Proof. intros E D. inversion D as [a b H|a w b H]; subst; rewrite E in H; contradiction. Qed.
Lemma no_dep_into (d : nat -> list nat) n : (forall m, ~ In n (d m)) -> forall u, ~ dep_on d u n.
Proof. intros H u D. destruct (dep_on_last _ _ _ D) as (w & _ & Q). exact (H w Q). Qed.

Section WithO.
Variable O : oracle.

Lemma acyclic_fold n l st : acyclic (adeps st) ->
  (forall v, In v l -> v <> n /\ ~ dep_on (adeps st) v n) ->
  acyclic (adeps (fold_left (fun st x => add_dep O st n x) l st)).
Proof.
  intros AC H. destruct (fold_add_spec O n l st) as (d & t & -> & H1 & H2 & _). api.
  apply (acyclic_add (adeps st) d n l AC); [|assumption].
  intros m v Hv. destruct (Nat.eq_dec m n) as [->|Q]; [apply H2 in Hv; tauto|].
  rewrite H1 in Hv by assumption. auto.
Qed.
Lemma acyclic_dep n x st : acyclic (adeps st) -> x <> n -> ~ dep_on (adeps st) x n ->
  acyclic (adeps (add_dep O st n x)).
Proof. intros AC N1 N2. rewrite add_dep_fold. apply acyclic_fold; [assumption|]. intros v [<-|[]]. auto. Qed.

Lemma step_acyclic fuel st o st' r : ainv st -> acyclic (adeps st) -> no_self_assign st o ->
  step O fuel st o = Some (st', r) -> acyclic (adeps st').
Proof.
  intros [B R] AC NS E. pose proof (v_pos st B) as P.
  assert (NI : forall m, ~ In (anext st) (adeps st m)) by (intros m; now apply new_notin).
  assert (NR : forall u, ~ dep_on (adeps st) u root) by (apply no_dep_into, (v_noroot st B)).
  assert (NN : forall u, ~ dep_on (adeps st) u (anext st)) by (apply no_dep_into, NI).
  assert (NZ : anext st <> root) by (unfold root; lia).
  assert (RN : forall r0, arecent st = Some r0 -> r0 <> anext st /\ r0 <> root).
  { intros r0 ER. pose proof (v_recent st B r0 ER) as K. split; intros ->.
    - rewrite new_fresh in K by assumption. discriminate.
    - rewrite (v_kroot st B) in K. discriminate. }
  destruct o as [s|s|s|s n|s k g|f args|out expr|out expr key|x key]; cbn [step] in E; cbv zeta in E.
  - injection E as <- _. destruct (arecent st) as [r0|] eqn:ER; [|exact AC].
    apply acyclic_dep; auto. now apply RN.
  - injection E as E. unfold register_output in E. 
    set (st2 := match arecent st with Some sub => _ | None => _ end) in *.
    assert (A2 : acyclic (adeps st2)).
    { unfold st2. destruct (arecent st) as [r0|] eqn:ER; [|exact AC].
      apply acyclic_dep; auto.
      - intros Q. destruct (RN r0 eq_refl). congruence.
      - api. apply no_dep_leaf. now apply new_nodeps. }
    assert (R2 : forall u, ~ dep_on (adeps st2) u root).
    { apply no_dep_into. intros m H. unfold st2 in H. destruct (arecent st) as [r0|]; api.
      - unfold upd in H. destruct (Nat.eqb m r0).
        + apply ord_in, in_app_iff in H. destruct H as [H|[H|[]]]; [exact (v_noroot st B _ H)|auto].
        + exact (v_noroot st B _ H).
      - exact (v_noroot st B _ H). }
    destruct (akind st2 (anext st)); try (destruct (mem _ _));
      injection E as <- _; try exact A2; apply (acyclic_dep root (anext st) (set_name st2 _ _)); auto.
  - injection E as <- _. apply acyclic_dep; auto.
  - destruct (visible st n) eqn:V; [|injection E as <- _; exact AC].
    apply visible_spec in V. destruct V as (V1 & V2 & _).
    injection E as E. unfold register_output in E.
    destruct (akind st n); try (destruct (mem _ _));
      injection E as <- _; try exact AC; apply (acyclic_dep root n (set_name st _ _)); auto; unfold root; lia.
  - injection E as <- _.
    destruct (fold_add_spec O (anext st) (adeps st root)
      (set_recent (new_obj st KSubsystem (User s) (BSub k g)) (anext st))) as (d & t & EF & H1 & H2 & _).
    assert (A1 : acyclic d).
    { apply (acyclic_add (adeps st) d (anext st) (adeps st root) AC).
      - intros m v Hv. destruct (Nat.eq_dec m (anext st)) as [->|Q]; [apply H2 in Hv; simpl in Hv; tauto|].
        rewrite H1 in Hv by assumption. auto.
      - intros v Hv. split; [|apply NN]. intros ->. now apply (NI root). }
    rewrite EF. apply acyclic_dep; auto.
    api. apply no_dep_into. intros m H. destruct (Nat.eq_dec m (anext st)) as [->|Q].
    + apply H2 in H. simpl in H. destruct H as [H|H]; exact (v_noroot st B _ H).
    + rewrite H1 in H by assumption. exact (v_noroot st B _ H).
  - destruct (forallb (visible st) args) eqn:V; injection E as <- _; [|exact AC].
    rewrite forallb_forall in V. apply acyclic_fold; [exact AC|].
    intros v Hv. split; [|apply NN]. apply V, visible_spec in Hv. lia.
  - destruct (visible st out && visible st expr && _) eqn:V; [|injection E as <- _; exact AC].
    apply andb_prop in V. destruct V as [V KE]. apply andb_prop in V. destruct V as [V1 V2].
    apply visible_spec in V1. apply visible_spec in V2.
    destruct (Nat.eqb_spec expr out) as [Q|NE]; [injection E as <- _; exact AC|].
    destruct (adefined st out) eqn:DF; [injection E as <- _; exact AC|].
    destruct (define_graph O fuel out expr (anext st) (adeps st) (atick st)) as [d|] eqn:ED; [|discriminate].
    injection E as <- _.
    destruct (define_graph_partial O out expr (anext st) (adeps st) (anext st) (atick st) fuel d
                (v_fin st B) (v_simple st B) NE ltac:(tauto) ltac:(tauto) (le_n _) ED) as (_ & _ & _ & _ & P5).
    exact (P5 AC).
  - destruct NS as [NS1 NS2].
    destruct (visible st out && visible st expr && _) eqn:V; [|injection E as <- _; exact AC].
    assert (A1 : acyclic (adeps (add_dep O st out expr))) by (now apply acyclic_dep).
    destruct key as [idx|e]; [|injection E as <- _; exact A1].
    destruct (existsb _ (atgt st out)); [injection E as <- _; exact A1|].
    destruct (existsb _ idx); injection E as <- _; exact A1.
  - destruct (visible st x) eqn:V; [|injection E as <- _; exact AC].
    apply visible_spec in V. destruct V as (V1 & V2 & _).
    match type of E with (let '(st1, dc) := ?m in _) = _ => destruct m as [st1 dc] eqn:ED end.
    assert (Q : acyclic (adeps st1) /\ dc < anext st1 /\ (forall m, ~ In (anext st1) (adeps st1 m))).
    { destruct (adecomp st x) as [dc'|] eqn:EX.
      - injection ED as <- <-. splits; auto. now apply (v_dec st B x).
      - injection ED as <- <-. splits.
        + apply acyclic_dep; auto. lia.
        + api. lia.
        + intros m H. api. unfold upd in H. destruct (Nat.eqb m (anext st)).
          * apply ord_in, in_app_iff in H. destruct H as [H|[H|[]]]; [|lia].
            apply (v_fin st B) in H. lia.
          * apply (v_fin st B) in H. lia. }
    destruct Q as (A1 & D1 & N1). clear ED.
    destruct (find _ (aparts st1 dc)) as [[k e]|] eqn:EF; injection E as <- _; [exact A1|].
    apply (acyclic_dep (anext st1) dc (set_parts (new_obj st1 KVar (Auto (anext st1)) NoBuild) x dc
      (aparts st1 dc ++ [(key, anext st1)]))); auto; [lia|].
    apply no_dep_into. exact N1.
Qed.

(** * Whole histories *)
Lemma run_inv fuel : forall h st st' rs, ainv st -> run_ops O fuel st h = Some (st', rs) -> ainv st'.
Proof.
  induction h as [|o h IH]; intros st st' rs I E; cbn [run_ops] in E.
  - injection E as <- _. assumption.
  - destruct (step O fuel st o) as [[st1 x]|] eqn:E1; [|discriminate].
    destruct (run_ops O fuel st1 h) as [[st2 xs]|] eqn:E2; [|discriminate]. injection E as <- _.
    apply (IH st1 st2 xs); [|assumption]. now apply (step_inv O fuel st o st1 x).
Qed.

Lemma run_app fuel : forall h1 h2 st st' rs, run_ops O fuel st (h1 ++ h2) = Some (st', rs) ->
  exists st1 rs1 rs2, run_ops O fuel st h1 = Some (st1, rs1) /\ run_ops O fuel st1 h2 = Some (st', rs2)
    /\ rs = rs1 ++ rs2 /\ length rs1 = length h1.
Proof.
  induction h1 as [|o h1 IH]; intros h2 st st' rs E; cbn [run_ops app] in *.
  - exists st, [], rs. auto.
  - destruct (step O fuel st o) as [[s1 x]|] eqn:E1; [|discriminate].
    destruct (run_ops O fuel s1 (h1 ++ h2)) as [[s2 xs]|] eqn:E2; [|discriminate]. injection E as <- <-.
    destruct (IH _ _ _ _ E2) as (s3 & rs1 & rs2 & A & Bq & C & D). rewrite A.
    exists s3, (x :: rs1), rs2. splits; auto; simpl; congruence.
Qed.

Lemma run_app_intro fuel : forall h1 h2 st st1 rs1 st2 rs2,
  run_ops O fuel st h1 = Some (st1, rs1) -> run_ops O fuel st1 h2 = Some (st2, rs2) ->
  run_ops O fuel st (h1 ++ h2) = Some (st2, rs1 ++ rs2).
Proof.
  induction h1 as [|o h1 IH]; intros h2 st st1 rs1 st2 rs2 E1 E2; cbn [run_ops app] in *.
  - injection E1 as <- <-. exact E2.
  - destruct (step O fuel st o) as [[s1 x]|]; [|discriminate].
    destruct (run_ops O fuel s1 h1) as [[s2 xs]|] eqn:E3; [|discriminate]. injection E1 as <- <-.
    rewrite (IH _ _ _ _ _ _ E3 E2). reflexivity.
Qed.

Lemma run_acyclic fuel : forall h st st' rs, ainv st -> acyclic (adeps st) ->
  throughout O no_self_assign fuel st h -> run_ops O fuel st h = Some (st', rs) -> acyclic (adeps st').
Proof.
  induction h as [|o h IH]; intros st st' rs I AC TH E; cbn [run_ops throughout] in *.
  - injection E as <- _. assumption.
  - destruct (step O fuel st o) as [[st1 x]|] eqn:E1; [|discriminate].
    destruct (run_ops O fuel st1 h) as [[st2 xs]|] eqn:E2; [|discriminate]. injection E as <- _.
    destruct TH as [T1 T2].
    apply (IH st1 st2 xs); auto.
    + now apply (step_inv O fuel st o st1 x).
    + now apply (step_acyclic fuel st o st1 x).
    + now apply (T2 st1 x).
Qed.

Lemma run_ext fuel : forall h st st' rs, ainv st -> run_ops O fuel st h = Some (st', rs) ->
  ext (lost_in O fuel st h) st st'.
Proof.
  induction h as [|o h IH]; intros st st' rs I E; cbn [run_ops] in E.
  - injection E as <- _. apply ext_refl.
  - destruct (step O fuel st o) as [[st1 x]|] eqn:E1; [|discriminate].
    destruct (run_ops O fuel st1 h) as [[st2 xs]|] eqn:E2; [|discriminate]. injection E as <- _.
    destruct (step_inv O fuel st o st1 x I E1) as [I1 X1].
    apply ext_trans with st1.
    + apply ext_weaken with (2 := X1). intros n v H. now constructor.
    + apply ext_weaken with (2 := IH _ _ _ I1 E2). intros n v H. now apply lost_later with st1 x.
Qed.

Lemma self_reference_assign st o : no_self_reference st o -> no_self_assign st o.
Proof. destruct o; simpl; tauto. Qed.

Lemma throughout_weaken (P Q : api -> op -> Prop) fuel : (forall st o, P st o -> Q st o) ->
  forall h st, throughout O P fuel st h -> throughout O Q fuel st h.
Proof.
  intros H. induction h as [|o h IH]; intros st T; cbn [throughout] in *; [exact I|].
  destruct T as [T1 T2]. split; [auto|]. intros st' x E. apply IH. now apply (T2 st' x).
Qed.

Lemma not_lost st o n v : acyclic (adeps st) -> no_self_reference st o -> In v (adeps st n) -> ~ lost st o n v.
Proof.
  intros AC NS H (e & -> & Q). simpl in NS. destruct NS as [N1 N2].
  destruct Q as [->|[->|[Q|Q]]].
  - apply (AC v). now constructor.
  - apply N2. now constructor.
  - apply (AC v). apply dep_on_trans with n; [assumption|now constructor].
  - apply N2. apply dep_on_trans with n; [assumption|now constructor].
Qed.
End WithO.
