(** Histories of calls on the group of an implicit component. *)
From Coq Require Import Reals Lra.
From Verif Require Import PyBase SpecGraph GraphLemmas Graph Replace ReplaceProofs GroupApi SpecApi GroupApiProofs GroupApiAcyclic
  RSum NdArray CompElem Implicit SpecImplicit BisectProofs.
Import ListNotations.
Local Open Scope nat_scope.

Section H.
Variable O : oracle.

(** ---- the graph after define_residual ---- *)
Lemma residual_graph_facts fuel out r d N t d' :
  finite_graph N d -> simple_graph d -> out < N ->
  residual_graph O fuel out r N d t = Some d' ->
  simple_graph d' /\ finite_graph (S N) d'
  /\ (forall m v, In v (d' m) -> In v (d m) \/ v = N /\ In out (d m))
  /\ (forall m v, In v (d m) -> v <> out -> In v (d' m))
  /\ (forall m, ~ reach out d r m -> d' m = d m)
  /\ (forall m, ~ In out (d m) -> d' m = d m).
Proof.
  intros FIN SIM LO E. unfold residual_graph in E.
  destruct (replace_output_leaf_nodes O out N fuel r (lstart d t)) as [s|] eqn:ER; [|discriminate].
  injection E as <-.
  assert (LN : d N = []).
  { destruct (d N) as [|x l] eqn:Q; [reflexivity|]. assert (In x (d N)) as H by (rewrite Q; now left).
    apply FIN in H. lia. }
  destruct (rep_inv O out N d N SIM (fun u v H => proj1 (FIN u v H)) LN ltac:(lia) r fuel r _ _ ER
              (lstart_inv out N d r t)) as [I _]; [left; now left|].
  assert (SD : simple_graph (cur s)) by (intros m; now apply (cur_nodup out N d SIM r s m)).
  splits; auto.
  - intros u v H. destruct (i_cur _ _ _ _ _ I u) as [Q|(_ & Q1 & Q2)].
    + rewrite Q in H. apply FIN in H. lia.
    + apply FIN in Q1. apply Q2 in H. destruct H as [[H _]|H]; [apply FIN in H|]; lia.
  - intros m v H. destruct (i_cur _ _ _ _ _ I m) as [Q|(_ & Q1 & Q2)].
    + rewrite Q in H. auto.
    + apply Q2 in H. tauto.
  - intros m v H Hv. destruct (i_cur _ _ _ _ _ I m) as [Q|(_ & Q1 & Q2)].
    + now rewrite Q.
    + apply Q2. auto.
  - intros m H. destruct (i_cur _ _ _ _ _ I m) as [Q|(Q & _)]; [assumption|contradiction].
  - intros m H. destruct (i_cur _ _ _ _ _ I m) as [Q|(_ & Q & _)]; [assumption|contradiction].
Qed.

(** Edges only to a new leaf: no cycle appears. *)
Lemma residual_acyclic d d' N out : finite_graph N d ->
  (forall m v, In v (d' m) -> In v (d m) \/ v = N /\ In out (d m)) -> acyclic d -> acyclic d'.
Proof.
  intros FIN H AC n D.
  assert (L : d' N = []).
  { destruct (d' N) as [|x l] eqn:Q; [reflexivity|]. assert (I : In x (d' N)) by (rewrite Q; now left).
    apply H in I. destruct I as [I|[_ I]]; apply FIN in I; lia. }
  assert (G : forall u v, dep_on d' u v -> v = N \/ dep_on d u v).
  { intros u v D'. induction D' as [u v I|u w v I D' IH].
    - apply H in I. destruct I as [I|[-> _]]; auto. right. now constructor.
    - apply H in I. destruct I as [I|[-> _]].
      + destruct IH; [auto|]. right. now apply dep_step with w.
      + exfalso. inversion D' as [? ? Q|? ? ? Q]; subst; rewrite L in Q; contradiction. }
  destruct (G n n D) as [->|Q].
  - inversion D as [? ? Q|? ? ? Q]; subst; rewrite L in Q; contradiction.
  - exact (AC n Q).
Qed.

(** ---- names of registered expressions do not change ---- *)
Lemma register_name st s n st' x m : register_output O st s n = (st', x) -> In m (adeps st root) ->
  aname st' m = aname st m.
Proof.
  unfold register_output. intros E H.
  assert (K : (akind st n = KInput /\ st' = st)
    \/ (if mem n (adeps st root) then (st, Raise ValueError)
        else (add_dep O (set_name st n (User s)) root n, Ok n)) = (st', x)).
  { destruct (akind st n); auto. left. split; congruence. }
  destruct K as [[_ ->]|K]; [reflexivity|].
  destruct (mem n (adeps st root)) eqn:M; injection K as <- _; [reflexivity|].
  api. apply upd_other. intros ->. apply mem_In in H. congruence.
Qed.

Lemma fold_add_name n l st : aname (fold_left (fun st x => add_dep O st n x) l st) = aname st.
Proof. revert st. induction l as [|x l IH]; intros st; [reflexivity|]. cbn [fold_left]. rewrite IH. reflexivity. Qed.

Lemma step_name fuel st o st' x m : base st -> step O fuel st o = Some (st', x) -> In m (adeps st root) ->
  aname st' m = aname st m.
Proof.
  intros B E H. assert (L : m < anext st) by (now apply (v_fin st B) in H).
  assert (NEW : forall k nm b, aname (new_obj st k nm b) m = aname st m).
  { intros. api. apply upd_other. lia. }
  destruct o as [s|s|s|s n|s k g|f args|out expr|out expr key|y key]; cbn [step] in E; cbv zeta in E.
  - injection E as <- _. destruct (arecent st); apply NEW.
  - injection E as E. rewrite (register_name _ _ _ _ _ m E); destruct (arecent st) as [q|] eqn:ER.
    + apply NEW.
    + apply NEW.
    + apply add_dep_in. now left.
    + exact H.
  - injection E as <- _. apply NEW.
  - destruct (visible st n); [|injection E as <- _; reflexivity]. injection E as E.
    exact (register_name _ _ _ _ _ m E H).
  - injection E as <- _. change (aname (add_dep O ?a ?b ?c)) with (aname a).
    rewrite fold_add_name. apply NEW.
  - destruct (forallb (visible st) args); injection E as <- _; [|reflexivity].
    rewrite fold_add_name. apply NEW.
  - destruct (_ && _); [|injection E as <- _; reflexivity].
    destruct (Nat.eqb expr out); [injection E as <- _; reflexivity|].
    destruct (adefined st out); [injection E as <- _; reflexivity|].
    destruct (define_graph _ _ _ _ _ _ _) as [d|]; [|discriminate]. injection E as <- _.
    api. apply upd_other. lia.
  - destruct (_ && _); [|injection E as <- _; reflexivity].
    destruct key as [idx|e]; [|injection E as <- _; reflexivity].
    destruct (existsb _ (atgt st out)); [injection E as <- _; reflexivity|].
    destruct (existsb _ idx); injection E as <- _; reflexivity.
  - destruct (visible st y); [|injection E as <- _; reflexivity].
    destruct (adecomp st y) as [dc|] eqn:ED.
    + destruct (find _ _) as [[? e]|]; injection E as <- _; [reflexivity|]. api. apply upd_other. lia.
    + destruct (find _ _) as [[? e]|]; injection E as <- _; api; [apply upd_other; lia|].
      rewrite !upd_other by lia. reflexivity.
Qed.

(** ---- one call ---- *)
Lemma create_implicit_inv P st nm : binv P st -> binv P (new_obj st KImplicit nm NoBuild).
Proof.
  intros [B R]. split; [apply new_obj_base; [assumption|discriminate]|].
  intros HP n H. api. unfold upd in H. destruct (Nat.eqb_spec n (anext st)); [discriminate|]. now apply R.
Qed.

Lemma defined_inv P st out : binv P st -> akind st out = KImplicit -> binv P (set_defined st out false).
Proof.
  intros [B R] K.
  assert (LT : out < anext st).
  { destruct (le_lt_dec (anext st) out) as [L|L]; [|assumption]. destruct (v_fresh st B out L) as [Q _]. congruence. }
  split; [|exact R].
  pose proof (v_fresh st B) as VF. pose proof (v_defb st B) as VD. destruct B. constructor; api; try assumption.
  - intros n H. destruct (VF n H) as [Q1 Q2]. split; [assumption|]. rewrite upd_other; [assumption|lia].
  - intros n Kn H. apply VD; [assumption|]. unfold upd in H. destruct (Nat.eqb_spec n out); [congruence|assumption].
Qed.

Lemma register_residual_ok st r st' x : base st -> 0 < r -> r < anext st -> register_residual O st r = (st', x) ->
  base st' /\ akind st' = akind st /\ aname st' = aname st /\ anext st' = anext st /\ adefined st' = adefined st
  /\ (forall m v, In v (adeps st' m) <-> In v (adeps st m) \/ (exists y, x = Ok y) /\ m = root /\ v = r)
  /\ (forall y, x = Ok y -> ~ In r (adeps st root)).
Proof.
  intros B H0 Hr E. unfold register_residual in E.
  assert (K : (exists e, x = Raise e /\ st' = st) \/ (~ In r (adeps st root) /\ st' = add_dep O st root r /\ x = Ok r)).
  { destruct (akind st r); try (injection E as <- <-; left; eauto; fail);
    (destruct (mem r (adeps st root)) eqn:M; injection E as <- <-; [left; eauto|right]; splits; auto;
     intros Q; apply mem_In in Q; congruence). }
  destruct K as [(e & -> & ->)|(NI & -> & ->)].
  - splits; auto.
    + intros m v. split; [auto|]. intros [Q|((y & Q) & _)]; [assumption|discriminate].
    + discriminate.
  - splits; auto.
    + apply add_dep_base; auto; [apply (v_pos st B)|rewrite (v_kroot st B); discriminate|unfold root; lia].
    + intros m v. rewrite add_dep_in. split; intros [Q|Q]; auto; [right; eauto|right; tauto].
Qed.

(** What start_residual does. *)
Lemma start_residual_binv P fuel G out r G1 x : binv P (ig_api G) -> start_residual O fuel G out r = Some (G1, x) ->
  (exists e, x = Raise e /\ G1 = G) \/
  (let st := ig_api G in let st1 := ig_api G1 in
   0 < out /\ out < anext st /\ 0 < r /\ r < anext st /\ r <> out /\ akind st out = KImplicit /\ adefined st out = false
   /\ binv P st1 /\ anext st1 = S (anext st) /\ (forall n, n < anext st -> akind st1 n = akind st n)
   /\ (forall n, n < anext st -> aname st1 n = aname st n)
   /\ (forall v, In v (adeps st1 root) <-> In v (adeps st root) \/ (exists y, x = Ok y) /\ v = r)
   /\ (forall y, x = Ok y -> ~ In r (adeps st root))
   /\ ig_isres G1 = upd (ig_isres G) r true /\ ig_map G1 = ig_map G /\ ig_brackets G1 = ig_brackets G
   /\ ig_outvals G1 = ig_outvals G
   /\ (forall n, n < anext st -> ig_shape G1 n = ig_shape G n)
   /\ (forall n, n < anext st -> ig_val G1 n = ig_val G n)).
Proof.
  intros [B R] E. unfold start_residual in E. cbv zeta in E. set (st := ig_api G) in *.
  destruct (_ && _) eqn:V; [|injection E as <- <-; left; eauto].
  apply andb_true_iff in V. destruct V as [V K]. apply andb_true_iff in V. destruct V as [V1 V2].
  apply visible_spec in V1. apply visible_spec in V2. destruct V1 as (V1 & V3 & _). destruct V2 as (V2 & V4 & _).
  assert (KI : akind st out = KImplicit) by (destruct (akind st out); congruence). clear K.
  destruct (Nat.eqb_spec r out) as [->|NE]; [injection E as <- <-; left; eauto|].
  destruct (adefined st out) eqn:DF; [injection E as <- <-; left; eauto|].
  destruct (residual_graph O fuel out r (anext st) (adeps st) (atick st)) as [d|] eqn:RG; [|discriminate].
  destruct (residual_graph_facts _ _ _ _ _ _ _ (v_fin st B) (v_simple st B) V3 RG) as (SD & FD & ED & KD & UD & UI).
  set (st1 := set_adeps (new_obj st KInput (aname st out) NoBuild) d (S (atick st))) in *.
  assert (RT : d root = adeps st root).
  { apply UD. intros [Q|[Q|[Q|Q]]]; try (unfold root in Q; lia);
      exact (no_dep_into _ root (v_noroot st B) _ Q). }
  assert (B0 : base (new_obj st KInput (aname st out) NoBuild)) by (apply new_obj_base; [assumption|discriminate]).
  assert (B1 : base st1).
  { pose proof (v_indep _ B0) as VI. pose proof (v_noroot st B) as VR. destruct B0. constructor; unfold st1; api; try assumption.
    - intros n Q. apply ED in Q. destruct Q as [Q|[Q _]]; [now apply VR in Q|unfold root in Q; lia].
    - intros n Q. rewrite UI; [now apply VI|]. intros I. rewrite (VI n Q) in I. contradiction. }
  assert (R1 : P -> rooted st1).
  { intros HP n Q. unfold st1 in *. api. rewrite RT. unfold upd in Q. destruct (Nat.eqb_spec n (anext st)); [discriminate|].
    now apply R. }
  destruct (register_residual O st1 r) as [st2 y] eqn:RR. injection E as <- <-.
  destruct (register_residual_ok st1 r st2 y B1 V2 ltac:(unfold st1; api; lia) RR)
    as (B2 & K2 & N2 & X2 & D2 & E2 & F2).
  right. cbn [ig_api ig_isres ig_map ig_brackets ig_outvals ig_shape ig_val]. splits; auto.
  - split; [assumption|]. intros HP n Q. rewrite K2 in Q. apply E2. left. now apply R1.
  - intros n L. rewrite K2. unfold st1. api. apply upd_other. lia.
  - intros n L. rewrite N2. unfold st1. api. apply upd_other. lia.
  - intros v. rewrite E2. unfold st1 at 1. api. rewrite RT. intuition.
  - intros z Q. specialize (F2 z Q). unfold st1 in F2. api. now rewrite RT in F2.
  - intros n L. apply upd_other. lia.
  - intros n L. apply upd_other. lia.
Qed.

Lemma start_residual_ok fuel G out r G1 x : ainv (ig_api G) -> start_residual O fuel G out r = Some (G1, x) ->
  (exists e, x = Raise e /\ G1 = G) \/
  (let st := ig_api G in let st1 := ig_api G1 in
   0 < out /\ out < anext st /\ 0 < r /\ r < anext st /\ r <> out /\ akind st out = KImplicit /\ adefined st out = false
   /\ ainv st1 /\ anext st1 = S (anext st) /\ (forall n, n < anext st -> akind st1 n = akind st n)
   /\ (forall n, n < anext st -> aname st1 n = aname st n)
   /\ (forall v, In v (adeps st1 root) <-> In v (adeps st root) \/ (exists y, x = Ok y) /\ v = r)
   /\ (forall y, x = Ok y -> ~ In r (adeps st root))
   /\ ig_isres G1 = upd (ig_isres G) r true /\ ig_map G1 = ig_map G /\ ig_brackets G1 = ig_brackets G
   /\ ig_outvals G1 = ig_outvals G
   /\ (forall n, n < anext st -> ig_shape G1 n = ig_shape G n)
   /\ (forall n, n < anext st -> ig_val G1 n = ig_val G n)).
Proof. cbv zeta. rewrite !ainv_binv. apply start_residual_binv. Qed.

Definition defines (o : iop) : bool :=
  match o with DefineResidual _ _ | DefineBracketed _ _ _ _ => true | _ => false end.

Definition new_brackets (o : iop) (nm : nat -> name) (old : option (list (name * nd R) * list (name * nd R))) :=
  match o with
  | DefineBracketed out _ x1 x2 => Some ([(nm out, x1)], [(nm out, x2)])
  | _ => old
  end.
Definition new_outvals (o : iop) (nm : nat -> name) (v : nat -> nd R) (old : list (name * nd R)) :=
  match o with
  | DefineResidual out _ => dict_set (nm out) (v out) old
  | _ => old
  end.

(** What one call may do. *)
Record iext (P : Prop) (o : iop) (x : res nat) (G G' : igroup) : Prop := {
  x_binv : binv P (ig_api G');
  x_next : anext (ig_api G) <= anext (ig_api G');
  x_root : forall v, In v (adeps (ig_api G) root) -> In v (adeps (ig_api G') root);
  x_name : forall n, In n (adeps (ig_api G) root) -> aname (ig_api G') n = aname (ig_api G) n;
  x_kind : forall n, n < anext (ig_api G) -> akind (ig_api G') n = akind (ig_api G) n;
  x_shape : forall n, n < anext (ig_api G) -> ig_shape G' n = ig_shape G n;
  x_val : forall n, n < anext (ig_api G) -> ig_val G' n = ig_val G n;
  x_isres : forall n, ig_isres G' n = true <-> ig_isres G n = true \/
              (ig_isres G' n = true /\ exists out, gives_residual o out n /\ n < anext (ig_api G));
  x_quiet : (forall out r, ~ gives_residual o out r) \/ (exists e, x = Raise e) ->
              ig_map G' = ig_map G /\ ig_brackets G' = ig_brackets G /\ ig_outvals G' = ig_outvals G;
  x_def : forall out r y, gives_residual o out r -> x = Ok y ->
     In r (adeps (ig_api G') root) /\ ~ In r (adeps (ig_api G) root) /\ ig_isres G' r = true
     /\ r < anext (ig_api G) /\ out < anext (ig_api G) /\ r <> out
     /\ akind (ig_api G) out = KImplicit /\ adefined (ig_api G) out = false /\ adefined (ig_api G') out = true
     /\ aname (ig_api G') r = aname (ig_api G) r
     /\ ig_map G' = dict_set (aname (ig_api G) r) (aname (ig_api G) out) (ig_map G)
     /\ ig_brackets G' = new_brackets o (aname (ig_api G)) (ig_brackets G)
     /\ ig_outvals G' = new_outvals o (aname (ig_api G)) (ig_val G) (ig_outvals G)
}.

Global Arguments x_binv {P} _ _ _ _ _.
Global Arguments x_next {P} _ _ _ _ _.
Global Arguments x_root {P} _ _ _ _ _.
Global Arguments x_name {P} _ _ _ _ _.
Global Arguments x_kind {P} _ _ _ _ _.
Global Arguments x_shape {P} _ _ _ _ _.
Global Arguments x_val {P} _ _ _ _ _.
Global Arguments x_isres {P} _ _ _ _ _.
Global Arguments x_quiet {P} _ _ _ _ _.
Global Arguments x_def {P} _ _ _ _ _.
Lemma x_inv o x G G' : iext True o x G G' -> ainv (ig_api G').
Proof. intros X. apply ainv_binv, (x_binv _ _ _ _ X). Qed.

Lemma istep_bext P fuel G o G' x : binv P (ig_api G) -> istep O fuel G o = Some (G', x) -> iext P o x G G'.
Proof.
  intros I E.
  assert (DEF : forall out r, gives_residual o out r ->
    exists G1 x1, start_residual O fuel G out r = Some (G1, x1) /\
    match x1 with
    | Raise e => G' = G1 /\ x = Raise e
    | Ok _ => G' = IG (set_defined (ig_api G1) out false) (ig_shape G1) (ig_val G1) (ig_isres G1)
                (dict_set (aname (ig_api G1) r) (aname (ig_api G1) out) (ig_map G1))
                (new_brackets o (aname (ig_api G1)) (ig_brackets G1))
                (new_outvals o (aname (ig_api G1)) (ig_val G1) (ig_outvals G1)) /\ x = Ok out
    end).
  { intros out r H. destruct o as [| |out' r'|out' r' x1 x2]; try contradiction; destruct H as [-> ->];
      cbn [istep] in E; (destruct (start_residual O fuel G out r) as [[G1 y]|] eqn:S; [|discriminate]);
      exists G1, y; split; auto; destruct y as [k|e]; injection E as <- <-; split; auto. }
  destruct o as [o s v|nm s v|out r|out r b1 b2].
  - cbn [istep] in E. cbv zeta in E. destruct (step O fuel (ig_api G) o) as [[st' y]|] eqn:S; [|discriminate].
    injection E as <- <-. destruct (step_binv O P fuel _ o st' y I S) as [I' X].
    constructor; cbn [ig_api ig_shape ig_val ig_isres ig_map ig_brackets ig_outvals]; auto.
    + exact (e_next _ _ _ X).
    + exact (e_root _ _ _ X).
    + intros n. exact (step_name fuel _ o st' y n (proj1 I) S).
    + exact (e_kind _ _ _ X).
    + intros n L. assert (Nat.leb (anext (ig_api G)) n = false) as -> by (apply Nat.leb_gt; lia). reflexivity.
    + intros n L. assert (Nat.leb (anext (ig_api G)) n = false) as -> by (apply Nat.leb_gt; lia). reflexivity.
    + intros n. split; [auto|]. intros [Q|[Q _]]; assumption.
    + intros out r k Q. contradiction.
  - cbn [istep] in E. cbv zeta in E. injection E as <- <-.
    constructor; cbn [ig_api ig_shape ig_val ig_isres ig_map ig_brackets ig_outvals]; auto.
    + now apply create_implicit_inv.
    + api. lia.
    + intros n Q. api. apply upd_other. apply (v_fin _ (proj1 I)) in Q. lia.
    + intros n Q. api. apply upd_other. lia.
    + intros n Q. apply upd_other. lia.
    + intros n Q. apply upd_other. lia.
    + intros n. split; [auto|]. intros [Q|[Q _]]; assumption.
    + intros out r k Q. contradiction.
  - destruct (DEF out r (conj eq_refl eq_refl)) as (G1 & x1 & S & M). clear DEF E.
    destruct (start_residual_binv P fuel G out r G1 x1 I S) as [(e & -> & ->)|Q].
    + destruct M as [-> ->]. constructor; auto.
      * intros n. split; [auto|]. intros [Q|[Q _]]; assumption.
      * intros ? ? ? ? Q. discriminate.
    + cbv zeta in Q. destruct Q as (A1 & A2 & A3 & A4 & A5 & A6 & A7 & A8 & A9 & A10 & A11 & A12 & A13 & A14 & A15 & A16 & A17 & A18 & A19).
      destruct x1 as [k|e]; destruct M as [-> ->];
        constructor; cbn [ig_api ig_shape ig_val ig_isres ig_map ig_brackets ig_outvals]; auto.
      * apply defined_inv; [assumption|]. rewrite A10; assumption.
      * api. lia.
      * intros v Q. api. apply A12. auto.
      * intros n Q. api. apply A11. now apply (v_fin _ (proj1 I)) in Q.
      * intros n. rewrite A14. split; [|intros [Q|[Q _]]; [unfold upd; destruct (Nat.eqb n r); auto|assumption]].
        unfold upd at 1. destruct (Nat.eqb_spec n r) as [->|Hn]; [|auto]. intros _. right. split; [apply upd_same|].
        exists out. repeat split; auto.
      * intros [Q|[e Q]]; [|discriminate]. exfalso. now apply (Q out r).
      * intros out0 r0 y [<- <-] _. splits; auto.
        -- api. apply A12. right. eauto.
        -- now apply (A13 k).
        -- rewrite A14. apply upd_same.
        -- api. apply upd_same.
        -- api. now apply A11.
        -- rewrite !A11, A15 by assumption. reflexivity.
        -- cbn [new_outvals]. rewrite A11, A17, A19 by assumption. reflexivity.
      * lia.
      * intros v Q. apply A12. auto.
      * intros n Q. apply A11. now apply (v_fin _ (proj1 I)) in Q.
      * intros n. rewrite A14. split; [|intros [Q|[Q _]]; [unfold upd; destruct (Nat.eqb n r); auto|assumption]].
        unfold upd at 1. destruct (Nat.eqb_spec n r) as [->|Hn]; [|auto]. intros _. right. split; [apply upd_same|].
        exists out. repeat split; auto.
      * intros ? ? ? ? Q. discriminate.
  - destruct (DEF out r (conj eq_refl eq_refl)) as (G1 & x1 & S & M). clear DEF E.
    destruct (start_residual_binv P fuel G out r G1 x1 I S) as [(e & -> & ->)|Q].
    + destruct M as [-> ->]. constructor; auto.
      * intros n. split; [auto|]. intros [Q|[Q _]]; assumption.
      * intros ? ? ? ? Q. discriminate.
    + cbv zeta in Q. destruct Q as (A1 & A2 & A3 & A4 & A5 & A6 & A7 & A8 & A9 & A10 & A11 & A12 & A13 & A14 & A15 & A16 & A17 & A18 & A19).
      destruct x1 as [k|e]; destruct M as [-> ->];
        constructor; cbn [ig_api ig_shape ig_val ig_isres ig_map ig_brackets ig_outvals]; auto.
      * apply defined_inv; [assumption|]. rewrite A10; assumption.
      * api. lia.
      * intros v Q. api. apply A12. auto.
      * intros n Q. api. apply A11. now apply (v_fin _ (proj1 I)) in Q.
      * intros n. rewrite A14. split; [|intros [Q|[Q _]]; [unfold upd; destruct (Nat.eqb n r); auto|assumption]].
        unfold upd at 1. destruct (Nat.eqb_spec n r) as [->|Hn]; [|auto]. intros _. right. split; [apply upd_same|].
        exists out. repeat split; auto.
      * intros [Q|[e Q]]; [|discriminate]. exfalso. now apply (Q out r).
      * intros out0 r0 y [<- <-] _. splits; auto.
        -- api. apply A12. right. eauto.
        -- now apply (A13 k).
        -- rewrite A14. apply upd_same.
        -- api. apply upd_same.
        -- api. now apply A11.
        -- rewrite !A11, A15 by assumption. reflexivity.
        -- cbn [new_brackets]. now rewrite A11 by assumption.
      * lia.
      * intros v Q. apply A12. auto.
      * intros n Q. apply A11. now apply (v_fin _ (proj1 I)) in Q.
      * intros n. rewrite A14. split; [|intros [Q|[Q _]]; [unfold upd; destruct (Nat.eqb n r); auto|assumption]].
        unfold upd at 1. destruct (Nat.eqb_spec n r) as [->|Hn]; [|auto]. intros _. right. split; [apply upd_same|].
        exists out. repeat split; auto.
      * intros ? ? ? ? Q. discriminate.
Qed.

Lemma istep_ext fuel G o G' x : ainv (ig_api G) -> istep O fuel G o = Some (G', x) -> iext True o x G G'.
Proof. rewrite ainv_binv. apply istep_bext. Qed.

(** ---- histories ---- *)
Lemma run_iops_cons fuel G o h G' xs : run_iops O fuel G (o :: h) = Some (G', xs) ->
  exists G1 x xs', istep O fuel G o = Some (G1, x) /\ run_iops O fuel G1 h = Some (G', xs') /\ xs = x :: xs'.
Proof.
  cbn [run_iops]. destruct (istep O fuel G o) as [[G1 x]|]; [|discriminate].
  destruct (run_iops O fuel G1 h) as [[G2 xs']|] eqn:E; [|discriminate].
  intros Q. injection Q as <- <-. exists G1, x, xs'. auto.
Qed.

Lemma run_iops_app fuel : forall h1 h2 G G' xs, run_iops O fuel G (h1 ++ h2) = Some (G', xs) ->
  exists G1 xs1 xs2, run_iops O fuel G h1 = Some (G1, xs1) /\ run_iops O fuel G1 h2 = Some (G', xs2)
    /\ xs = xs1 ++ xs2 /\ length xs1 = length h1.
Proof.
  induction h1 as [|o h1 IH]; intros h2 G G' xs E.
  - exists G, [], xs. simpl in *. auto.
  - cbn [app] in E. apply run_iops_cons in E. destruct E as (G1 & x & xs' & S & E & ->).
    destruct (IH _ _ _ _ E) as (G2 & xs1 & xs2 & R1 & R2 & -> & L).
    exists G2, (x :: xs1), xs2. cbn [run_iops]. rewrite S, R1. simpl. splits; auto.
Qed.

Lemma succeeded_cons o h x xs i q : succeeded (o :: h) (x :: xs) i q <->
  (i = 0 /\ q = o /\ exists y, x = Ok y) \/ (exists j, i = S j /\ succeeded h xs j q).
Proof.
  unfold succeeded. destruct i as [|j]; simpl.
  - split.
    + intros [E [y Y]]. left. injection E as ->. injection Y as ->. eauto.
    + intros [(_ & -> & y & ->)|(j & Q & _)]; [eauto|discriminate].
  - split.
    + intros Q. right. eauto.
    + intros [(Q & _)|(j' & E & Q)]; [discriminate|]. injection E as ->. assumption.
Qed.

Record hext (P : Prop) (h : list iop) (xs : list (res nat)) (G G' : igroup) : Prop := {
  h_binv : binv P (ig_api G');
  h_next : anext (ig_api G) <= anext (ig_api G');
  h_root : forall v, In v (adeps (ig_api G) root) -> In v (adeps (ig_api G') root);
  h_name : forall n, In n (adeps (ig_api G) root) -> aname (ig_api G') n = aname (ig_api G) n;
  h_kind : forall n, n < anext (ig_api G) -> akind (ig_api G') n = akind (ig_api G) n;
  h_shape : forall n, n < anext (ig_api G) -> ig_shape G' n = ig_shape G n;
  h_val : forall n, n < anext (ig_api G) -> ig_val G' n = ig_val G n;
  h_mono : forall n, ig_isres G n = true -> ig_isres G' n = true;
  h_isres : forall n, ig_isres G' n = true -> ig_isres G n = true \/
              exists i o out, nth_error h i = Some o /\ gives_residual o out n;
  h_def : forall i o out r, succeeded h xs i o -> gives_residual o out r ->
     In r (adeps (ig_api G') root) /\ ig_isres G' r = true /\ ~ In r (adeps (ig_api G) root);
  h_quiet : (forall i o out r, succeeded h xs i o -> ~ gives_residual o out r) ->
     ig_map G' = ig_map G /\ ig_brackets G' = ig_brackets G /\ ig_outvals G' = ig_outvals G
}.

Global Arguments h_binv {P} _ _ _ _ _.
Global Arguments h_next {P} _ _ _ _ _.
Global Arguments h_root {P} _ _ _ _ _.
Global Arguments h_name {P} _ _ _ _ _.
Global Arguments h_kind {P} _ _ _ _ _.
Global Arguments h_shape {P} _ _ _ _ _.
Global Arguments h_val {P} _ _ _ _ _.
Global Arguments h_mono {P} _ _ _ _ _.
Global Arguments h_isres {P} _ _ _ _ _.
Global Arguments h_def {P} _ _ _ _ _.
Global Arguments h_quiet {P} _ _ _ _ _.
Lemma h_inv h xs G G' : hext True h xs G G' -> ainv (ig_api G').
Proof. intros X. apply ainv_binv, (h_binv _ _ _ _ X). Qed.

Lemma run_bext P fuel : forall h G G' xs, binv P (ig_api G) -> run_iops O fuel G h = Some (G', xs) -> hext P h xs G G'.
Proof.
  induction h as [|o h IH]; intros G G' xs I E.
  - injection E as <- <-. constructor; auto. intros [|i] o out r [Q _]; discriminate.
  - apply run_iops_cons in E. destruct E as (G1 & x & xs' & S & E & ->).
    pose proof (istep_bext P fuel G o G1 x I S) as X.
    pose proof (IH _ _ _ (x_binv _ _ _ _ X) E) as H.
    assert (RL : forall n, In n (adeps (ig_api G) root) -> n < anext (ig_api G)).
    { intros n Q. now apply (v_fin _ (proj1 I)) in Q. }
    constructor.
    + exact (h_binv _ _ _ _ H).
    + pose proof (x_next _ _ _ _ X). pose proof (h_next _ _ _ _ H). lia.
    + intros v Q. apply (h_root _ _ _ _ H), (x_root _ _ _ _ X), Q.
    + intros n Q. rewrite (h_name _ _ _ _ H) by (apply (x_root _ _ _ _ X), Q). apply (x_name _ _ _ _ X), Q.
    + intros n Q. pose proof (x_next _ _ _ _ X). rewrite (h_kind _ _ _ _ H) by lia. now apply (x_kind _ _ _ _ X).
    + intros n Q. pose proof (x_next _ _ _ _ X). rewrite (h_shape _ _ _ _ H) by lia. now apply (x_shape _ _ _ _ X).
    + intros n Q. pose proof (x_next _ _ _ _ X). rewrite (h_val _ _ _ _ H) by lia. now apply (x_val _ _ _ _ X).
    + intros n Q. apply (h_mono _ _ _ _ H), (x_isres _ _ _ _ X). now left.
    + intros n Q. apply (h_isres _ _ _ _ H) in Q. destruct Q as [Q|(i & o' & out & Q1 & Q2)].
      * apply (x_isres _ _ _ _ X) in Q. destruct Q as [Q|(_ & out & Q & _)]; [auto|].
        right. exists 0, o, out. auto.
      * right. exists (Datatypes.S i), o', out. auto.
    + intros i q out r Q GR. apply succeeded_cons in Q. destruct Q as [(-> & -> & y & ->)|(j & -> & Q)].
      * destruct (x_def _ _ _ _ X out r y GR eq_refl) as (A & B & C & _). splits; auto.
        -- apply (h_root _ _ _ _ H), A.
        -- apply (h_mono _ _ _ _ H), C.
      * destruct (h_def _ _ _ _ H j q out r Q GR) as (A & B & C). splits; auto.
        intros D. apply C. apply (x_root _ _ _ _ X), D.
    + intros Q.
      assert (QX : (forall out r, ~ gives_residual o out r) \/ (exists e, x = Raise e)).
      { destruct x as [y|e]; [|right; eauto]. left. intros out r. apply (Q 0 o out r). split; [reflexivity|exists y; reflexivity]. }
      destruct (x_quiet _ _ _ _ X QX) as (A1 & A2 & A3).
      destruct (h_quiet _ _ _ _ H) as (B1 & B2 & B3).
      { intros i q out r S'. apply (Q (Datatypes.S i) q out r). apply succeeded_cons. right. eauto. }
      splits; congruence.
Qed.

Lemma run_ext fuel h G G' xs : ainv (ig_api G) -> run_iops O fuel G h = Some (G', xs) -> hext True h xs G G'.
Proof. rewrite ainv_binv. apply run_bext. Qed.

(** ---- the roots that are kept ---- *)
Lemma fold_remove_first : forall xs l, NoDup l ->
  NoDup (fold_left (fun l x => remove_first x l) xs l)
  /\ forall n, In n (fold_left (fun l x => remove_first x l) xs l) <-> In n l /\ ~ In n xs.
Proof.
  induction xs as [|x xs IH]; intros l ND; cbn [fold_left].
  - split; [assumption|]. intros n. simpl. tauto.
  - destruct (IH (remove_first x l) (remove_first_nodup x l ND)) as [A B]. split; [assumption|].
    intros n. rewrite B, remove_first_In by assumption. simpl. split; [intros [[Q1 Q2] Q3]; split; [assumption|]|].
    + intros [->|Q]; contradiction.
    + intros [Q1 Q2]. splits; auto.
Qed.

Lemma kept_roots isres l : NoDup l -> NoDup (remove_nonresiduals isres l)
  /\ forall n, In n (remove_nonresiduals isres l) <-> In n l /\ isres n = true.
Proof.
  intros ND. unfold remove_nonresiduals.
  destruct (fold_remove_first (filter (fun x => negb (isres x)) l) l ND) as [A B]. split; [assumption|].
  intros n. rewrite B, filter_In. destruct (isres n); simpl; intuition.
Qed.

(** C61 *)
Theorem residual_roots fuel h G xs : run_iops O fuel igroup0 h = Some (G, xs) -> no_exception xs ->
  let rs := remove_nonresiduals (ig_isres G) (adeps (ig_api G) root) in
  NoDup rs /\ forall n, In n rs <-> exists i o out, nth_error h i = Some o /\ gives_residual o out n.
Proof.
  intros E NE rs. pose proof (run_ext fuel h igroup0 G xs ainv0 E) as H.
  destruct (kept_roots (ig_isres G) (adeps (ig_api G) root)) as [A B].
  { apply (v_simple _ (proj1 (h_inv _ _ _ _ H))). }
  split; [exact A|]. intros n. unfold rs. rewrite B. split.
  - intros [_ Q]. apply (h_isres _ _ _ _ H) in Q. destruct Q as [Q|Q]; [discriminate|exact Q].
  - intros (i & o & out & Q1 & Q2).
    assert (L : length xs = length h).
    { clear -E. revert E. generalize igroup0. revert xs. induction h as [|a h IH]; intros xs g E.
      - injection E as _ <-. reflexivity.
      - apply run_iops_cons in E. destruct E as (G1 & x & xs' & _ & E & ->). simpl. f_equal. eauto. }
    assert (Y : exists y, nth_error xs i = Some (Ok y)).
    { destruct (nth_error xs i) as [y|] eqn:Ey.
      - destruct (NE y (nth_error_In _ _ Ey)) as [z ->]. eauto.
      - apply nth_error_None in Ey. assert (nth_error h i <> None) as Q by congruence.
        apply nth_error_Some in Q. lia. }
    destruct (h_def _ _ _ _ H i o out n (conj Q1 Y) Q2) as (C & D & _). auto.
Qed.

(** ---- collect_input_exprs ---- *)
Definition leaf_of (st : api) (rt : nat) (u x : nat) : Prop :=
  akind st x = KInput /\ adeps st x = [] /\ sees (adeps st) (fun v => aname st v <> aname st rt) u x.

Lemma collect_spec st rt : forall fuel u acc l, collect_input_exprs fuel st rt u acc = Some l ->
  forall x, In x l <-> In x acc \/ leaf_of st rt u x.
Proof.
  induction fuel as [|f IH]; intros u acc l E; [discriminate|]. cbn [collect_input_exprs] in E.
  assert (L : forall ds acc l, collect_loop (collect_input_exprs f st rt) st rt ds acc = Some l ->
    forall x, In x l <-> In x acc \/ exists v, In v ds /\ aname st v <> aname st rt
                /\ ((x = v /\ akind st x = KInput /\ adeps st x = []) \/ leaf_of st rt v x)).
  { induction ds as [|v ds IHd]; intros a b Eb x; cbn [collect_loop] in Eb.
    - injection Eb as <-. split; [auto|]. intros [Q|(v & [] & _)]. assumption.
    - destruct (name_eqb (aname st v) (aname st rt)) eqn:EN.
      + rewrite (IHd _ _ Eb x). apply name_eqb_eq in EN. split; (intros [Q|(w & Q1 & Q2 & Q3)]; [auto|right]).
        * exists w. splits; auto. now right.
        * destruct Q1 as [->|Q1]; [contradiction|]. exists w. auto.
      + apply name_eqb_neq in EN. cbv zeta in Eb.
        destruct (collect_input_exprs f st rt v _) as [a'|] eqn:EC; [|discriminate].
        rewrite (IHd _ _ Eb x), (IH _ _ _ EC x).
        assert (TEST : (match akind st v with KInput => true | _ => false end && Nat.eqb (length (adeps st v)) 0) = true
                       <-> akind st v = KInput /\ adeps st v = []).
        { rewrite andb_true_iff, Nat.eqb_eq. split; intros [Q1 Q2]; split.
          - destruct (akind st v); congruence.
          - destruct (adeps st v); [reflexivity|discriminate].
          - now rewrite Q1.
          - now rewrite Q2. }
        destruct (_ && _) eqn:ET.
        * destruct (proj1 TEST eq_refl) as [T1 T2]. rewrite in_app_iff. split.
          -- intros [[[Q|[<-|[]]]|Q]|(w & Q1 & Q2 & Q3)]; auto.
             ++ right. exists v. splits; auto. now left.
             ++ right. exists v. splits; auto. now left.
             ++ right. exists w. splits; auto. now right.
          -- intros [Q|(w & [<-|Q1] & Q2 & Q3)]; auto.
             ++ destruct Q3 as [(-> & _ & _)|Q3]; left; auto. left. right. now left.
             ++ right. exists w. auto.
        * split.
          -- intros [[Q|Q]|(w & Q1 & Q2 & Q3)]; auto.
             ++ right. exists v. splits; auto. now left.
             ++ right. exists w. splits; auto. now right.
          -- intros [Q|(w & [<-|Q1] & Q2 & Q3)]; auto.
             ++ destruct Q3 as [(-> & Q3)|Q3]; auto. exfalso. apply TEST in Q3. discriminate.
             ++ right. exists w. auto. }
  intros x. rewrite (L _ _ _ E x). split; (intros [Q|Q]; [auto|right]).
  - destruct Q as (v & Q1 & Q2 & [(-> & Q3 & Q4)|(Q3 & Q4 & Q5)]); unfold leaf_of; splits; auto.
    + now apply sees_direct.
    + now apply sees_step with v.
  - destruct Q as (Q1 & Q2 & Q3). inversion Q3 as [? ? R1 R2|? w ? R1 R2 R3]; subst.
    + exists x. splits; auto.
    + exists w. splits; auto. right. unfold leaf_of. auto.
Qed.

Lemma collect_total st rt N : finite_graph N (adeps st) -> acyclic (adeps st) ->
  exists F, forall fuel u acc, F <= fuel -> collect_input_exprs fuel st rt u acc <> None.
Proof.
  intros FIN AC. pose proof (finite_acyclic_ranked N _ FIN AC) as RK. set (rk := height (adeps st) N) in *.
  assert (G : forall k fuel u acc, rk u < k -> k <= fuel -> collect_input_exprs fuel st rt u acc <> None).
  { induction k as [|k IH]; intros fuel u acc H1 H2; [lia|]. destruct fuel as [|f]; [lia|].
    cbn [collect_input_exprs].
    assert (L : forall ds a, (forall v, In v ds -> In v (adeps st u)) ->
      collect_loop (collect_input_exprs f st rt) st rt ds a <> None).
    { induction ds as [|v ds IHd]; intros a S; cbn [collect_loop]; [discriminate|].
      destruct (name_eqb _ _); [apply IHd; intros; apply S; now right|]. cbv zeta.
      assert (rk v < rk u) by (apply RK, S; now left).
      destruct (collect_input_exprs f st rt v _) as [a'|] eqn:E.
      - apply IHd. intros; apply S; now right.
      - exfalso. revert E. apply IH; lia. }
    apply L. auto. }
  exists (S N). intros fuel u acc H. apply (G (S N)); [|assumption]. destruct (height_walk (adeps st) N u) as (w & W & L). pose proof (walk_length N _ _ _ FIN AC W). unfold rk. lia.
Qed.
End H.
