(** Setting up an implicit component and solving it: proofs. *)
From Coq Require Import Reals Lra.
From Verif Require Import PyBase SpecGraph GraphLemmas Graph Replace ReplaceProofs GroupApi SpecApi GroupApiProofs
  GroupApiAcyclic RSum NdArray CompElem Implicit SpecImplicit BisectProofs ImplicitProofs.
Import ListNotations.
Local Open Scope nat_scope.

(** ---- dicts ---- *)
Section Dict.
Context {A : Type}.
Implicit Types m : list (name * A).
Lemma dict_get_set_same k v m : dict_get k (dict_set k v m) = Some v.
Proof.
  induction m as [|[k' v'] m IH]; simpl; [now rewrite name_eqb_refl|].
  destruct (name_eqb k' k) eqn:E; simpl; rewrite E; auto.
Qed.
Lemma dict_get_set_other k k' v m : k' <> k -> dict_get k' (dict_set k v m) = dict_get k' m.
Proof.
  intros H. induction m as [|[k0 v0] m IH]; simpl.
  - assert (name_eqb k k' = false) as -> by (apply name_eqb_neq; congruence). reflexivity.
  - destruct (name_eqb k0 k) eqn:E; simpl.
    + apply name_eqb_eq in E. subst.
      assert (name_eqb k k' = false) as -> by (apply name_eqb_neq; congruence). reflexivity.
    + now rewrite IH.
Qed.
Lemma dict_get_in k v m : dict_get k m = Some v -> In (k, v) m.
Proof.
  induction m as [|[k0 v0] m IH]; simpl; [discriminate|]. destruct (name_eqb k0 k) eqn:E.
  - apply name_eqb_eq in E. subst. intros H. injection H as ->. now left.
  - auto.
Qed.
Lemma dict_set_new k v m : dict_get k m = None -> dict_set k v m = m ++ [(k, v)].
Proof.
  induction m as [|[k0 v0] m IH]; simpl; [reflexivity|]. destruct (name_eqb k0 k); [discriminate|].
  intros H. now rewrite IH.
Qed.
End Dict.

Section S.
Variable O : oracle.

Lemma has_var_In c n : has_var c n = true <-> In n (ic_ins c ++ map fst (ic_outs c)).
Proof.
  unfold has_var. rewrite existsb_exists. split.
  - intros (m & H & E). apply name_eqb_eq in E. now subst.
  - intros H. exists n. split; [assumption|apply name_eqb_refl].
Qed.
Lemma has_var_notIn c n : has_var c n = false <-> ~ In n (ic_ins c ++ map fst (ic_outs c)).
Proof. rewrite <- has_var_In. destruct (has_var c n); split; intros H; congruence. Qed.

Lemma add_inputs_ok st out : forall xs c c', add_inputs st out xs c = Ok c' ->
  ic_all c' = ic_all c /\ ic_outs c' = ic_outs c
  /\ (forall n, In n (ic_ins c') <-> In n (ic_ins c) \/ exists x, In x xs /\ n = aname st x /\ n <> out)
  /\ (forall p, In p (ic_partials c') <-> In p (ic_partials c)
        \/ exists x, In x xs /\ p = (out, aname st x) /\ aname st x <> out)
  /\ (forall x, In x xs -> aname st x <> out -> ~ In (aname st x) (ic_ins c ++ map fst (ic_outs c)))
  /\ (NoDup (ic_ins c ++ map fst (ic_outs c)) -> NoDup (ic_ins c' ++ map fst (ic_outs c'))).
Proof.
  induction xs as [|x xs IH]; intros c c' E; cbn [add_inputs] in E.
  - injection E as <-. splits; auto.
    + intros n. split; [auto|]. intros [Q|(x & [] & _)]. assumption.
    + intros n. split; [auto|]. intros [Q|(x & [] & _)]. assumption.
  - destruct (name_eqb (aname st x) out) eqn:EN.
    + apply name_eqb_eq in EN. destruct (IH _ _ E) as (A1 & A2 & A3 & A4 & A5 & A6). splits; auto.
      * intros n. rewrite A3. split; (intros [Q|(y & Q1 & Q2 & Q3)]; [auto|right]).
        -- exists y. splits; auto. now right.
        -- destruct Q1 as [<-|Q1]; [congruence|]. eauto.
      * intros p. rewrite A4. split; (intros [Q|(y & Q1 & Q2 & Q3)]; [auto|right]).
        -- exists y. splits; auto. now right.
        -- destruct Q1 as [<-|Q1]; [congruence|]. eauto.
      * intros y [<-|Q] Hy; [congruence|auto].
    + apply name_eqb_neq in EN. destruct (has_var c (aname st x)) eqn:HV; [discriminate|].
      apply has_var_notIn in HV.
      destruct (IH _ _ E) as (A1 & A2 & A3 & A4 & A5 & A6). cbn [ic_all ic_ins ic_outs ic_partials] in *.
      splits; auto.
      * intros n. rewrite A3, in_app_iff. simpl. split.
        -- intros [[Q|[<-|[]]]|(y & Q1 & Q2 & Q3)]; auto; right; eauto.
        -- intros [Q|(y & [<-|Q1] & Q2 & Q3)]; auto. right. eauto.
      * intros n. rewrite A4, in_app_iff. simpl. split.
        -- intros [[Q|[<-|[]]]|(y & Q1 & Q2 & Q3)]; auto; right; eauto.
        -- intros [Q|(y & [<-|Q1] & Q2 & Q3)]; auto. right. eauto.
      * intros y [<-|Q] Hy; [assumption|]. specialize (A5 y Q Hy). intros I. apply A5.
        rewrite in_app_iff in *. rewrite in_app_iff. tauto.
      * intros ND. apply A6. rewrite <- app_assoc. simpl.
        apply (Permutation_NoDup (Permutation_middle _ _ _)). now constructor.
Qed.

(** What setting up the residuals [rs] adds to the component. *)
Definition out_of (G : igroup) (r : nat) (o : name) : Prop :=
  is_resroot (ig_api G) r = true /\ dict_get (aname (ig_api G) r) (ig_map G) = Some o.

Lemma declare_ok fuel G : forall rs t c c', declare_residuals O fuel G rs t c = Some (Ok c') ->
  NoDup (ic_ins c ++ map fst (ic_outs c)) -> (forall o, dict_get o (ic_all c) <> None -> In o (map fst (ic_outs c))) ->
  let st := ig_api G in
  NoDup (ic_ins c' ++ map fst (ic_outs c'))
  /\ (forall o, dict_get o (ic_all c') <> None -> In o (map fst (ic_outs c')))
  /\ (forall n, In n (ic_ins c ++ map fst (ic_outs c)) -> In n (ic_ins c' ++ map fst (ic_outs c')))
  /\ (forall q, In q (ic_outs c') <-> In q (ic_outs c) \/
        exists r o, In r rs /\ out_of G r o /\ q = (o, (ig_shape G r, ig_val G r)))
  /\ (forall n, In n (ic_ins c') <-> In n (ic_ins c) \/
        exists r o x, In r rs /\ out_of G r o /\ residual_input st r x /\ n = aname st x /\ n <> o)
  /\ (forall p, In p (ic_partials c') <-> In p (ic_partials c) \/
        exists r o, In r rs /\ out_of G r o /\ (p = (o, o) \/
          exists x, residual_input st r x /\ p = (o, aname st x) /\ aname st x <> o))
  /\ (forall o, In o (map fst (ic_outs c)) -> dict_get o (ic_all c') = dict_get o (ic_all c))
  /\ (forall r, In r rs -> is_resroot st r = true -> exists o ins, out_of G r o
        /\ dict_get o (ic_all c') = Some ins /\ (forall x, In x ins <-> residual_input st r x))
  /\ (forall r o, In r rs -> out_of G r o -> ~ In o (ic_ins c ++ map fst (ic_outs c)))
  /\ (forall r o x, In r rs -> out_of G r o -> residual_input st r x -> aname st x <> o ->
        ~ In (aname st x) (ic_ins c ++ map fst (ic_outs c)))
  /\ (forall p, In p (ic_all c') -> In p (ic_all c) \/
        exists r, In r rs /\ out_of G r (fst p) /\ (forall x, In x (snd p) <-> residual_input st r x)).
Proof.
  induction rs as [|r rs IH]; intros t c c' E ND KA st; cbn [declare_residuals] in E; fold st in E.
  - injection E as <-. splits; auto; try (intros; simpl in *; contradiction).
    + intros q. split; [auto|]. intros [Q|(? & ? & [] & _)]. assumption.
    + intros q. split; [auto|]. intros [Q|(? & ? & ? & [] & _)]. assumption.
    + intros q. split; [auto|]. intros [Q|(? & ? & [] & _)]. assumption.
  - destruct (is_resroot st r) eqn:IR.
    + destruct (collect_input_exprs fuel st r r []) as [l|] eqn:EC; [|discriminate].
      destruct (dict_get (aname st r) (ig_map G)) as [o|] eqn:EO; [|discriminate].
      destruct (has_var c o) eqn:HV; [discriminate|]. apply has_var_notIn in HV. cbv zeta in E.
      set (ins := ord O t l) in *.
      set (c1 := IC (dict_set o ins (ic_all c)) (ic_ins c) (ic_outs c ++ [(o, (ig_shape G r, ig_val G r))]) (ic_partials c)) in *.
      destruct (add_inputs st o ins c1) as [c2|] eqn:EA; [|discriminate].
      destruct (add_inputs_ok st o ins c1 c2 EA) as (A1 & A2 & A3 & A4 & A5 & A6).
      assert (INS : forall x, In x ins <-> residual_input st r x).
      { intros x. unfold ins. rewrite ord_in, (collect_spec st r _ _ _ _ EC x). unfold leaf_of, residual_input.
        simpl. tauto. }
      assert (ND1 : NoDup (ic_ins c1 ++ map fst (ic_outs c1))).
      { unfold c1. cbn [ic_ins ic_outs]. rewrite map_app. cbn [map fst]. rewrite app_assoc.
        apply (Permutation_NoDup (Permutation_cons_append _ _)). now constructor. }
      assert (IN1 : forall n, In n (ic_ins c1 ++ map fst (ic_outs c1)) <-> In n (ic_ins c ++ map fst (ic_outs c)) \/ n = o).
      { intros n. unfold c1. cbn [ic_ins ic_outs]. rewrite map_app, !in_app_iff. simpl. intuition. }
      assert (C1o : ic_outs c1 = ic_outs c ++ [(o, (ig_shape G r, ig_val G r))]) by reflexivity.
      assert (C1a : ic_all c1 = dict_set o ins (ic_all c)) by reflexivity.
      assert (C1i : ic_ins c1 = ic_ins c) by reflexivity.
      assert (C1p : ic_partials c1 = ic_partials c) by reflexivity.
      clearbody c1.
      destruct (IH _ _ _ E) as (B1 & B2 & B3 & B4 & B5 & B6 & B7 & B8 & B9 & B10 & B11); cbn [ic_all ic_ins ic_outs ic_partials] in *.
      { now apply A6. }
      { intros k. rewrite A1, A2, C1a, C1o. rewrite map_app, in_app_iff. cbn [map fst].
        destruct (name_dec k o) as [->|Hk]; [intros _; right; now left|].
        rewrite dict_get_set_other by assumption. intros Q. left. now apply KA. }
      assert (IN2 : forall n, In n (ic_ins c2 ++ map fst (ic_outs c2)) <->
                 In n (ic_ins c ++ map fst (ic_outs c)) \/ n = o \/ exists x, In x ins /\ n = aname st x /\ n <> o).
      { intros n. rewrite in_app_iff, A3, A2.
        specialize (IN1 n). rewrite in_app_iff in IN1. tauto. }
      assert (OO : out_of G r o) by (split; assumption).
      assert (OU : forall o', out_of G r o' -> o' = o) by (intros o' [_ Q]; fold st in Q; congruence).
      splits; auto using in_eq, in_cons.
      * intros n Q. apply B3, IN2. auto.
      * intros q. rewrite B4, A2, C1o. rewrite in_app_iff. simpl. split.
        -- intros [[Q|[<-|[]]]|(r' & o' & Q1 & Q2 & Q3)]; [auto|right|right].
           ++ exists r, o. splits; auto using in_eq, in_cons.
           ++ exists r', o'. splits; auto using in_eq, in_cons.
        -- intros [Q|(r' & o' & [<-|Q1] & Q2 & Q3)]; [auto| |].
           ++ apply OU in Q2. subst. auto.
           ++ right. exists r', o'. auto.
      * intros n. rewrite B5, A3, C1i. split.
        -- intros [[Q|(x & Q1 & Q2 & Q3)]|(r' & o' & x & Q1 & Q2 & Q3)]; [auto|right|right].
           ++ exists r, o, x. splits; auto using in_eq, in_cons; now apply INS.
           ++ destruct Q3 as (Q3 & Q4 & Q5). exists r', o', x. splits; auto using in_eq, in_cons.
        -- intros [Q|(r' & o' & x & [<-|Q1] & Q2 & Q3 & Q4 & Q5)]; [auto| |].
           ++ apply OU in Q2. subst o'. left. right. exists x. splits; auto using in_eq, in_cons; now apply INS.
           ++ right. exists r', o', x. auto.
      * intros p. rewrite B6, in_app_iff, A4, C1p. simpl. split.
        -- intros [[[Q|(x & Q1 & Q2 & Q3)]|[<-|[]]]|(r' & o' & Q1 & Q2 & Q3)]; [auto|right|right|right].
           ++ exists r, o. splits; auto using in_eq, in_cons. right. exists x. splits; auto using in_eq, in_cons; now apply INS.
           ++ exists r, o. splits; auto using in_eq, in_cons.
           ++ exists r', o'. splits; auto using in_eq, in_cons.
        -- intros [Q|(r' & o' & [<-|Q1] & Q2 & Q3)]; [auto| |].
           ++ apply OU in Q2. subst o'. destruct Q3 as [->|(x & Q3 & Q4 & Q5)]; [left; right; now left|].
              left. left. right. exists x. splits; auto using in_eq, in_cons; now apply INS.
           ++ right. exists r', o'. auto.
      * intros k Hk. rewrite B7.
        -- rewrite A1, C1a. apply dict_get_set_other. intros ->. apply HV. rewrite in_app_iff. auto.
        -- rewrite A2, C1o. rewrite map_app, in_app_iff. auto.
      * intros r' [<-|Hr] IRr.
        -- exists o, ins. splits; auto using in_eq, in_cons. rewrite B7; [rewrite A1, C1a; apply dict_get_set_same|].
           rewrite A2, C1o. rewrite map_app, in_app_iff. right. now left.
        -- auto.
      * intros r' o' [<-|Hr] Q.
        -- apply OU in Q. now subst.
        -- intros I. apply (B9 r' o' Hr Q). apply IN2. auto.
      * intros r' o' x [<-|Hr] Q1 Q2 Q3.
        -- apply OU in Q1. subst o'. intros I. apply (A5 x); [now apply INS|assumption|]. apply IN1. auto.
        -- intros I. apply (B10 r' o' x Hr Q1 Q2 Q3). apply IN2. auto.
      * intros p Hp. apply B11 in Hp. destruct Hp as [Hp|(r' & Q1 & Q2 & Q3)].
        -- rewrite A1, C1a in Hp. rewrite dict_set_new in Hp.
           ++ apply in_app_iff in Hp. destruct Hp as [Hp|[<-|[]]]; [auto|].
              right. exists r. splits; auto using in_eq, in_cons.
           ++ destruct (dict_get o (ic_all c)) eqn:Q; [|reflexivity]. exfalso. apply HV.
              rewrite in_app_iff. right. apply KA. congruence.
        -- right. exists r'. splits; auto using in_eq, in_cons.
    + destruct (IH _ _ _ E ND KA) as (B1 & B2 & B3 & B4 & B5 & B6 & B7 & B8 & B9 & B10 & B11).
      assert (NO : forall o, ~ out_of G r o) by (intros o [Q _]; fold st in Q; congruence).
      splits; auto using in_eq, in_cons.
      * intros q. rewrite B4. split; (intros [Q|(r' & o' & Q1 & Q2 & Q3)]; [auto|right; exists r', o']).
        -- splits; auto using in_eq, in_cons.
        -- destruct Q1 as [<-|Q1]; [exfalso; eapply NO; eassumption|auto].
      * intros q. rewrite B5. split; (intros [Q|(r' & o' & x & Q1 & Q2 & Q3)]; [auto|right; exists r', o', x]).
        -- destruct Q3 as (Q3 & Q4 & Q5). splits; auto using in_eq, in_cons.
        -- destruct Q1 as [<-|Q1]; [exfalso; eapply NO; eassumption|tauto].
      * intros q. rewrite B6. split; (intros [Q|(r' & o' & Q1 & Q2 & Q3)]; [auto|right; exists r', o']).
        -- splits; auto using in_eq, in_cons.
        -- destruct Q1 as [<-|Q1]; [exfalso; eapply NO; eassumption|auto].
      * intros r' [<-|Q] IRr; [congruence|auto].
      * intros r' o' [<-|Q] Q1; [exfalso; eapply NO; eassumption|eauto].
      * intros r' o' x [<-|Q] Q1; [exfalso; eapply NO; eassumption|eauto].
      * intros p Hp. apply B11 in Hp. destruct Hp as [Hp|(r' & Q1 & Q2 & Q3)]; [auto|]. right. exists r'. splits; auto using in_eq, in_cons.
Qed.

(** Two residuals of a component that was set up share no input name, and do not
    read each other's outputs as inputs. *)
Lemma declare_pair fuel G : forall rs t c c', declare_residuals O fuel G rs t c = Some (Ok c') ->
  NoDup (ic_ins c ++ map fst (ic_outs c)) -> (forall o, dict_get o (ic_all c) <> None -> In o (map fst (ic_outs c))) ->
  NoDup rs ->
  let st := ig_api G in
  forall r1 r2 o1 o2, In r1 rs -> In r2 rs -> r1 <> r2 -> out_of G r1 o1 -> out_of G r2 o2 ->
    o1 <> o2
    /\ (forall x, residual_input st r1 x -> aname st x <> o1 -> aname st x <> o2)
    /\ (forall x1 x2, residual_input st r1 x1 -> residual_input st r2 x2 -> aname st x1 = aname st x2 ->
          aname st x1 = o1 \/ aname st x1 = o2).
Proof.
  induction rs as [|r rs IH]; intros t c c' E ND KA NR st r1 r2 o1 o2 H1 H2 NE U1 U2; [contradiction|].
  inversion NR as [|? ? NI NR']; subst. cbn [declare_residuals] in E. fold st in E.
  destruct (is_resroot st r) eqn:IR.
  - destruct (collect_input_exprs fuel st r r []) as [l|] eqn:EC; [|discriminate].
    destruct (dict_get (aname st r) (ig_map G)) as [o|] eqn:EO; [|discriminate].
    destruct (has_var c o) eqn:HV; [discriminate|]. apply has_var_notIn in HV. cbv zeta in E.
    set (ins := ord O t l) in *.
    set (c1 := IC (dict_set o ins (ic_all c)) (ic_ins c) (ic_outs c ++ [(o, (ig_shape G r, ig_val G r))]) (ic_partials c)) in *.
    destruct (add_inputs st o ins c1) as [c2|] eqn:EA; [|discriminate].
    destruct (add_inputs_ok st o ins c1 c2 EA) as (A1 & A2 & A3 & A4 & A5 & A6).
    assert (INS : forall x, In x ins <-> residual_input st r x).
    { intros x. unfold ins. rewrite ord_in, (collect_spec st r _ _ _ _ EC x). unfold leaf_of, residual_input.
      simpl. tauto. }
    assert (ND1 : NoDup (ic_ins c1 ++ map fst (ic_outs c1))).
    { unfold c1. cbn [ic_ins ic_outs]. rewrite map_app. cbn [map fst]. rewrite app_assoc.
      apply (Permutation_NoDup (Permutation_cons_append _ _)). now constructor. }
    assert (ND2 := A6 ND1).
    assert (KA2 : forall k, dict_get k (ic_all c2) <> None -> In k (map fst (ic_outs c2))).
    { intros k. rewrite A1, A2. unfold c1. cbn [ic_all ic_outs]. rewrite map_app, in_app_iff. cbn [map fst].
      destruct (name_dec k o) as [->|Hk]; [intros _; right; now left|].
      rewrite dict_get_set_other by assumption. intros Q. left. now apply KA. }
    assert (IO : In o (ic_ins c2 ++ map fst (ic_outs c2))).
    { rewrite A2, in_app_iff. right. unfold c1. cbn [ic_outs]. rewrite map_app, in_app_iff. right. now left. }
    assert (IX : forall x, residual_input st r x -> aname st x <> o -> In (aname st x) (ic_ins c2 ++ map fst (ic_outs c2))).
    { intros x Q1 Q2. apply in_app_iff. left. apply A3. right. exists x. splits; auto. now apply INS. }
    set (c3 := IC (ic_all c2) (ic_ins c2) (ic_outs c2) (ic_partials c2 ++ [(o, o)])) in *.
    destruct (declare_ok fuel G rs (S t) c3 c' E ND2 KA2) as (_ & _ & _ & _ & _ & _ & _ & _ & B9 & B10 & _).
    change (ic_ins c3) with (ic_ins c2) in *. change (ic_outs c3) with (ic_outs c2) in *.
    assert (OU : forall o', out_of G r o' -> o' = o) by (intros o' [_ Q]; fold st in Q; congruence).
    destruct H1 as [<-|H1]; destruct H2 as [<-|H2]; try contradiction.
    + apply OU in U1. subst o1.
      assert (o <> o2) as NO by (intros ->; now apply (B9 r2 o2 H2 U2)).
      splits; auto.
      * intros x Q1 Q2 Q3. apply (B9 r2 o2 H2 U2). rewrite <- Q3. now apply IX.
      * intros x1 x2 Q1 Q2 Q3. destruct (name_dec (aname st x1) o); [auto|]. right.
        destruct (name_dec (aname st x1) o2); [assumption|]. exfalso.
        apply (B10 r2 o2 x2 H2 U2 Q2); [intros Q; apply n0; rewrite Q3; exact Q|]. change (In (aname st x2) (ic_ins c2 ++ map fst (ic_outs c2))). rewrite <- Q3. now apply IX.
    + apply OU in U2. subst o2.
      assert (o1 <> o) as NO by (intros ->; now apply (B9 r1 o H1 U1)).
      splits; auto.
      * intros x Q1 Q2 Q3. apply (B10 r1 o1 x H1 U1 Q1 Q2). change (In (aname st x) (ic_ins c2 ++ map fst (ic_outs c2))). now rewrite Q3.
      * intros x1 x2 Q1 Q2 Q3. destruct (name_dec (aname st x1) o); [auto|]. left.
        destruct (name_dec (aname st x1) o1); [assumption|]. exfalso.
        apply (B10 r1 o1 x1 H1 U1 Q1); [assumption|]. change (In (aname st x1) (ic_ins c2 ++ map fst (ic_outs c2))). rewrite Q3. apply IX; [assumption|rewrite <- Q3; assumption].
    + apply (IH (S t) c3 c' E ND2 KA2 NR' r1 r2); assumption.
  - assert (NO : forall o, ~ out_of G r o) by (intros o [Q _]; fold st in Q; congruence).
    destruct H1 as [<-|H1]; [exfalso; eapply NO; eassumption|].
    destruct H2 as [<-|H2]; [exfalso; eapply NO; eassumption|].
    apply (IH t c c' E ND KA NR' r1 r2); assumption.
Qed.

Lemma build_parts fuel G rs c vs : build_problem O fuel G = Some (Ok (rs, c, vs)) ->
  rs = remove_nonresiduals (ig_isres G) (adeps (ig_api G) root)
  /\ declare_residuals O fuel G rs (atick (ig_api G)) icomp0 = Some (Ok c) /\ initial_values G rs = Ok vs.
Proof.
  unfold build_problem. set (rs0 := remove_nonresiduals _ _).
  destruct (declare_residuals O fuel G rs0 _ icomp0) as [[c0|e]|] eqn:E; [|discriminate|discriminate].
  destruct (initial_values G rs0) as [v0|e] eqn:V; [|discriminate].
  intros Q. injection Q as <- <- <-. auto.
Qed.

Lemma start_ok : NoDup (ic_ins icomp0 ++ map fst (ic_outs icomp0))
  /\ forall o, dict_get o (ic_all icomp0) <> None -> In o (map fst (ic_outs icomp0)).
Proof. split; [constructor|]. intros o H. exfalso. now apply H. Qed.

Lemma resroot_spec st r : is_resroot st r = true <-> akind st r <> KSubsystem /\ akind st r <> KExplicit.
Proof. unfold is_resroot. destruct (akind st r); split; intros H; try discriminate; try split; try discriminate; destruct H; congruence. Qed.

(** C60 *)
Theorem component_inputs fuel G rs c vs : build_problem O fuel G = Some (Ok (rs, c, vs)) ->
  let st := ig_api G in
  (forall r, In r rs -> akind st r <> KSubsystem -> akind st r <> KExplicit -> exists o ins,
     dict_get (aname st r) (ig_map G) = Some o /\ dict_get o (ic_all c) = Some ins
     /\ forall x, In x ins <-> residual_input st r x)
  /\ (forall n, In n (ic_ins c) <-> exists r o x, In r rs /\ akind st r <> KSubsystem /\ akind st r <> KExplicit
        /\ dict_get (aname st r) (ig_map G) = Some o /\ residual_input st r x /\ n = aname st x /\ n <> o)
  /\ NoDup (ic_ins c ++ map fst (ic_outs c)).
Proof.
  intros E st. destruct (build_parts _ _ _ _ _ E) as (_ & D & _). destruct start_ok as [N0 K0].
  destruct (declare_ok fuel G rs _ icomp0 c D N0 K0) as (B1 & B2 & B3 & B4 & B5 & B6 & B7 & B8 & _).
  fold st in B5, B8. splits; auto.
  - intros r Hr K1 K2. destruct (B8 r Hr) as (o & ins & [_ Q1] & Q2 & Q3); [now apply resroot_spec|].
    exists o, ins. splits; auto.
  - intros n. rewrite B5. cbn [ic_ins icomp0]. split.
    + intros [[]|(r & o & x & Q1 & [Q2 Q3] & Q4)]. apply resroot_spec in Q2. exists r, o, x. tauto.
    + intros (r & o & x & Q1 & Q2 & Q3 & Q4 & Q5). right. exists r, o, x. splits; auto; try tauto.
      split; [now apply resroot_spec|assumption].
Qed.

Theorem component_total G N : finite_graph N (adeps (ig_api G)) -> acyclic (adeps (ig_api G)) ->
  exists F, forall fuel, F <= fuel -> build_problem O fuel G <> None.
Proof.
  intros FIN AC.
  assert (CT : forall rs : list nat, exists F, forall fuel r u acc, In r rs -> F <= fuel -> collect_input_exprs fuel (ig_api G) r u acc <> None).
  { induction rs as [|r rs [F IH]]; [exists 0; intros ? ? ? ? []|].
    destruct (collect_total (ig_api G) r N FIN AC) as [F' H].
    exists (Nat.max F F'). intros fuel r' u acc [<-|Q] L; [apply H; lia|apply IH; [assumption|lia]]. }
  destruct (CT (remove_nonresiduals (ig_isres G) (adeps (ig_api G) root))) as [F H]. exists F. intros fuel L.
  unfold build_problem. set (rs := remove_nonresiduals _ _) in *.
  assert (D : forall l t c, (forall r, In r l -> In r rs) -> declare_residuals O fuel G l t c <> None).
  { induction l as [|r l IH]; intros t c S; cbn [declare_residuals]; [discriminate|].
    destruct (is_resroot _ _); [|apply IH; intros; apply S; now right].
    destruct (collect_input_exprs fuel (ig_api G) r r []) as [k|] eqn:E.
    2:{ exfalso. revert E. apply H; [apply S; now left|assumption]. }
    destruct (dict_get _ _); [|discriminate]. destruct (has_var _ _); [discriminate|]. cbv zeta.
    destruct (add_inputs _ _ _ _); [|discriminate]. apply IH. intros; apply S; now right. }
  specialize (D rs (atick (ig_api G)) icomp0 (fun r Q => Q)).
  destruct (declare_residuals _ _ _ _ _ _) as [[c|e]|]; [|discriminate|contradiction].
  destruct (initial_values G rs); discriminate.
Qed.

(** C74 *)
Theorem inputs_not_shared fuel h G xs rs c vs :
  run_iops O fuel igroup0 h = Some (G, xs) -> build_problem O fuel G = Some (Ok (rs, c, vs)) ->
  let st := ig_api G in
  forall r1 r2 o1 o2 x1 x2, In r1 rs -> In r2 rs -> r1 <> r2 ->
  akind st r1 <> KSubsystem -> akind st r1 <> KExplicit -> akind st r2 <> KSubsystem -> akind st r2 <> KExplicit ->
  dict_get (aname st r1) (ig_map G) = Some o1 -> dict_get (aname st r2) (ig_map G) = Some o2 ->
  residual_input st r1 x1 -> residual_input st r2 x2 -> aname st x1 = aname st x2 ->
  False.
Proof.
  intros HR E st r1 r2 o1 o2 x1 x2 H1 H2 NE K1 K2 K3 K4 D1 D2 I1 I2 EN.
  pose proof (run_ext O fuel h igroup0 G xs ainv0 HR) as H.
  destruct (build_parts _ _ _ _ _ E) as (ER & D & _). destruct start_ok as [N0 K0].
  assert (NR : NoDup rs).
  { rewrite ER. apply kept_roots. apply (v_simple _ (proj1 (h_inv _ _ _ _ H))). }
  assert (U1 : out_of G r1 o1) by (split; [now apply resroot_spec|assumption]).
  assert (U2 : out_of G r2 o2) by (split; [now apply resroot_spec|assumption]).
  destruct (declare_pair fuel G rs _ icomp0 c D N0 K0 NR r1 r2 o1 o2 H1 H2 NE U1 U2) as (A1 & A2 & A3).
  destruct (declare_pair fuel G rs _ icomp0 c D N0 K0 NR r2 r1 o2 o1 H2 H1 ltac:(auto) U2 U1) as (B1 & B2 & B3).
  fold st in A2, A3, B2. destruct (A3 x1 x2 I1 I2 EN) as [Q|Q].
  - apply (B2 x2 I2); [rewrite <- EN; congruence|congruence].
  - apply (A2 x1 I1); [congruence|congruence].
Qed.

(** C75 *)
Theorem component_start fuel G rs c vs : build_problem O fuel G = Some (Ok (rs, c, vs)) ->
  forall o s v, In (o, (s, v)) (ic_outs c) <-> exists r, In r rs /\ akind (ig_api G) r <> KSubsystem
    /\ akind (ig_api G) r <> KExplicit /\ dict_get (aname (ig_api G) r) (ig_map G) = Some o
    /\ s = ig_shape G r /\ v = ig_val G r.
Proof.
  intros E o s v. destruct (build_parts _ _ _ _ _ E) as (_ & D & _). destruct start_ok as [N0 K0].
  destruct (declare_ok fuel G rs _ icomp0 c D N0 K0) as (B1 & B2 & B3 & B4 & _).
  rewrite B4. cbn [ic_outs icomp0]. split.
  - intros [[]|(r & o' & Q1 & [Q2 Q3] & Q4)]. injection Q4 as <- -> ->. apply resroot_spec in Q2. exists r. tauto.
  - intros (r & Q1 & Q2 & Q3 & Q4 & -> & ->). right. exists r, o. splits; auto.
    split; [now apply resroot_spec|assumption].
Qed.

(** C76 *)
Theorem linearize_spec fuel G rs c vs : build_problem O fuel G = Some (Ok (rs, c, vs)) ->
  forall o n, In (o, n) (linearize_keys (ig_api G) c) <-> exists r, In r rs /\ akind (ig_api G) r <> KSubsystem
    /\ akind (ig_api G) r <> KExplicit /\ dict_get (aname (ig_api G) r) (ig_map G) = Some o
    /\ (n = o \/ exists x, residual_input (ig_api G) r x /\ n = aname (ig_api G) x).
Proof.
  intros E o n. destruct (build_parts _ _ _ _ _ E) as (_ & D & _). destruct start_ok as [N0 K0].
  destruct (declare_ok fuel G rs _ icomp0 c D N0 K0) as (B1 & B2 & B3 & B4 & B5 & B6 & B7 & B8 & B9 & B10 & B11).
  unfold linearize_keys. rewrite in_flat_map. split.
  - intros ([o' ins] & Hp & Q). cbn [fst snd] in Q. apply B11 in Hp. cbn [icomp0 ic_all fst snd] in Hp.
    destruct Hp as [[]|(r & R1 & [R2 R3] & R4)]. apply resroot_spec in R2.
    apply in_app_iff in Q. destruct Q as [Q|[Q|[]]].
    + apply in_map_iff in Q. destruct Q as (x & Q & Hx). injection Q as <- <-. apply R4 in Hx.
      exists r. splits; try tauto. right. eauto.
    + injection Q as <- <-. exists r. tauto.
  - intros (r & R1 & R2 & R3 & R4 & R5).
    destruct (B8 r R1) as (o' & ins & [_ Q1] & Q2 & Q3); [now apply resroot_spec|].
    assert (o' = o) by congruence. subst o'. exists (o, ins). split; [now apply dict_get_in|].
    cbn [fst snd]. apply in_app_iff. destruct R5 as [->|(x & Hx & ->)]; [right; now left|].
    left. apply in_map_iff. exists x. split; [reflexivity|]. now apply Q3.
Qed.

(** ---- the successful definitions of a history ---- *)
Record ddef := DD { d_r : nat; d_o : name; d_br : option (nd R * nd R); d_v : nd R }.

Definition map_of (nm : nat -> name) (D : list ddef) : list (name * name) :=
  fold_left (fun m d => dict_set (nm (d_r d)) (d_o d) m) D [].
Definition brackets_of (D : list ddef) :=
  fold_left (fun b d => match d_br d with
                        | Some (x1, x2) => Some ([(d_o d, x1)], [(d_o d, x2)])
                        | None => b
                        end) D (None : option (list (name * nd R) * list (name * nd R))).
Definition outvals_of (D : list ddef) : list (name * nd R) :=
  fold_left (fun m d => match d_br d with Some _ => m | None => dict_set (d_o d) (d_v d) m end) D [].

Definition op_brackets (o : iop) : option (nd R * nd R) :=
  match o with DefineBracketed _ _ x1 x2 => Some (x1, x2) | _ => None end.

Record defs (fuel : nat) (h : list iop) (xs : list (res nat)) (G : igroup) (D : list ddef) : Prop := {
  f_from : forall i o out r, succeeded h xs i o -> gives_residual o out r ->
     exists d, In d D /\ d_r d = r /\ d_br d = op_brackets o /\ named_at O fuel h i out (d_o d);
  f_to : forall d, In d D -> exists i o out, succeeded h xs i o /\ gives_residual o out (d_r d) /\ d_br d = op_brackets o
     /\ named_at O fuel h i out (d_o d);
  f_nodup : NoDup (map d_r D);
  f_root : forall d, In d D -> In (d_r d) (adeps (ig_api G) root) /\ ig_isres G (d_r d) = true;
  f_map : ig_map G = map_of (aname (ig_api G)) D;
  f_br : ig_brackets G = brackets_of D;
  f_vals : ig_outvals G = outvals_of D
}.

Lemma map_of_ext nm nm' D : (forall d, In d D -> nm (d_r d) = nm' (d_r d)) -> map_of nm D = map_of nm' D.
Proof.
  unfold map_of. generalize (@nil (name * name)). induction D as [|d D IH]; intros m H; [reflexivity|].
  cbn [fold_left]. rewrite (H d) by (now left). apply IH. intros; apply H; now right.
Qed.

Lemma run_iops_length fuel : forall h G G' xs, run_iops O fuel G h = Some (G', xs) -> length xs = length h.
Proof.
  induction h as [|a h IH]; intros G G' xs E.
  - injection E as _ <-. reflexivity.
  - apply run_iops_cons in E. destruct E as (G1 & x & xs' & _ & E & ->). simpl. f_equal. eauto.
Qed.

Theorem history_defs fuel h : forall G xs, run_iops O fuel igroup0 h = Some (G, xs) -> exists D, defs fuel h xs G D.
Proof.
  induction h as [|o h IH] using rev_ind; intros G xs E.
  - injection E as <- <-. exists []. constructor; auto; try (intros; simpl in *; contradiction); try constructor.
    intros [|i] ? ? ? [Q _]; discriminate.
  - apply run_iops_app in E. destruct E as (G1 & xs1 & xs2 & R1 & R2 & -> & L).
    apply run_iops_cons in R2. destruct R2 as (G2 & x & xs' & S & R2 & ->).
    injection R2 as -> <-. destruct (IH _ _ R1) as [D F].
    pose proof (run_ext O fuel h igroup0 G1 xs1 ainv0 R1) as H.
    pose proof (istep_ext O fuel G1 o G x (h_inv _ _ _ _ H) S) as X.
    assert (SUC : forall i q, succeeded (h ++ [o]) (xs1 ++ [x]) i q <->
              succeeded h xs1 i q \/ (i = length h /\ q = o /\ exists y, x = Ok y)).
    { intros i q. unfold succeeded. destruct (lt_eq_lt_dec i (length h)) as [[Hi|Hi]|Hi].
      - rewrite !nth_error_app1 by lia. split; [auto|]. intros [Q|(Q & _)]; [assumption|lia].
      - subst i. rewrite !nth_error_app2 by lia. rewrite L, !Nat.sub_diag. simpl. split.
        + intros [Q [y Y]]. right. injection Q as ->. injection Y as ->. eauto.
        + intros [[Q _]|(_ & -> & y & ->)]; [|eauto]. assert (nth_error h (length h) <> None) as W by congruence.
          apply nth_error_Some in W. lia.
      - split.
        + intros [Q _]. assert (nth_error (h ++ [o]) i <> None) as W by congruence.
          apply nth_error_Some in W. rewrite app_length in W. simpl in W. lia.
        + intros [[Q _]|(Q & _)]; [|lia]. assert (nth_error h i <> None) as W by congruence.
          apply nth_error_Some in W. lia. }
    assert (NM : forall i q out nm, succeeded h xs1 i q -> named_at O fuel h i out nm -> named_at O fuel (h ++ [o]) i out nm).
    { intros i q out nm [Q _] (Gi & xi & N1 & N2). exists Gi, xi. split; [|assumption].
      assert (nth_error h i <> None) as W by congruence. apply nth_error_Some in W.
      rewrite firstn_app. replace (i - length h) with 0 by lia. cbn [firstn]. now rewrite app_nil_r. }
    assert (NW : forall out, named_at O fuel (h ++ [o]) (length h) out (aname (ig_api G1) out)).
    { intros out. exists G1, xs1. split; [|reflexivity].
      rewrite firstn_app, Nat.sub_diag, firstn_all. cbn [firstn]. now rewrite app_nil_r. }
    assert (ROOT : forall d, In d D -> In (d_r d) (adeps (ig_api G) root) /\ ig_isres G (d_r d) = true).
    { intros d Hd. destruct (f_root _ _ _ _ _ F d Hd) as [A B]. split; [now apply (x_root _ _ _ _ X)|].
      apply (x_isres _ _ _ _ X). now left. }
    assert (NAME : forall d, In d D -> aname (ig_api G1) (d_r d) = aname (ig_api G) (d_r d)).
    { intros d Hd. symmetry. apply (x_name _ _ _ _ X), (f_root _ _ _ _ _ F d Hd). }
    assert (CASES : (exists out r y, gives_residual o out r /\ x = Ok y)
                    \/ ((forall out r, ~ gives_residual o out r) \/ exists e, x = Raise e)).
    { destruct x as [y|e]; [|right; right; eauto].
      destruct o as [| |out r|out r b1 b2]; [right; left; intros ? ? []|right; left; intros ? ? []| |];
        left; exists out, r, y; split; auto; split; reflexivity. }
    destruct CASES as [(out & r & y & GR & ->)|QU].
    + destruct (x_def _ _ _ _ X out r y GR eq_refl) as (A1 & A2 & A3 & A4 & A5 & A6 & A7 & A8 & A9 & A10 & A11 & A12 & A13).
      set (d := DD r (aname (ig_api G1) out) (op_brackets o) (ig_val G1 out)).
      exists (D ++ [d]). constructor.
      * intros i q out' r' Q GQ. apply SUC in Q. destruct Q as [Q|(-> & -> & _)].
        -- destruct (f_from _ _ _ _ _ F i q out' r' Q GQ) as (d' & B1 & B2 & B3 & B4).
           exists d'. splits; eauto. apply in_app_iff. now left.
        -- exists d. splits; [apply in_app_iff; right; now left| |reflexivity|].
           destruct o as [| |? ?|? ? ? ?]; try contradiction; destruct GR as [_ <-]; destruct GQ as [_ <-]; reflexivity.
           destruct o as [| |? ?|? ? ? ?]; try contradiction; destruct GR as [<- _]; destruct GQ as [<- _]; apply NW.
      * intros d' Hd. apply in_app_iff in Hd. destruct Hd as [Hd|[<-|[]]].
        -- destruct (f_to _ _ _ _ _ F d' Hd) as (i & q & out' & B1 & B2 & B3 & B4).
           exists i, q, out'. splits; eauto. apply SUC. now left.
        -- exists (length h), o, out. splits; auto; [apply SUC; right; eauto|apply NW].
      * rewrite map_app. cbn [map d_r d]. apply (Permutation_NoDup (Permutation_cons_append _ _)). constructor.
        -- intros Q. apply in_map_iff in Q. destruct Q as (d' & E' & Hd). apply A2.
           rewrite <- E'. apply (f_root _ _ _ _ _ F d' Hd).
        -- exact (f_nodup _ _ _ _ _ F).
      * intros d' Hd. apply in_app_iff in Hd. destruct Hd as [Hd|[<-|[]]]; [auto|]. split; assumption.
      * rewrite A11, (f_map _ _ _ _ _ F), (map_of_ext _ _ D NAME), <- A10.
        unfold map_of. rewrite fold_left_app. reflexivity.
      * rewrite A12, (f_br _ _ _ _ _ F). unfold brackets_of. rewrite fold_left_app.
        destruct o as [| |? ?|? ? ? ?]; try contradiction; [reflexivity|]. destruct GR as [-> ->]. reflexivity.
      * rewrite A13, (f_vals _ _ _ _ _ F). unfold outvals_of. rewrite fold_left_app.
        destruct o as [| |? ?|? ? ? ?]; try contradiction; [|reflexivity]. destruct GR as [-> ->]. reflexivity.
    + destruct (x_quiet _ _ _ _ X QU) as (A1 & A2 & A3). exists D. constructor; auto.
      * intros i q out' r' Q GQ. apply SUC in Q. destruct Q as [Q|(_ & -> & y & ->)].
        -- destruct (f_from _ _ _ _ _ F i q out' r' Q GQ) as (d' & B1 & B2 & B3 & B4). exists d'. splits; eauto.
        -- destruct QU as [QU|[e QU]]; [exfalso; eapply QU; eassumption|discriminate].
      * intros d' Hd. destruct (f_to _ _ _ _ _ F d' Hd) as (i & q & out' & B1 & B2 & B3 & B4).
        exists i, q, out'. splits; eauto. apply SUC. now left.
      * exact (f_nodup _ _ _ _ _ F).
      * rewrite A1, (f_map _ _ _ _ _ F). now apply map_of_ext.
      * rewrite A2. exact (f_br _ _ _ _ _ F).
      * rewrite A3. exact (f_vals _ _ _ _ _ F).
Qed.
End S.
