(** Theorems about Group.setup for groups made by any history of calls. *)
From Verif Require Import PyBase PySet PySetProofs PySetWide SpecGraph GraphLemmas Graph SpecSetup GraphSetup GraphTheorems
  Replace ReplaceProofs GroupApi SpecApi GroupApiProofs GroupApiAcyclic GroupApiShape GroupApiWired.

Lemma name_eqb_eq : forall a b, name_eqb a b = true <-> a = b.
Proof.
  induction a as [x|x|x IH]; intros [y|y|y]; simpl; split; intros H; try discriminate.
  - apply Nat.eqb_eq in H. now subst.
  - injection H as ->. apply Nat.eqb_refl.
  - apply Nat.eqb_eq in H. now subst.
  - injection H as ->. apply Nat.eqb_refl.
  - apply IH in H. now subst.
  - injection H as ->. now apply IH.
Qed.
Lemma label_eqb_eq a b : label_eqb a b = true <-> a = b.
Proof.
  destruct a as [a1 a2], b as [b1 b2]. unfold label_eqb. simpl.
  rewrite andb_true_iff, Bool.eqb_true_iff, name_eqb_eq. split; [intros [-> ->]; reflexivity|].
  intros H. injection H as -> ->. auto.
Qed.

Lemma build_all_ok st : forall order added,
  (forall n, In n order -> is_output (akind st n) = true -> adefined st n = true) ->
  NoDup (added ++ order) -> (forall n, In n added -> has_build st n = true) ->
  (forall u v, In u (added ++ order) -> In v (added ++ order) -> has_build st u = true ->
     has_build st v = true -> label st u = label st v -> u = v) ->
  build_all st order added = Ok (added ++ filter (has_build st) order).
Proof.
  induction order as [|n r IH]; intros added H ND HA L; cbn [build_all filter].
  - now rewrite app_nil_r.
  - assert (is_output (akind st n) && negb (adefined st n) = false) as ->.
    { destruct (is_output (akind st n)) eqn:E; [|reflexivity].
      rewrite (H n (or_introl eq_refl) E). reflexivity. }
    assert (ND' : NoDup (added ++ r)) by (now apply NoDup_remove_1 in ND).
    destruct (has_build st n) eqn:HB.
    + destruct (existsb (fun m => label_eqb (label st m) (label st n)) added) eqn:EX.
      { exfalso. apply existsb_exists in EX. destruct EX as (m & Hm & EQ). apply label_eqb_eq in EQ.
        assert (m = n).
        { apply L; auto; apply in_or_app; [now left|right; now left]. }
        subst m. apply NoDup_remove_2 in ND. apply ND. apply in_or_app. now left. }
      rewrite IH.
      * now rewrite <- app_assoc.
      * intros m Hm. apply H. now right.
      * rewrite <- app_assoc. exact ND.
      * intros m Hm. apply in_app_iff in Hm. destruct Hm as [Hm|[<-|[]]]; auto.
      * intros u v. rewrite <- app_assoc. apply L.
    + apply IH; auto.
      * intros m Hm. apply H. now right.
      * intros u v Hu Hv. apply L; apply in_or_app.
        -- apply in_app_iff in Hu. simpl. tauto.
        -- apply in_app_iff in Hv. simpl. tauto.
Qed.

Lemma build_all_undefined st n : is_output (akind st n) = true -> adefined st n = false ->
  forall order added, In n order ->
  exists e, build_all st order added = Raise e
    /\ (e = ValueError \/ (e = RuntimeError /\ exists u v, In u (added ++ order) /\ In v (added ++ order) /\
          (NoDup (added ++ order) -> u <> v) /\ has_build st v = true /\ label st u = label st v
          /\ (In u added \/ has_build st u = true))).
Proof.
  intros K D. induction order as [|m r IH]; intros added H; [contradiction|]. cbn [build_all].
  destruct (is_output (akind st m) && negb (adefined st m)) eqn:C; [eauto|].
  assert (Hr : In n r).
  { destruct H as [->|H]; [|assumption]. rewrite K, D in C. discriminate. }
  destruct (has_build st m) eqn:HB.
  - destruct (existsb (fun m0 => label_eqb (label st m0) (label st m)) added) eqn:EX.
    + exists RuntimeError. split; [reflexivity|]. right. split; [reflexivity|].
      apply existsb_exists in EX. destruct EX as (u & Hu & EQ). apply label_eqb_eq in EQ.
      exists u, m. splits; auto.
      * apply in_or_app; now left.
      * apply in_or_app; right; now left.
      * intros ND ->. apply NoDup_remove_2 in ND. apply ND. apply in_or_app. now left.
    + destruct (IH (added ++ [m]) Hr) as (e & E & Q). exists e. split; [assumption|].
      destruct Q as [Q|(Q & u & v & A1 & A2 & A3 & A4 & A5 & A6)]; [auto|]. right. split; [assumption|].
      rewrite <- app_assoc in A1, A2, A3. exists u, v. splits; auto.
      destruct A6 as [A6|A6]; [|auto]. apply in_app_iff in A6. destruct A6 as [A6|[<-|[]]]; auto.
  - destruct (IH added Hr) as (e & E & Q). exists e. split; [assumption|].
    destruct Q as [Q|(Q & u & v & A1 & A2 & A3 & A4 & A5 & A6)]; [auto|]. right. split; [assumption|].
    exists u, v. splits; auto.
    + apply in_app_iff in A1. apply in_or_app. simpl. tauto.
    + apply in_app_iff in A2. apply in_or_app. simpl. tauto.
    + intros ND. apply A3. now apply NoDup_remove_1 in ND.
Qed.

Lemma build_all_clash st u v : u <> v -> has_build st u = true -> has_build st v = true ->
  label st u = label st v -> forall order added, (In u added \/ In u order) -> (In v added \/ In v order) ->
  ~ (In u added /\ In v added) ->
  exists e, build_all st order added = Raise e /\ (e = ValueError \/ e = RuntimeError).
Proof.
  intros NE Bu Bv EL. induction order as [|m r IH]; intros added Hu Hv NB.
  - exfalso. apply NB. simpl in *. tauto.
  - cbn [build_all]. destruct (is_output (akind st m) && negb (adefined st m)) eqn:C; [eauto|].
    destruct (has_build st m) eqn:HB.
    + destruct (existsb (fun m0 => label_eqb (label st m0) (label st m)) added) eqn:EX; [eauto|].
      assert (NX : forall w, In w added -> label st w <> label st m).
      { intros w Hw E. apply label_eqb_eq in E.
        assert (existsb (fun m0 => label_eqb (label st m0) (label st m)) added = true) by (apply existsb_exists; eauto).
        congruence. }
      apply IH.
      * simpl in Hu. rewrite in_app_iff. simpl. tauto.
      * simpl in Hv. rewrite in_app_iff. simpl. tauto.
      * rewrite !in_app_iff. simpl. intros [[A|[A|[]]] [A'|[A'|[]]]]; subst; try tauto.
        -- exact (NX u A EL).
        -- apply (NX v A'). congruence.
    + apply IH; simpl in *; auto.
      * destruct Hu as [Hu|[Hu|Hu]]; auto. congruence.
      * destruct Hv as [Hv|[Hv|Hv]]; auto. congruence.
Qed.

Section Setup.
Variables (O : oracle) (uid : nat -> nat) (reverse : bool) (st : api).
Hypothesis INV : ainv st.
Hypothesis SCH : schedulable uid st.

Let run fuel := group_setup O set_list uid fuel reverse st.

Lemma api_graph_ok : graph_ok (akind st) root (adeps st).
Proof.
  destruct INV as [B _], SCH as (AC & W & _). constructor; auto.
  - exists (anext st). apply (v_fin st B).
  - apply (v_simple st B).
  - apply (v_indep st B).
  - rewrite (v_kroot st B). discriminate.
Qed.

Lemma api_order : exists N l, (forall fuel, N <= fuel -> run fuel = Some (build_all st l []))
  /\ valid_order (adeps st) root l
  /\ (forall i n, In i (adeps st root) -> akind st i = KIndep -> In n l -> akind st n <> KIndep -> before l i n).
Proof.
  destruct SCH as (_ & _ & UD).
  destruct (setup_graph_spec O set_list set_list_placed (akind st) root reverse uid (adeps st) api_graph_ok UD) as
    (N & nodes & l & s' & E & VO & IND & _).
  exists N, (rev l). splits; auto.
  - intros fuel L. unfold run, group_setup. now rewrite E.
  - intros i n H1 H2 H3 H4. apply IND; auto. now apply in_rev.
Qed.

Lemma explicit_reached n : akind st n = KExplicit -> dep_on (adeps st) root n.
Proof. intros K. constructor. destruct INV as [_ R]. apply R. now rewrite K. Qed.

Lemma is_output_explicit : shape st -> forall n, is_output (akind st n) = true -> akind st n = KExplicit.
Proof. intros S n. pose proof (s_imp st S n). destruct (akind st n); simpl; congruence. Qed.

Lemma api_setup_ok : shape st ->
  (forall n, akind st n = KExplicit -> adefined st n = true) -> labels_distinct st ->
  exists added, eventually run (Ok added)
    /\ NoDup added
    /\ (forall n, In n added <-> dep_on (adeps st) root n /\ has_build st n = true)
    /\ (forall u v, In u added -> In v added -> dep_on (adeps st) u v -> before added v u)
    /\ (forall i n, akind st i = KIndep -> In i added -> In n added -> akind st n <> KIndep -> before added i n).
Proof.
  intros SH DEF LD. destruct api_order as (N & l & E & (ND & SP & BF) & IND).
  exists (filter (has_build st) l). splits.
  - exists N. intros fuel L. rewrite E by assumption. rewrite build_all_ok; auto.
    + intros n _ K. apply DEF. now apply is_output_explicit.
    + intros u v Hu Hv. apply LD; now apply SP.
  - now apply NoDup_filter.
  - intros n. now rewrite filter_In, SP.
  - intros u v Hu Hv D. apply filter_In in Hu. apply filter_In in Hv.
    apply before_filter; intuition.
  - intros i n Ki Hi Hn Kn. apply filter_In in Hi. apply filter_In in Hn.
    apply before_filter; try tauto. apply IND; try tauto.
    destruct INV as [_ R]. apply R. now rewrite Ki.
Qed.

Lemma api_setup_undefined n : akind st n = KExplicit -> adefined st n = false ->
  exists e, eventually run (Raise e) /\ (e = ValueError \/ e = RuntimeError) /\ (labels_distinct st -> e = ValueError).
Proof.
  intros K D. destruct api_order as (N & l & E & (ND & SP & BF) & _).
  destruct (build_all_undefined st n) with (order := l) (added := @nil nat) as (e & EB & Q).
  - now rewrite K.
  - assumption.
  - apply SP. now apply explicit_reached.
  - exists e. splits.
    + exists N. intros fuel L. rewrite E by assumption. now rewrite EB.
    + tauto.
    + intros LD. destruct Q as [Q|(Q & u & v & A1 & A2 & A3 & A4 & A5 & [[]|A6])]; [assumption|].
      exfalso. apply (A3 ND). apply LD; auto; now apply SP.
Qed.

Lemma api_setup_clash u v : u <> v -> dep_on (adeps st) root u -> dep_on (adeps st) root v ->
  has_build st u = true -> has_build st v = true -> label st u = label st v ->
  exists e, eventually run (Raise e) /\ (e = ValueError \/ e = RuntimeError).
Proof.
  intros NE Du Dv Bu Bv EL. destruct api_order as (N & l & E & (ND & SP & BF) & _).
  destruct (build_all_clash st u v NE Bu Bv EL l []) as (e & EB & Q).
  - right. now apply SP.
  - right. now apply SP.
  - simpl. tauto.
  - exists e. split; [|assumption]. exists N. intros fuel L. rewrite E by assumption. now rewrite EB.
Qed.
End Setup.
