(** Boolean checks that a concrete state meets the hypotheses of the theorems
    (used by the examples only). *)
From Verif Require Import PyBase PySet SpecGraph GraphLemmas Graph SpecSetup GroupApi SpecApi SpecRun
  GroupApiProofs GraphTheorems GroupApiSetup.

(** Nodes below [start]; any list passing [closed_from] contains them all. *)
Definition reach_from (st : api) (start : nat) : list nat :=
  Nat.iter (anext st) (fun l => nodup Nat.eq_dec (l ++ flat_map (adeps st) l)) (adeps st start).
Definition closed_from (st : api) (start : nat) (L : list nat) : bool :=
  forallb (fun n => forallb (fun v => mem v L) (adeps st n)) (start :: L).
Definition reach (st : api) := reach_from st root.
Definition closed (st : api) := closed_from st root.

Lemma closed_from_reach st start L : closed_from st start L = true ->
  forall n, dep_on (adeps st) start n -> In n L.
Proof.
  unfold closed_from. rewrite forallb_forall. intros H n D.
  assert (G : forall u v, dep_on (adeps st) u v -> In u (start :: L) -> In v L).
  { induction 1 as [u v E|u w v E D' IH]; intros Hu.
    - specialize (H u Hu). rewrite forallb_forall in H. specialize (H v E). now apply mem_In in H.
    - apply IH. right. specialize (H u Hu). rewrite forallb_forall in H. specialize (H w E). now apply mem_In in H. }
  apply (G start n D). now left.
Qed.
Lemma closed_reach st L : closed st L = true -> forall n, dep_on (adeps st) root n -> In n L.
Proof. apply closed_from_reach. Qed.

(** No definition or assignment makes an output depend on itself. *)
Fixpoint reference_check (O : oracle) (fuel : nat) (st : api) (h : list op) : bool :=
  match h with
  | [] => true
  | o :: r =>
    match o with
    | Setitem out e _ | Define out e =>
      negb (Nat.eqb e out) && closed_from st e (reach_from st e) && negb (mem out (reach_from st e))
    | _ => true
    end && match step O fuel st o with Some (st', _) => reference_check O fuel st' r | None => true end
  end.
Lemma reference_check_ok O fuel : forall h st, reference_check O fuel st h = true ->
  throughout O no_self_reference fuel st h.
Proof.
  induction h as [|o h IH]; intros st H; cbn [throughout reference_check] in *; [exact I|].
  apply andb_prop in H. destruct H as [H1 H2]. split.
  - assert (G : forall out e, negb (Nat.eqb e out) && closed_from st e (reach_from st e) && negb (mem out (reach_from st e)) = true
      -> e <> out /\ ~ dep_on (adeps st) e out).
    { intros out e H. rewrite !andb_true_iff in H. destruct H as [[A B] C]. split.
      - apply negb_true_iff in A. now apply Nat.eqb_neq.
      - intros D. apply (closed_from_reach st e _ B) in D. apply mem_In in D. rewrite D in C. discriminate. }
    destruct o; cbn [no_self_reference]; auto.
  - intros st' x E. rewrite E in H2. now apply IH.
Qed.

Definition ranks (st : api) : bool :=
  forallb (fun u => forallb (fun v => Nat.ltb (height (adeps st) (anext st) v) (height (adeps st) (anext st) u))
                            (adeps st u)) (seq 0 (anext st)).
Lemma ranks_acyclic st : base st -> ranks st = true -> acyclic (adeps st).
Proof.
  unfold ranks. rewrite forallb_forall. intros B H. apply ranked_acyclic with (height (adeps st) (anext st)).
  intros u v E. destruct (v_fin st B u v E) as [L _].
  specialize (H u). rewrite in_seq, forallb_forall in H. apply Nat.ltb_lt. apply H; [lia|assumption].
Qed.

Definition all_tidyb (st : api) (L : list nat) : bool :=
  forallb (tidyb (adeps st) (filter (fun i => is_indep (akind st i)) (adeps st root))) L.

Definition setup_check (st : api) : bool :=
  closed st (reach st) && ranks st && all_tidyb st (reach st).

Lemma setup_check_ok st : base st -> setup_check st = true -> schedulable (fun n => n) st.
Proof.
  unfold setup_check. intros B H. apply andb_prop in H. destruct H as [H H3].
  apply andb_prop in H. destruct H as [H1 H2]. split; [now apply ranks_acyclic|split].
  - intros n D. apply (closed_reach st _ H1) in D. unfold all_tidyb in H3. rewrite forallb_forall in H3.
    now apply tidyb_ok, H3.
  - intros u v _ _ E. exact E.
Qed.

Definition pairs {A} (l : list A) : list (A * A) := list_prod l l.
Definition labels_check (st : api) : bool :=
  closed st (reach st) &&
  forallb (fun p => negb (has_build st (fst p) && has_build st (snd p) &&
                          label_eqb (label st (fst p)) (label st (snd p))) || Nat.eqb (fst p) (snd p))
          (pairs (reach st)).
Lemma labels_check_ok st : labels_check st = true -> labels_distinct st.
Proof.
  unfold labels_check, labels_distinct. intros H u v Du Dv Bu Bv E.
  apply andb_prop in H. destruct H as [H1 H2]. rewrite forallb_forall in H2.
  apply (closed_reach st _ H1) in Du. apply (closed_reach st _ H1) in Dv.
  specialize (H2 (u, v)). cbn [fst snd] in H2. rewrite Bu, Bv in H2.
  assert (label_eqb (label st u) (label st v) = true) as E' by (now apply label_eqb_eq).
  rewrite E' in H2. apply Nat.eqb_eq. apply H2. now apply in_prod.
Qed.

Section Names.
Variables (sr sw : nat -> list name).
Definition name_mem (x : name) (l : list name) : bool := existsb (name_eqb x) l.
Lemma name_mem_in x l : name_mem x l = true <-> In x l.
Proof.
  unfold name_mem. rewrite existsb_exists. split.
  - intros (y & H & E). apply name_eqb_eq in E. now subst.
  - intros H. exists x. split; [assumption|now apply name_eqb_eq].
Qed.
Fixpoint name_nodup (l : list name) : bool :=
  match l with [] => true | x :: r => negb (name_mem x r) && name_nodup r end.
Lemma name_nodup_ok l : name_nodup l = true -> NoDup l.
Proof.
  induction l as [|x l IH]; simpl; intros H; constructor; apply andb_prop in H; destruct H as [H1 H2]; auto.
  intros Q. apply name_mem_in in Q. rewrite Q in H1. discriminate.
Qed.

Definition names_check (st : api) : bool :=
  closed st (reach st) &&
  forallb (fun n => name_nodup (comp_writes sw st n)) (reach st) &&
  forallb (fun p => Nat.eqb (fst p) (snd p) ||
     negb (existsb (fun x => name_mem x (comp_writes sw st (snd p))) (comp_writes sw st (fst p))))
     (pairs (reach st)) &&
  forallb (fun p => negb (match akind st (fst p) with KInput => true | _ => false end
                          && name_mem (aname st (fst p)) (comp_writes sw st (snd p)))
                    || mem (snd p) (adeps st (fst p))) (pairs (reach st)) &&
  forallb (fun p => match abuild st (fst p) with
                    | BSub k _ => negb (existsb (fun x => name_mem x (comp_writes sw st (snd p))) (sr k))
                                  || mem (snd p) (adeps st (fst p))
                    | _ => true end) (pairs (reach st)) &&
  forallb (fun n => match abuild st n with
                    | BIndexed => forallb (fun t => name_eqb (fst t) (aname st (snd t))) (atgt st n)
                    | _ => true end) (seq 0 (anext st)).

Lemma names_check_ok st : (forall n, anext st <= n -> abuild st n = NoBuild) ->
  names_check st = true -> names_ok sr sw st.
Proof.
  unfold names_check. intros FR H. rewrite !andb_true_iff, !forallb_forall in H.
  destruct H as [[[[[H1 H2] H3] H4] H5] H6].
  pose proof (closed_reach st _ H1) as R. constructor.
  - intros n D. apply name_nodup_ok, H2. now apply R.
  - intros m n x Dm Dn W1 W2. specialize (H3 (m, n)). cbn [fst snd] in H3.
    specialize (H3 (in_prod _ _ _ _ (R m Dm) (R n Dn))). apply orb_prop in H3. destruct H3 as [H3|H3].
    + now apply Nat.eqb_eq.
    + exfalso. apply negb_true_iff in H3. assert (X : existsb (fun x0 => name_mem x0 (comp_writes sw st n)) (comp_writes sw st m) = true).
      { apply existsb_exists. exists x. split; [assumption|now apply name_mem_in]. }
      congruence.
  - intros i m Di Dm K W. specialize (H4 (i, m)). cbn [fst snd] in H4.
    specialize (H4 (in_prod _ _ _ _ (R i Di) (R m Dm))). rewrite K in H4.
    apply name_mem_in in W. rewrite W in H4. constructor. now apply mem_In.
  - intros b k g x m Db Dm E Hr W. specialize (H5 (b, m)). cbn [fst snd] in H5.
    specialize (H5 (in_prod _ _ _ _ (R b Db) (R m Dm))). rewrite E in H5.
    assert (X : existsb (fun x0 => name_mem x0 (comp_writes sw st m)) (sr k) = true).
    { apply existsb_exists. exists x. split; [assumption|now apply name_mem_in]. }
    rewrite X in H5. constructor. now apply mem_In.
  - intros n nm e E Ht. destruct (Nat.lt_ge_cases n (anext st)) as [L|L].
    + specialize (H6 n). rewrite in_seq, E, forallb_forall in H6.
      specialize (H6 ltac:(lia) (nm, e) Ht). now apply name_eqb_eq in H6.
    + rewrite FR in E by assumption. discriminate.
Qed.
End Names.
