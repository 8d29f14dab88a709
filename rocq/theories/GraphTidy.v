(** Pruning nodes that are tidy: the positions to remove are listed in ascending
    order at every node. *)
From Coq Require Import Sorted.
From Verif Require Import PyBase PySet PySetProofs PySetWide SpecGraph GraphLemmas Graph SpecSetup GraphPrune.

Lemma filter_positions (p : nat -> bool) : forall l,
  length (filter (fun i => match nth_error l i with Some x => p x | None => false end) (seq 0 (length l)))
  = length (filter p l).
Proof.
  induction l as [|x l IH]; [reflexivity|]. cbn [length seq]. rewrite <- seq_shift. cbn [filter nth_error].
  assert (E : forall k, length (filter (fun i => match nth_error (x :: l) i with Some y => p y | None => false end) (map S k))
    = length (filter (fun i => match nth_error l i with Some y => p y | None => false end) k)).
  { induction k as [|a k IHk]; [reflexivity|]. cbn [map filter nth_error].
    destruct (nth_error l a) as [y|]; [destruct (p y)|]; cbn [length]; congruence. }
  destruct (p x); cbn [length]; now rewrite E, IH.
Qed.

(** as many positions as redundant dependencies *)
Lemma indirect_count d n : NoDup (d n) ->
  distinct (indirect_indices d n) = length (filter (grandchild d n) (d n)).
Proof.
  intros N. rewrite <- filter_positions. symmetry. apply distinct_elements.
  - apply NoDup_filter, seq_NoDup.
  - intros i. rewrite filter_In, in_seq, indirect_indices_spec by assumption. split.
    + intros [_ H]. destruct (nth_error (d n) i) as [x|]; [|discriminate].
      apply grandchild_spec in H. destruct H as (c & H1 & H2). now exists x, c.
    + intros (x & c & E & H1 & H2). split.
      * assert (i < length (d n)) by (apply nth_error_Some; congruence). lia.
      * rewrite E. apply grandchild_spec. now exists c.
Qed.

Lemma filter_length_mono (p q : nat -> bool) l l' : NoDup l ->
  (forall x, In x l -> p x = true -> In x l' /\ q x = true) -> length (filter p l) <= length (filter q l').
Proof.
  intros N H. apply NoDup_incl_length; [now apply NoDup_filter|].
  intros x Hx. apply filter_In in Hx. apply filter_In. now apply H.
Qed.

Lemma filter_split (p q : nat -> bool) l :
  length (filter p l) = length (filter (fun x => q x && p x) l) + length (filter (fun x => negb (q x) && p x) l).
Proof.
  induction l as [|x l IH]; [reflexivity|]. cbn [filter].
  destruct (q x), (p x); cbn [andb negb length]; lia.
Qed.

Section Tidy.
Variable iset : list nat -> list nat.
Hypothesis iset_P : forall l, placed l -> ascending_listing (iset l) l.
(** the independent variables, the nodes under consideration, those to be
    pruned, and for each a bound on its dependencies and on its redundant ones *)
Variables (I : list nat) (U P : nat -> Prop) (w q : nat -> nat) (rank : nat -> nat).
Hypothesis I_once : NoDup I.
Hypothesis fits : forall n, P n ->
  w n <= 8 \/ length I + q n <= 1 \/
  (q n <= 1 /\ ((5 <= length I /\ w n <= 32) \/ (19 <= length I /\ w n <= 128))).

(** What holds before and after every step. *)
Record clean (s : gstate) : Prop := {
  cl_ranked : ranked (deps s) rank;
  cl_simple : forall n, NoDup (deps s n);
  cl_closed : forall u v, U u -> In v (deps s u) -> U v;
  cl_width : forall n, U n -> length (deps s n) <= w n;
  cl_short : forall n, U n ->
    length (filter (fun v => negb (mem v I) && grandchild (deps s) n v) (deps s n)) <= q n;
  (* a node has all independent variables as dependencies, or none *)
  cl_all : forall n, U n -> (forall i, In i I -> In i (deps s n)) \/ (forall i, In i I -> ~ In i (deps s n))
}.

Lemma indep_count s n : clean s -> U n ->
  let k := length (filter (fun v => mem v I && grandchild (deps s) n v) (deps s n)) in
  k = 0 \/ k = length I.
Proof.
  intros C Un. cbn zeta. set (l := filter _ (deps s n)).
  destruct l as [|i r] eqn:E; [now left|right]. rewrite <- E.
  assert (Hi : In i l) by (rewrite E; now left). apply filter_In in Hi. destruct Hi as [Hi G].
  apply andb_prop in G. destruct G as [Mi G]. apply mem_In in Mi.
  apply grandchild_spec in G. destruct G as (c & Hc & Hic).
  assert (Uc : U c) by (apply (cl_closed s C n); assumption).
  assert (An : forall j, In j I -> In j (deps s n)).
  { destruct (cl_all s C n Un) as [A|A]; [exact A|]. exfalso. now apply (A i). }
  assert (Ac : forall j, In j I -> In j (deps s c)).
  { destruct (cl_all s C c Uc) as [A|A]; [exact A|]. exfalso. now apply (A i). }
  apply Nat.le_antisymm; apply NoDup_incl_length; auto.
  - apply NoDup_filter, (cl_simple s C).
  - intros j Hj. apply filter_In in Hj. destruct Hj as [_ Hj]. apply andb_prop in Hj. now apply mem_In.
  - intros j Hj. apply filter_In. split; [now apply An|]. apply andb_true_intro. split; [now apply mem_In|].
    apply grandchild_spec. exists c. auto.
Qed.

Lemma clean_listed s n : clean s -> U n -> P n -> listed iset s n.
Proof.
  intros C Un Pn. apply iset_P.
  assert (Hlt : forall x, In x (indirect_indices (deps s) n) -> x < w n).
  { intros x Hx. apply indirect_indices_spec in Hx; [|apply (cl_simple s C)].
    destruct Hx as (y & c & E & _). pose proof (cl_width s C n Un).
    assert (x < length (deps s n)) by (apply nth_error_Some; congruence). lia. }
  pose proof (indirect_count (deps s) n (cl_simple s C n)) as R.
  rewrite (filter_split _ (fun v => mem v I)) in R.
  pose proof (cl_short s C n Un) as Q. cbn beta in Q.
  pose proof (indep_count s n C Un) as K. cbn zeta in K.
  unfold placed. rewrite R. destruct (fits n Pn) as [F|[F|[F1 [[F2 F3]|[F2 F3]]]]].
  - left. intros x Hx. specialize (Hlt x Hx). lia.
  - right. left. lia.
  - right. destruct K as [K|K]; [left; lia|]. right. left. split; [lia|].
    intros x Hx. specialize (Hlt x Hx). lia.
  - right. destruct K as [K|K]; [left; lia|]. right. right. split; [lia|].
    intros x Hx. specialize (Hlt x Hx). lia.
Qed.

Lemma clean_step s n : clean s -> U n -> P n -> clean (remove_indirect_dependencies iset s n).
Proof.
  intros C Un Pn. pose proof (clean_listed s n C Un Pn) as L.
  pose proof (remove_indirect_acyclic iset s n rank (cl_ranked s C) (cl_simple s C n) L) as E.
  pose proof (prune_one iset s n rank (cl_ranked s C) (cl_simple s C n) L) as [_ Sub Nd Ln _].
  set (s' := remove_indirect_dependencies iset s n) in *.
  assert (Oth : forall m, m <> n -> deps s' m = deps s m) by (intros; now apply remove_indirect_others).
  constructor.
  - intros u v H. apply (cl_ranked s C). auto.
  - intros m. apply Nd, (cl_simple s C).
  - intros u v Hu H. apply (cl_closed s C u); auto.
  - intros m Um. specialize (Ln m). pose proof (cl_width s C m Um). lia.
  - intros m Um. etransitivity; [|apply (cl_short s C m Um)].
    apply filter_length_mono; [apply Nd, (cl_simple s C)|].
    intros x Hx A. split; [auto|]. apply andb_prop in A. destruct A as [A G]. rewrite A. cbn [andb].
    apply grandchild_spec in G. apply grandchild_spec. destruct G as (c & Hc & Hxc). exists c. auto.
  - intros m Um. destruct (Nat.eq_dec m n) as [->|NE]; [|rewrite Oth by assumption; apply (cl_all s C m Um)].
    rewrite E. destruct (cl_all s C n Un) as [A|A].
    + destruct (existsb (grandchild (deps s) n) I) eqn:X.
      * right. intros i Hi H. apply filter_In in H. destruct H as [_ H].
        apply existsb_exists in X. destruct X as (j & Hj & G). apply grandchild_spec in G.
        destruct G as (c & Hc & Hjc). assert (Uc : U c) by (apply (cl_closed s C n); assumption).
        destruct (cl_all s C c Uc) as [B|B]; [|now apply (B j)].
        apply negb_true_iff in H. apply Bool.not_true_iff_false in H. apply H.
        apply grandchild_spec. exists c. auto.
      * left. intros i Hi. apply filter_In. split; [now apply A|]. apply negb_true_iff.
        apply Bool.not_true_iff_false. intros G. apply Bool.not_true_iff_false in X. apply X.
        apply existsb_exists. now exists i.
    + right. intros i Hi H. apply filter_In in H. now apply (A i).
Qed.

Lemma clean_all : forall ns s, (forall n, In n ns -> U n /\ P n) -> clean s -> all_listed iset ns s.
Proof.
  induction ns as [|n ns IH]; intros s Hn C; [exact Logic.I|].
  destruct (Hn n (or_introl eq_refl)) as [Un Pn]. split.
  - now apply clean_listed.
  - apply IH; [intros m Hm; apply Hn; now right|]. now apply clean_step.
Qed.
End Tidy.
