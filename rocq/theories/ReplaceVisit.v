(** Which nodes [replace_output_leaf_nodes] changes when it starts at a residual,
    without the hypothesis of ReplaceProofs.Residual that the nodes using the
    output directly do not also use it indirectly. *)
From Verif Require Import PyBase SpecGraph GraphLemmas Replace ReplaceProofs SpecVisit.

Lemma remove_first_nth x : forall l i j, NoDup l -> nth_error l i = Some x -> i < j ->
  nth_error (remove_first x l) (pred j) = nth_error l j.
Proof.
  induction l as [|y l IH]; intros i j ND E L; [now destruct i|].
  inversion ND as [|? ? N1 N2]; subst. destruct j as [|j]; [lia|]. cbn [pred nth_error remove_first].
  destruct (Nat.eqb_spec y x) as [->|H].
  - reflexivity.
  - destruct i as [|i]; [injection E; congruence|]. cbn in E.
    destruct j as [|j]; [lia|]. cbn [nth_error].
    apply (IH i (S j)); [assumption|assumption|lia].
Qed.

Lemma follows_nth out x l : follows out x l ->
  exists i, nth_error l i = Some out /\ nth_error l (S i) = Some x.
Proof.
  intros (b & a & ->). exists (length b). split.
  - rewrite nth_error_app2 by lia. now rewrite Nat.sub_diag.
  - rewrite nth_error_app2 by lia. now replace (S (length b) - length b) with 1 by lia.
Qed.

Lemma nth_follows out x : forall l i, nth_error l i = Some out -> nth_error l (S i) = Some x ->
  follows out x l.
Proof.
  intros l i A B. destruct (nth_error_split l i A) as (b & a & -> & Lb).
  rewrite nth_error_app2 in B by lia. replace (S i - length b) with 1 in B by lia.
  destruct a as [|y a]; [discriminate|]. cbn in B. injection B as ->. now exists b, a.
Qed.

Lemma nodup_nth (l : list nat) i j x : NoDup l -> nth_error l i = Some x -> nth_error l j = Some x -> i = j.
Proof.
  intros ND A B. apply (proj1 (NoDup_nth_error l) ND); [|congruence].
  apply nth_error_Some. congruence.
Qed.

Lemma NoDup_app_intro_one (l : list nat) x : NoDup l -> ~ In x l -> NoDup (l ++ [x]).
Proof.
  induction 1 as [|y l N ND IH]; intros H; simpl; [constructor; [tauto|constructor]|].
  constructor.
  - rewrite in_app_iff. simpl. simpl in H. intros [Q|[Q|[]]]; [contradiction|subst; tauto].
  - apply IH. simpl in H. tauto.
Qed.

Section Visit.
Variable O : oracle.
Variables (root leaf : nat) (d : nat -> list nat) (N node0 : nat).
Hypothesis simple : simple_graph d.
Hypothesis fin : forall u v, In v (d u) -> u < N.
Hypothesis leaf_fresh : forall u, ~ In leaf (d u).
Hypothesis leaf_nodeps : d leaf = [].
Hypothesis leaf_root : leaf <> root.
Hypothesis root_nodeps : d root = [].
Hypothesis acy : acyclic d.

Notation rep := (replace_output_leaf_nodes O root leaf).
Notation inv := (inv root leaf d node0).
Notation reach := (reach root d node0).
Notation mono := (mono root leaf d).
Notation vis := (visited d root).

Lemma mrefl s : mono s s.
Proof. apply mono_refl; assumption. Qed.
Lemma mtrans a b c : mono a b -> mono b c -> mono a c.
Proof. intros A B. eapply mono_trans; eassumption. Qed.

Lemma stay s s' m : mono s s' -> ~ In root (cur s m) -> ~ In root (cur s' m).
Proof.
  intros M H H'. destruct (m_sub _ _ _ _ _ M m root H') as [Q|Q]; [contradiction|congruence].
Qed.

(** what a call leaves alone *)
Definition keeps (node : nat) (s s' : lstate) : Prop :=
  (forall m g, g < gen s m -> heap s' m g = heap s m g)
  /\ (forall m, gen s' m <> gen s m -> m = node \/ dep_on d node m).

Lemma keeps_refl node s : keeps node s s.
Proof. split; [reflexivity|]. intros m H. congruence. Qed.

Lemma keeps_trans node a b c : (forall m, gen a m <= gen b m) ->
  keeps node a b -> keeps node b c -> keeps node a c.
Proof.
  intros G [A1 A2] [B1 B2]. split.
  - intros m g L. rewrite B1, A1; auto. specialize (G m). lia.
  - intros m H. destruct (Nat.eq_dec (gen b m) (gen a m)) as [Q|Q]; [|now apply A2].
    apply B2. congruence.
Qed.

Lemma keeps_below node x a b : In x (d node) \/ a = b -> keeps x a b -> keeps node a b.
Proof.
  intros [Hx|<-] [A1 A2]; [|apply keeps_refl]. split; [assumption|]. intros m H. right.
  destruct (A2 m H) as [->|D]; [now constructor|now apply dep_step with x].
Qed.

Lemma vis_empty n m : d n = [] -> vis n m -> m = n.
Proof. intros E V. destruct V as [|n x m Hx]; [reflexivity|]. rewrite E in Hx. contradiction. Qed.

Lemma keeps_repl s n : keeps n s (repl_step O root leaf s n).
Proof.
  split.
  - intros m g L. rewrite repl_step_heap by lia.
    destruct (Nat.eqb_spec m n) as [->|]; [|reflexivity].
    destruct (Nat.eqb_spec g (gen s n)); [lia|reflexivity].
  - intros m H. rewrite repl_step_gen in H. destruct (Nat.eqb_spec m n) as [Q|]; [now left|congruence].
Qed.

Lemma rep_visit : forall fuel node s s', rep fuel node s = Some s' -> inv s ->
  reach node \/ node = leaf ->
  inv s' /\ mono s s' /\ keeps node s s' /\ (forall m, vis node m -> ~ In root (cur s' m)).
Proof.
  induction fuel as [|f IH]; intros node s s' E I RE; [discriminate|].
  destruct (Nat.eq_dec node leaf) as [->|NL].
  { pose proof (leaf_cur root leaf d node0 leaf_nodeps s I) as EL.
    pose proof (rep_nil _ _ _ _ _ _ _ EL E) as ->.
    splits; [assumption|apply mrefl|apply keeps_refl|].
    intros m V. apply vis_empty in V; [|assumption]. subst m. rewrite EL. tauto. }
  destruct RE as [RE|]; [|contradiction].
  cbn [replace_output_leaf_nodes] in E. cbv zeta in E.
  set (g := gen s node) in E.
  assert (STEP : forall x s1 s3, rep f x s1 = Some s3 -> inv s1 -> In x (d node) \/ x = leaf ->
     inv s3 /\ mono s1 s3 /\ keeps node s1 s3 /\ gen s3 node = gen s1 node
     /\ (forall m, vis x m -> ~ In root (cur s3 m))).
  { intros x s1 s3 E3 I1 Hx.
    destruct (Nat.eq_dec x leaf) as [->|XL].
    - pose proof (leaf_cur root leaf d node0 leaf_nodeps s1 I1) as EL.
      pose proof (rep_nil _ _ _ _ _ _ _ EL E3) as ->.
      splits; [assumption|apply mrefl|apply keeps_refl|reflexivity|].
      intros m V. apply vis_empty in V; [|assumption]. subst m. rewrite EL. tauto.
    - destruct Hx as [Hx|]; [|contradiction].
      destruct (IH x s1 s3 E3 I1) as (I3 & M3 & K3 & V3).
      { left. now apply (reach_step root d node0 node). }
      splits; auto.
      + apply keeps_below with x; auto.
      + destruct (Nat.eq_dec (gen s3 node) (gen s1 node)) as [Q|Q]; [assumption|]. exfalso.
        destruct (proj2 K3 node Q) as [->|D]; [apply (acy x); now constructor|].
        apply (acy node). now apply dep_step with x. }
  (* the loop once [root] has been found *)
  assert (LOOP2 : forall k i s1 s2, replace_loop O root leaf (rep f) node g k i s1 = Some s2 ->
    inv s1 -> g < gen s1 node ->
    inv s2 /\ mono s1 s2 /\ keeps node s1 s2
    /\ (forall j x, i <= j -> nth_error (heap s1 node g) j = Some x ->
          forall m, vis x m -> ~ In root (cur s2 m))).
  { induction k as [|k IHk]; intros i s1 s2 E1 I1 G1; cbn [replace_loop] in E1;
      destruct (nth_error (heap s1 node g) i) as [x|] eqn:Ex; try discriminate.
    1,3: injection E1 as <-; splits; [assumption|apply mrefl|apply keeps_refl|];
      intros j x L Q; exfalso; apply nth_error_None in Ex;
      assert (nth_error (heap s1 node g) j <> None) as W by congruence;
      apply nth_error_Some in W; lia.
    cbv zeta in E1.
    destruct (element_ok root leaf d leaf_root node0 s1 node g i x I1 ltac:(lia) Ex) as [Hx Hg].
    destruct (Nat.eqb_spec x root) as [->|Hxr]; [specialize (Hg eq_refl); lia|].
    destruct (rep f x s1) as [s3|] eqn:E3; [|discriminate].
    destruct (STEP x s1 s3 E3 I1 Hx) as (I3 & M3 & K3 & GN & V3).
    destruct (IHk _ _ _ E1 I3 ltac:(lia)) as (I4 & M4 & K4 & V4).
    splits; [assumption|now apply mtrans with s3| |].
    - apply keeps_trans with s3; auto. apply M3.
    - intros j y L Q m V. assert (i = j \/ S i <= j) as [<-|L'] by lia.
      + apply (stay s3 s2 m M4). apply V3. congruence.
      + apply (V4 j y L'); [|assumption]. rewrite (proj1 K3 node g G1). assumption. }
  (* the loop before *)
  assert (LOOP1 : forall k i s1 s2, replace_loop O root leaf (rep f) node g k i s1 = Some s2 ->
    inv s1 -> gen s1 node = g ->
    inv s2 /\ mono s1 s2 /\ keeps node s1 s2
    /\ (forall j x, i <= j -> nth_error (cur s1 node) j = Some x -> x <> root ->
          ~ follows root x (cur s1 node) ->
          forall m, vis x m -> ~ In root (cur s2 m))
    /\ ((forall j, j < i -> nth_error (cur s1 node) j <> Some root) -> ~ In root (cur s2 node))).
  { induction k as [|k IHk]; intros i s1 s2 E1 I1 G1; cbn [replace_loop] in E1;
      destruct (nth_error (heap s1 node g) i) as [x|] eqn:Ex; try discriminate.
    1,3: injection E1 as <-; splits; [assumption|apply mrefl|apply keeps_refl| |];
      [ intros j x L Q; exfalso; apply nth_error_None in Ex;
        assert (nth_error (cur s1 node) j <> None) as W by congruence;
        apply nth_error_Some in W; unfold cur in W; rewrite G1 in W; lia
      | intros A H; apply In_nth_error in H; destruct H as [j H]; apply (A j); [|assumption];
        apply nth_error_None in Ex;
        assert (nth_error (cur s1 node) j <> None) as W by congruence;
        apply nth_error_Some in W; unfold cur in W; rewrite G1 in W; lia ].
    cbv zeta in E1.
    assert (EC : cur s1 node = heap s1 node g) by (unfold cur; now rewrite G1).
    destruct (element_ok root leaf d leaf_root node0 s1 node g i x I1 ltac:(lia) Ex) as [Hx _].
    destruct (Nat.eqb_spec x root) as [->|Hxr].
    - rewrite <- EC in Ex. pose proof (nth_error_In _ _ Ex) as Hr.
      change (append_dependency_node O (remove_dependency_node s1 node root) node leaf)
        with (repl_step O root leaf s1 node) in E1.
      destruct (repl_mono O root leaf d N node0 simple fin leaf_root s1 node I1 RE Hr) as (I2 & M2 & L2).
      destruct (rep f root _) as [s3|] eqn:E3; [|discriminate].
      pose proof (rep_nil _ _ _ _ _ _ _ (root_cur root leaf d node0 root_nodeps _ I2) E3) as ->.
      destruct (LOOP2 _ _ _ _ E1 I2 ltac:(lia)) as (I4 & M4 & K4 & V4).
      splits; [assumption|now apply mtrans with (repl_step O root leaf s1 node)| | |].
      + apply keeps_trans with (repl_step O root leaf s1 node); auto; [apply M2|apply keeps_repl].
      + intros j y L Q Hy NF m V.
        assert (j = i \/ j = S i \/ S (S i) <= j) as [->|[->|L']] by lia; [congruence| |].
        { exfalso. apply NF. now apply nth_follows with i. }
        apply (V4 (pred j) y ltac:(lia)); [|assumption].
        rewrite repl_step_heap by lia. rewrite Nat.eqb_refl, G1, Nat.eqb_refl. cbn [andb].
        unfold newlist. rewrite nth_error_app1.
        * rewrite (remove_first_nth root _ i j); [assumption| |assumption|lia].
          apply (cur_nodup root leaf d simple node0 s1 node I1).
        * assert (nth_error (cur s1 node) j <> None) as W by congruence.
          apply nth_error_Some in W. pose proof (remove_first_length root _ Hr). lia.
      + intros _. apply (stay _ _ _ M4). apply (m_new _ _ _ _ _ M2 node L2).
    - destruct (rep f x s1) as [s3|] eqn:E3; [|discriminate].
      destruct (STEP x s1 s3 E3 I1 Hx) as (I3 & M3 & K3 & GN & V3).
      destruct (IHk _ _ _ E1 I3 ltac:(lia)) as (I4 & M4 & K4 & V4 & R4).
      pose proof (m_same _ _ _ _ _ M3 node ltac:(lia)) as ES. rewrite ES in V4, R4.
      splits; [assumption|now apply mtrans with s3| | |].
      + apply keeps_trans with s3; auto. apply M3.
      + intros j y L Q Hy NF m V. assert (i = j \/ S i <= j) as [<-|L'] by lia.
        * apply (stay s3 s2 m M4). apply V3. rewrite <- EC in Ex. congruence.
        * now apply (V4 j y L').
      + intros A. apply R4. intros j L. assert (j < i \/ j = i) as [L'| ->] by lia; [auto|].
        rewrite EC, Ex. congruence. }
  destruct (LOOP1 _ _ _ _ E I eq_refl) as (I2 & M2 & K2 & V2 & R2).
  assert (R : ~ In root (cur s' node)) by (apply R2; intros j L; lia).
  splits; [assumption|assumption|assumption|].
  intros m V. inversion V as [|n x m' Hx Hr NF V']; subst; [assumption|].
  destruct (i_cur _ _ _ _ _ I node) as [EC|(_ & _ & _ & EC)].
  - rewrite EC in V2. destruct (In_nth_error _ _ Hx) as [j Hj].
    apply (V2 j x ltac:(lia) Hj Hr NF m V').
  - assert (Hx' : In x (cur s node)) by (apply EC; left; split; assumption).
    destruct (In_nth_error _ _ Hx') as [j Hj].
    apply (V2 j x ltac:(lia) Hj Hr); [|assumption].
    intros F. apply follows_nth in F. destruct F as (i & F & _). apply nth_error_In in F.
    apply EC in F. destruct F as [[_ F]|F]; congruence.
Qed.

(** * Nothing else is changed when the nodes leading to [root] are used once *)
Hypothesis once : used_once d root.

Definition below (x m : nat) : Prop := m = x \/ dep_on d x m.

Lemma below_step x w m : below x w -> In m (d w) -> dep_on d x m.
Proof.
  intros [->|D] H; [now constructor|]. eapply dep_on_trans; [exact D|now constructor].
Qed.

Lemma one_chain y m : below y m -> forall x, dep_on d m root -> below x m ->
  below x y \/ below y x.
Proof.
  intros BY x RM BX. destruct BX as [->|DX]; [now right|].
  assert (G : forall u v, dep_on d u v -> dep_on d v root -> below y v -> below u y \/ below y u).
  { induction 1 as [u v H|u w v H D IH]; intros R B.
    - destruct B as [->|B]; [left; right; now constructor|].
      destruct (dep_on_last _ _ _ B) as (w & W & H'). rewrite (once u w v H H' R). right.
      destruct W as [->|W]; [now left|now right].
    - assert (RW : dep_on d w root) by (eapply dep_on_trans; eassumption).
      destruct (IH R B) as [Q|Q].
      + left. right. destruct Q as [->|Q]; [now constructor|now apply dep_step with w].
      + destruct Q as [->|Q]; [left; right; now constructor|].
        destruct (dep_on_last _ _ _ Q) as (w' & W & H'). rewrite (once u w' w H H' RW). right.
        destruct W as [->|W]; [now left|now right]. }
  exact (G x m DX RM BY).
Qed.

Lemma apart node x y m : In x (d node) -> In y (d node) -> x <> y -> dep_on d m root ->
  below x m -> below y m -> False.
Proof.
  assert (G : forall x y, In x (d node) -> In y (d node) -> x <> y -> dep_on d y root -> below x y -> False).
  { intros x' y' Hx Hy Q R [B|B]; [congruence|].
    destruct (dep_on_last _ _ _ B) as (w & W & H). pose proof (once _ _ _ H Hy R) as ->.
    apply (acy node). apply dep_step with x'; [assumption|].
    destruct W as [W|W]; [|assumption]. exfalso. subst. apply (acy x'). now constructor. }
  intros Hx Hy Q R Bx By.
  assert (RX : forall z, below z m -> dep_on d z root).
  { intros z [->|D]; [assumption|]. eapply dep_on_trans; eassumption. }
  destruct (one_chain y m By x R Bx) as [B|B].
  - exact (G x y Hx Hy Q (RX y By) B).
  - exact (G y x Hy Hx (fun E => Q (eq_sym E)) (RX x Bx) B).
Qed.

Lemma fresh_step node x y s1 s3 : inv s1 -> reach x -> In x (d node) -> In y (d node) -> y <> x ->
  mono s1 s3 -> keeps x s1 s3 ->
  (forall m, below y m -> cur s1 m = d m) -> forall m, below y m -> cur s3 m = d m.
Proof.
  intros I RX Hx Hy Q M K FR m B. rewrite <- (FR m B).
  destruct (Nat.eq_dec (gen s3 m) (gen s1 m)) as [EG|NG]; [now apply (m_same _ _ _ _ _ M)|].
  exfalso. pose proof (m_gen _ _ _ _ _ M m).
  destruct (m_new _ _ _ _ _ M m ltac:(lia)) as [HR _].
  apply (apart node x y m Hx Hy); auto.
  - now constructor.
  - exact (proj2 K m NG).
Qed.

Lemma rep_only : forall fuel node s s', rep fuel node s = Some s' -> inv s -> reach node ->
  (forall m, below node m -> cur s m = d m) ->
  forall m, gen s' m <> gen s m -> vis node m.
Proof.
  induction fuel as [|f IH]; intros node s s' E I RE FR; [discriminate|].
  cbn [replace_output_leaf_nodes] in E. cbv zeta in E.
  set (g := gen s node) in E.
  assert (NB : forall x, In x (d node) -> below x node -> False).
  { intros x Hx [B|B].
    - subst x. apply (acy node). now constructor.
    - apply (acy node). now apply dep_step with x. }
  assert (LEAF : forall s1 s3, inv s1 -> rep f leaf s1 = Some s3 -> s3 = s1).
  { intros s1 s3 I1 E3.
    exact (rep_nil _ _ _ _ _ _ _ (leaf_cur root leaf d node0 leaf_nodeps s1 I1) E3). }
  (* the loop once [root] has been found *)
  assert (LOOP2 : forall k i s1 s2, replace_loop O root leaf (rep f) node g k i s1 = Some s2 ->
    inv s1 -> g < gen s1 node -> NoDup (heap s1 node g) ->
    (forall j x, i <= j -> nth_error (heap s1 node g) j = Some x ->
       x = leaf \/ (In x (d node) /\ x <> root /\ ~ follows root x (d node)
                    /\ forall m, below x m -> cur s1 m = d m)) ->
    forall m, gen s2 m <> gen s1 m -> vis node m).
  { induction k as [|k IHk]; intros i s1 s2 E1 I1 G1 ND FR1; cbn [replace_loop] in E1;
      destruct (nth_error (heap s1 node g) i) as [x|] eqn:Ex; try discriminate.
    1,3: injection E1 as <-; intros m H; congruence.
    cbv zeta in E1.
    destruct (element_ok root leaf d leaf_root node0 s1 node g i x I1 ltac:(lia) Ex) as [_ Hg].
    destruct (Nat.eqb_spec x root) as [->|Hxr]; [specialize (Hg eq_refl); lia|].
    destruct (rep f x s1) as [s3|] eqn:E3; [|discriminate].
    destruct (FR1 i x (le_n _) Ex) as [->|(Hx & _ & NF & FX)].
    { pose proof (LEAF _ _ I1 E3) as ->. apply (IHk _ _ _ E1 I1 G1 ND).
      intros j y L. apply FR1. lia. }
    assert (RX : reach x) by now apply (reach_step root d node0 node).
    destruct (rep_visit f x s1 s3 E3 I1 (or_introl RX)) as (I3 & M3 & K3 & _).
    pose proof (m_gen _ _ _ _ _ M3 node) as GN.
    pose proof (proj1 K3 node g G1) as EH.
    assert (IN : forall m, gen s2 m <> gen s3 m -> vis node m).
    { apply (IHk _ _ _ E1 I3 ltac:(lia)); rewrite EH; [assumption|].
      intros j y L Hy. destruct (FR1 j y ltac:(lia) Hy) as [->|(Q1 & Q2 & Q3 & Q4)]; [now left|].
      right. splits; auto.
      apply (fresh_step node x y s1 s3); auto.
      intros ->. pose proof (nodup_nth _ _ _ _ ND Ex Hy). lia. }
    intros m H. destruct (Nat.eq_dec (gen s3 m) (gen s1 m)) as [EG|NG]; [apply IN; congruence|].
    apply v_next with x; auto. apply (IH x s1 s3 E3 I1 RX FX m NG). }
  assert (LOOP1 : forall k i s1 s2, replace_loop O root leaf (rep f) node g k i s1 = Some s2 ->
    inv s1 -> gen s1 node = g -> cur s1 node = d node ->
    (forall j, j < i -> nth_error (d node) j <> Some root) ->
    (forall j x, i <= j -> nth_error (d node) j = Some x -> forall m, below x m -> cur s1 m = d m) ->
    forall m, gen s2 m <> gen s1 m -> vis node m).
  { induction k as [|k IHk]; intros i s1 s2 E1 I1 G1 C1 NR1 FR1; cbn [replace_loop] in E1;
      destruct (nth_error (heap s1 node g) i) as [x|] eqn:Ex; try discriminate.
    1,3: injection E1 as <-; intros m H; congruence.
    cbv zeta in E1.
    assert (EC : heap s1 node g = d node) by (rewrite <- C1; unfold cur; now rewrite G1).
    rewrite EC in Ex. pose proof (nth_error_In _ _ Ex) as Hx.
    destruct (Nat.eqb_spec x root) as [->|Hxr].
    - change (append_dependency_node O (remove_dependency_node s1 node root) node leaf)
        with (repl_step O root leaf s1 node) in E1.
      assert (Hr : In root (cur s1 node)) by now rewrite C1.
      destruct (repl_mono O root leaf d N node0 simple fin leaf_root s1 node I1 RE Hr) as (I2 & M2 & L2).
      destruct (rep f root _) as [s3|] eqn:E3; [|discriminate].
      pose proof (rep_nil _ _ _ _ _ _ _ (root_cur root leaf d node0 root_nodeps _ I2) E3) as ->.
      assert (EH : heap (repl_step O root leaf s1 node) node g = remove_first root (d node) ++ [leaf]).
      { rewrite repl_step_heap by lia. rewrite Nat.eqb_refl, G1, Nat.eqb_refl. cbn [andb].
        unfold newlist. now rewrite C1. }
      pose proof (remove_first_length root _ Hx) as LEN.
      assert (IN : forall m, gen s2 m <> gen (repl_step O root leaf s1 node) m -> vis node m).
      { apply (LOOP2 _ _ _ _ E1 I2 ltac:(lia)); rewrite EH.
        - apply NoDup_app_intro_one.
          + apply remove_first_nodup. apply simple.
          + intros H. apply remove_first_In in H; [|apply simple]. apply (leaf_fresh node). tauto.
        - intros j y L Hy. destruct (Nat.lt_ge_cases j (length (remove_first root (d node)))) as [Lj|Lj].
          + right. rewrite nth_error_app1 in Hy by assumption.
            change j with (pred (S j)) in Hy.
            rewrite (remove_first_nth root _ i (S j) (simple node) Ex ltac:(lia)) in Hy.
            assert (Hy' : In y (d node)) by now apply nth_error_In in Hy.
            splits; auto.
            * intros ->. pose proof (nodup_nth _ _ _ _ (simple node) Ex Hy). lia.
            * intros F. apply follows_nth in F. destruct F as (i' & F1 & F2).
              pose proof (nodup_nth _ _ _ _ (simple node) Ex F1).
              pose proof (nodup_nth _ _ _ _ (simple node) Hy F2). lia.
            * intros m B. rewrite repl_step_cur. destruct (Nat.eqb_spec m node) as [Q|Q].
              -- exfalso. rewrite Q in B. exact (NB y Hy' B).
              -- apply (FR1 (S j) y ltac:(lia) Hy m B).
          + left. rewrite nth_error_app2 in Hy by assumption.
            destruct (j - length (remove_first root (d node))) as [|t]; [now injection Hy|].
            destruct t; discriminate. }
      intros m H. destruct (Nat.eq_dec (gen (repl_step O root leaf s1 node) m) (gen s1 m)) as [EG|NG].
      + apply IN. congruence.
      + rewrite repl_step_gen in NG. destruct (Nat.eqb_spec m node) as [Q|Q]; [|congruence].
        rewrite Q. constructor.
    - destruct (rep f x s1) as [s3|] eqn:E3; [|discriminate].
      assert (RX : reach x) by now apply (reach_step root d node0 node).
      destruct (rep_visit f x s1 s3 E3 I1 (or_introl RX)) as (I3 & M3 & K3 & _).
      assert (GN : gen s3 node = gen s1 node).
      { destruct (Nat.eq_dec (gen s3 node) (gen s1 node)) as [Q|Q]; [assumption|]. exfalso.
        exact (NB x Hx (proj2 K3 node Q)). }
      assert (IN : forall m, gen s2 m <> gen s3 m -> vis node m).
      { apply (IHk _ _ _ E1 I3 ltac:(lia)).
        - rewrite (m_same _ _ _ _ _ M3 node GN). assumption.
        - intros j L. assert (j < i \/ j = i) as [L'| ->] by lia; [auto|]. rewrite Ex. congruence.
        - intros j y L Hy. apply (fresh_step node x y s1 s3); auto.
          + now apply nth_error_In in Hy.
          + intros ->. pose proof (nodup_nth _ _ _ _ (simple node) Ex Hy). lia.
          + apply (FR1 j y ltac:(lia) Hy). }
      intros m H. destruct (Nat.eq_dec (gen s3 m) (gen s1 m)) as [EG|NG]; [apply IN; congruence|].
      apply v_next with x; auto.
      + intros F. apply follows_nth in F. destruct F as (i' & F1 & F2).
        pose proof (nodup_nth _ _ _ _ (simple node) Ex F2). subst i. apply (NR1 i'); [lia|assumption].
      + apply (IH x s1 s3 E3 I1 RX (FR1 i x (le_n _) Ex) m NG). }
  intros m H. apply (LOOP1 _ _ _ _ E I eq_refl (FR node (or_introl eq_refl))) with (m := m) in H.
  - assumption.
  - intros j L. lia.
  - intros j x _ Hj m' B. apply FR. right. apply nth_error_In in Hj.
    destruct B as [->|B]; [now constructor|now apply dep_step with x].
Qed.
End Visit.

(** What define_residual does to the dependency lists, for every acyclic graph. *)
Theorem residual_graph_visited O out residual leaf d N t :
  finite_graph N d -> simple_graph d -> acyclic d -> d out = [] ->
  out < N -> residual < N -> N <= leaf ->
  exists d', (exists F, forall fuel, F <= fuel -> residual_graph O fuel out residual leaf d t = Some d')
    /\ (forall m, visited d out residual m ->
          forall v, In v (d' m) <-> (v <> out /\ In v (d m)) \/ (v = leaf /\ In out (d m)))
    /\ (used_once d out -> forall m, ~ visited d out residual m -> d' m = d m).
Proof.
  intros FIN SIM AC RO LO LR LL.
  assert (LF : forall u, ~ In leaf (d u)) by (intros u H; apply FIN in H; lia).
  assert (LN : d leaf = []).
  { destruct (d leaf) as [|x l] eqn:E; [reflexivity|]. exfalso.
    assert (In x (d leaf)) as H by (rewrite E; now left). apply FIN in H. lia. }
  assert (AC' : acyclic (no_root out d)).
  { intros n D. apply (AC n). revert D. apply dep_on_mono. intros u v H. constructor.
    now apply no_root_in in H. }
  assert (FIN' : forall u v, In v (d u) -> u < N) by (intros u v H; now apply (FIN u v)).
  assert (LO' : leaf <> out) by lia.
  destruct (replace_spec O out leaf d N residual t FIN SIM AC' LF LN LO')
    as (s' & (F & EF) & I & _).
  pose proof (lstart_inv out leaf d residual t) as I0.
  assert (RR : reach out d residual residual) by (left; reflexivity).
  destruct (rep_visit O out leaf d N residual SIM FIN' LN LO' RO AC F residual _ _
              (EF F (le_n _)) I0 (or_introl RR)) as (_ & M & _ & V).
  exists (cur s'). splits.
  - exists F. intros fuel L. unfold residual_graph. now rewrite EF.
  - intros m Hm v. specialize (V m Hm).
    destruct (i_cur _ _ _ _ _ I m) as [E|(_ & HR & _ & E)].
    + rewrite E in V. rewrite E. split; [intros H; left; split; [congruence|assumption]|].
      intros [[_ H]|[_ H]]; [assumption|contradiction].
    + rewrite E. intuition.
  - intros ON m NV.
    destruct (Nat.eq_dec (gen s' m) (gen (lstart d t) m)) as [EG|NG].
    + exact (m_same _ _ _ _ _ M m EG).
    + exfalso. apply NV.
      exact (rep_only O out leaf d N residual SIM FIN' LF LN LO' RO AC ON F residual _ _
               (EF F (le_n _)) I0 RR (fun m' _ => eq_refl) m NG).
Qed.

(** 1 = f(2, out, 3, 4) and each of 2, 3, 4 uses out: 3, listed after out, keeps it. *)
Definition four (n : nat) : list nat := nth n [[]; [2; 0; 3; 4]; [0]; [0]; [0]] [].

Lemma four_in u v : In v (four u) ->
  (u = 1 /\ (v = 2 \/ v = 0 \/ v = 3 \/ v = 4)) \/ (v = 0 /\ (u = 2 \/ u = 3 \/ u = 4)).
Proof.
  destruct u as [|[|[|[|[|u]]]]]; cbn; intros H; [contradiction|lia..|].
  destruct u; contradiction.
Qed.

Lemma four_dep u v : dep_on four u v -> v < u \/ u = 1.
Proof.
  induction 1 as [u v H|u w v H D IH]; apply four_in in H; lia.
Qed.

Lemma four_case : finite_graph 5 four /\ simple_graph four /\ acyclic four /\ four 0 = []
  /\ used_once four 0
  /\ visited four 0 1 1 /\ visited four 0 1 2 /\ visited four 0 1 4 /\ ~ visited four 0 1 3
  /\ forall fuel, 10 <= fuel -> exists d', residual_graph nodup_oracle fuel 0 1 5 four 0 = Some d'
       /\ map d' [1; 2; 3; 4] = [[2; 3; 4; 5]; [5]; [0]; [5]].
Proof.
  assert (NF : forall x, In x (four 1) -> x <> 3 -> ~ follows 0 x (four 1)).
  { intros x Hx Q F. apply follows_nth in F. destruct F as ([|[|[|[|i]]]] & A & B); try discriminate.
    cbn in B. congruence. }
  splits.
  - intros u v H. apply four_in in H. lia.
  - intros u. destruct u as [|[|[|[|[|u]]]]]; cbn; repeat constructor; cbn; try lia.
    destruct u; constructor.
  - intros n D. destruct (dep_on_last _ _ _ D) as (w & _ & H). apply four_in in H.
    apply four_dep in D. lia.
  - reflexivity.
  - intros u u' v H H' D. apply four_in in H. apply four_in in H'.
    destruct H as [[? ?]|[-> H]]; [|exfalso; inversion D as [? ? Q|? ? ? Q]; exact Q].
    destruct H' as [[? ?]|[? ?]]; [lia|]. subst v.
    exfalso. inversion D as [? ? Q|? ? ? Q]; exact Q.
  - constructor.
  - apply v_next with 2; [cbn; auto|lia|apply NF; cbn; lia|constructor].
  - apply v_next with 4; [cbn; auto|lia|apply NF; cbn; lia|constructor].
  - intros V. inversion V as [|n x m Hx Q F V']; subst. apply four_in in Hx.
    destruct Hx as [[_ Hx]|[? _]]; [|contradiction].
    assert (x = 3) as ->.
    { destruct Hx as [->|[->|[->| ->]]]; try reflexivity; try contradiction;
        inversion V' as [|n y m Hy Qy Fy Vy]; subst; apply four_in in Hy; lia. }
    apply F. now exists [2], [4].
  - intros fuel L. do 10 (destruct fuel as [|fuel]; [lia|]).
    eexists. split; [reflexivity|]. reflexivity.
Qed.
