(** Proofs about [replace_output_leaf_nodes]. *)
From Verif Require Import PyBase SpecGraph GraphLemmas Replace.

Lemma remove_first_In x l y : NoDup l -> (In y (remove_first x l) <-> In y l /\ y <> x).
Proof.
  induction 1 as [|z l N ND IH]; simpl; [tauto|].
  destruct (Nat.eqb_spec z x) as [->|Hz].
  - split; [intros H; split; [now right|intros ->; contradiction]|intros [[H|H] H2]; congruence].
  - simpl. rewrite IH. split; [intros [->|[H H2]]; auto|intros [[H|H] H2]; auto].
Qed.
Lemma remove_first_nodup x l : NoDup l -> NoDup (remove_first x l).
Proof.
  induction 1 as [|z l N ND IH]; simpl; [constructor|].
  destruct (Nat.eqb_spec z x); [assumption|]. constructor; [|assumption].
  intros H. apply remove_first_In in H; tauto.
Qed.
Lemma remove_first_length x l : In x l -> S (length (remove_first x l)) = length l.
Proof.
  induction l as [|z l IH]; intros H; [contradiction|]. simpl.
  destruct (Nat.eqb_spec z x) as [->|Hz]; [reflexivity|]. simpl. f_equal.
  apply IH. destruct H; [congruence|assumption].
Qed.

Section R.
Variable O : oracle.
Variables (root leaf : nat) (d : nat -> list nat) (rank : nat -> nat) (N : nat).
Hypothesis simple : simple_graph d.
Hypothesis fin : forall u v, In v (d u) -> u < N.
Hypothesis ranked0 : forall u v, In v (d u) -> v <> root -> rank v < rank u.
Hypothesis leaf_fresh : forall u, ~ In leaf (d u).
Hypothesis leaf_nodeps : d leaf = [].
Hypothesis leaf_root : leaf <> root.

Notation rep := (replace_output_leaf_nodes O root leaf).

(** Nodes the traversal may modify. *)
Variable node0 : nat.
Definition reach (m : nat) : Prop := m = node0 \/ dep_on d node0 m \/ m = root \/ dep_on d root m.

Definition replaced (m : nat) (l : list nat) : Prop :=
  NoDup l /\ (forall v, In v l <-> (In v (d m) /\ v <> root) \/ v = leaf).

Record inv (s : lstate) : Prop := {
  i_cur : forall m, cur s m = d m \/ (reach m /\ In root (d m) /\ replaced m (cur s m));
  i_old : forall m g, g < gen s m -> ~ In root (heap s m g)
            /\ (forall v, In v (heap s m g) -> In v (d m) \/ v = leaf)
}.

(** Number of nodes that still depend on the output object. *)
Definition users (s : lstate) : nat :=
  length (filter (fun m => mem root (cur s m)) (seq 0 N)).

(** What a call may do to the list objects that exist. *)
Record step_rel (s s' : lstate) : Prop := {
  r_gen : forall m, gen s m <= gen s' m;
  r_len : forall m g, g <= gen s m -> length (heap s' m g) = length (heap s m g);
  r_users : users s' <= users s;
  r_tick : ltick s <= ltick s';
  r_same : ltick s' = ltick s -> s' = s
}.

Lemma step_refl s : step_rel s s.
Proof. constructor; auto. Qed.
Lemma step_trans a b c : step_rel a b -> step_rel b c -> step_rel a c.
Proof.
  intros [A1 A2 A3 A4 A5] [B1 B2 B3 B4 B5]. constructor.
  - intros m. specialize (A1 m). specialize (B1 m). lia.
  - intros m g L. rewrite B2 by (specialize (A1 m); lia). auto.
  - lia.
  - lia.
  - intros E. rewrite B5 by lia. apply A5. assert (ltick b = ltick a) by lia. assumption.
Qed.

Lemma cur_nodup s m : inv s -> NoDup (cur s m).
Proof. intros [I _]. destruct (I m) as [->|(_ & _ & R & _)]; [apply simple|exact R]. Qed.

Definition repl_step (s : lstate) (n : nat) :=
  append_dependency_node O (remove_dependency_node s n root) n leaf.

Lemma set_heap_same h n g l : set_heap h n g l n g = l.
Proof. unfold set_heap. rewrite Nat.eqb_refl. apply upd_same. Qed.
Lemma set_heap_other h n g l m k : m <> n \/ k <> g -> set_heap h n g l m k = h m k.
Proof.
  intros H. unfold set_heap. destruct (Nat.eqb_spec m n) as [->|]; [|reflexivity].
  apply upd_other. intuition.
Qed.

Definition newlist (s : lstate) (n : nat) := remove_first root (cur s n) ++ [leaf].

Lemma repl_step_cur s n m :
  cur (repl_step s n) m = if Nat.eqb m n then O (ltick s) (newlist s n) else cur s m.
Proof.
  unfold repl_step, append_dependency_node, remove_dependency_node, newlist, cur at 1. simpl.
  destruct (Nat.eqb_spec m n) as [->|H].
  - rewrite upd_same, set_heap_same. unfold cur. simpl. rewrite set_heap_same. reflexivity.
  - rewrite upd_other by assumption. rewrite !set_heap_other by auto. reflexivity.
Qed.

Lemma repl_step_heap s n m g : g <= gen s m ->
  heap (repl_step s n) m g = if Nat.eqb m n && Nat.eqb g (gen s n) then newlist s n else heap s m g.
Proof.
  intros L. unfold repl_step, append_dependency_node, remove_dependency_node, newlist, cur. simpl.
  destruct (Nat.eqb_spec m n) as [->|H]; simpl.
  - rewrite set_heap_other by lia.
    destruct (Nat.eqb_spec g (gen s n)) as [->|H].
    + rewrite set_heap_same. rewrite set_heap_same. reflexivity.
    + rewrite set_heap_other by lia. rewrite set_heap_other by lia. reflexivity.
  - rewrite !set_heap_other by auto. reflexivity.
Qed.

Lemma repl_step_gen s n m : gen (repl_step s n) m = if Nat.eqb m n then S (gen s n) else gen s m.
Proof. unfold repl_step. simpl. unfold upd. reflexivity. Qed.

Lemma newlist_in s n : inv s -> In root (cur s n) ->
  forall v, In v (newlist s n) <-> (In v (d n) /\ v <> root) \/ v = leaf.
Proof.
  intros I R v. unfold newlist. rewrite in_app_iff, remove_first_In by (now apply cur_nodup).
  destruct (i_cur s I n) as [->|(_ & _ & _ & E)].
  - simpl. intuition.
  - apply E in R. destruct R as [[_ R]|R]; [congruence|]. symmetry in R. contradiction.
Qed.

Lemma repl_step_inv s n : inv s -> reach n -> In root (cur s n) ->
  inv (repl_step s n) /\ step_rel s (repl_step s n) /\ users (repl_step s n) < users s
  /\ ltick (repl_step s n) = S (ltick s).
Proof.
  intros I Rn Hr.
  assert (Hd : In root (d n)).
  { destruct (i_cur s I n) as [E|(_ & H & _)]; [now rewrite <- E|assumption]. }
  assert (U : users (repl_step s n) < users s).
  { unfold users.
    assert (n < N) by (apply (fin n root Hd)).
    assert (Hn : In n (seq 0 N)) by (apply in_seq; lia).
    assert (G : forall l, (forall m, In m l -> m <> n) ->
      filter (fun m => mem root (cur (repl_step s n) m)) l = filter (fun m => mem root (cur s m)) l).
    { induction l as [|a l IH]; intros H'; cbn [filter]; [reflexivity|].
      rewrite repl_step_cur. destruct (Nat.eqb_spec a n) as [->|_].
      - exfalso. apply (H' n); [now left|reflexivity].
      - rewrite IH; [reflexivity|]. intros m Hm. apply H'. now right. }
    apply in_split in Hn. destruct Hn as (l1 & l2 & E).
    pose proof (seq_NoDup N 0) as ND. rewrite E in ND.
    rewrite E, !filter_app. cbn [filter].
    assert (mem root (cur s n) = true) as -> by now apply mem_In.
    assert (mem root (cur (repl_step s n) n) = false) as ->.
    { apply not_true_is_false. intros M. apply mem_In in M. rewrite repl_step_cur, Nat.eqb_refl in M.
      apply ord_in, (newlist_in s n I Hr) in M. destruct M as [[_ M]|M]; congruence. }
    apply NoDup_remove in ND. destruct ND as [_ ND].
    rewrite !G; [|intros m Hm ->; apply ND, in_app_iff; auto|intros m Hm ->; apply ND, in_app_iff; auto].
    rewrite !app_length. simpl. lia. }
  splits.
  - constructor.
    + intros m. rewrite repl_step_cur. destruct (Nat.eqb_spec m n) as [->|H]; [|apply (i_cur s I)].
      right. split; [assumption|]. split; [assumption|]. split; [apply ord_nodup|].
      intros v. rewrite ord_in. now apply newlist_in.
    + intros m g L. rewrite repl_step_gen in L.
      destruct (Nat.eqb_spec m n) as [->|H].
      * rewrite repl_step_heap by lia. rewrite Nat.eqb_refl. simpl.
        destruct (Nat.eqb_spec g (gen s n)) as [->|H].
        -- split; [intros Hin; apply (newlist_in s n I Hr) in Hin; destruct Hin as [[_ M]|M]; congruence|].
           intros v Hv. apply (newlist_in s n I Hr) in Hv. tauto.
        -- apply (i_old s I). lia.
      * rewrite repl_step_heap by lia. destruct (Nat.eqb_spec m n); [contradiction|]. simpl.
        now apply (i_old s I).
  - constructor.
    + intros m. rewrite repl_step_gen. destruct (Nat.eqb_spec m n) as [->|]; lia.
    + intros m g L. rewrite repl_step_heap by assumption.
      destruct (Nat.eqb_spec m n) as [->|]; [|reflexivity].
      destruct (Nat.eqb_spec g (gen s n)) as [->|]; [|reflexivity]. simpl.
      unfold newlist. rewrite app_length. simpl.
      pose proof (remove_first_length root (cur s n) Hr). unfold cur in *. lia.
    + lia.
    + unfold repl_step. simpl. lia.
    + unfold repl_step. simpl. lia.
  - exact U.
  - reflexivity.
Qed.

(** Elements met while iterating over a list object of node [m]. *)
Lemma element_ok s m g i x : inv s -> g <= gen s m -> nth_error (heap s m g) i = Some x ->
  (In x (d m) \/ x = leaf) /\ (x = root -> g = gen s m).
Proof.
  intros I L E. apply nth_error_In in E.
  assert (g < gen s m \/ g = gen s m) as [H| ->] by lia.
  - destruct (i_old s I m g H) as [A B]. split; [now apply B|]. intros ->. contradiction.
  - split; [|reflexivity]. change (In x (cur s m)) in E.
    destruct (i_cur s I m) as [H|(_ & _ & _ & H)]; [rewrite H in E; auto|apply H in E; tauto].
Qed.

Lemma reach_step m x : reach m -> In x (d m) -> reach x.
Proof.
  unfold reach. intros [->|[H|[->|H]]] Hx.
  - right; left. now constructor.
  - right; left. eapply dep_on_trans; [exact H|now constructor].
  - right; right; right. now constructor.
  - right; right; right. eapply dep_on_trans; [exact H|now constructor].
Qed.

(** * Partial correctness *)
Lemma rep_inv : forall fuel node s s', rep fuel node s = Some s' -> inv s ->
  reach node \/ node = leaf -> inv s' /\ (forall m, gen s m <= gen s' m).
Proof.
  induction fuel as [|f IH]; intros node s s' E I RE; [discriminate|].
  cbn [replace_output_leaf_nodes] in E. cbv zeta in E.
  assert (LOOP : forall k i s1 s2 g, replace_loop O root leaf (rep f) node g k i s1 = Some s2 ->
    inv s1 -> g <= gen s1 node -> inv s2 /\ (forall m, gen s1 m <= gen s2 m)).
  { induction k as [|k IHk]; intros i s1 s2 g E1 I1 G1; cbn [replace_loop] in E1;
      destruct (nth_error (heap s1 node g) i) as [x|] eqn:Ex; try discriminate.
    1,3: injection E1 as <-; auto.
    cbv zeta in E1.
    destruct (element_ok s1 node g i x I1 G1 Ex) as [Hx Hg].
    assert (NL : node = leaf -> x = leaf).
    { intros ->. rewrite leaf_nodeps in Hx. destruct Hx as [[]|]; assumption. }
    destruct (Nat.eqb_spec x root) as [->|Hxr].
    - specialize (Hg eq_refl). rewrite Hg in Ex. apply nth_error_In in Ex.
      assert (Rn : reach node) by (destruct RE as [|RE]; [assumption|apply NL in RE; congruence]).
      change (append_dependency_node O (remove_dependency_node s1 node root) node leaf)
        with (repl_step s1 node) in E1.
      destruct (repl_step_inv s1 node I1 Rn Ex) as (I2 & S2 & _).
      destruct (rep f root _) as [s3|] eqn:E3; [|discriminate].
      destruct (IH _ _ _ E3 I2) as [I3 G3]; [left; unfold reach; auto|].
      destruct (IHk _ _ _ _ E1 I3) as [I4 G4].
      { pose proof (r_gen _ _ S2 node). specialize (G3 node). lia. }
      split; [assumption|]. intros m. pose proof (r_gen _ _ S2 m). specialize (G3 m). specialize (G4 m). lia.
    - destruct (rep f x s1) as [s3|] eqn:E3; [|discriminate].
      destruct (IH _ _ _ E3 I1) as [I3 G3].
      { destruct Hx as [Hx|Hx]; [|auto]. destruct RE as [RE|RE]; [left; now apply (reach_step node)|auto]. }
      destruct (IHk _ _ _ _ E1 I3) as [I4 G4]; [specialize (G3 node); lia|].
      split; [assumption|]. intros m. specialize (G3 m). specialize (G4 m). lia. }
  exact (LOOP _ _ _ _ _ E I (le_n _)).
Qed.

(** * Termination *)
Variable R : nat.
Hypothesis rank_R : forall u, rank u <= R.
Hypothesis rank_leaf : rank leaf = 0.

Lemma rep_terminates : forall fuel E r node s,
  inv s -> users s <= E -> rank node <= r -> reach node \/ node = leaf ->
  E * (R + 1) + r + 2 <= fuel ->
  exists s', rep fuel node s = Some s' /\ inv s' /\ step_rel s s'.
Proof.
  induction fuel as [|f IH]; intros E r node s I UE RN RE F; [lia|].
  cbn [replace_output_leaf_nodes]. set (g := gen s node).
  assert (G : g <= gen s node) by (unfold g; lia).
  (* generalise the loop *)
  assert (LOOP : forall k i s1, inv s1 -> step_rel s s1 -> length (heap s node g) <= i + k ->
    exists s', replace_loop O root leaf (rep f) node g k i s1 = Some s' /\ inv s' /\ step_rel s s').
  { induction k as [|k IHk]; intros i s1 I1 S1 L; cbn [replace_loop].
    - assert (nth_error (heap s1 node g) i = None) as ->.
      { apply nth_error_None. rewrite (r_len _ _ S1 node g G). lia. }
      eauto.
    - destruct (nth_error (heap s1 node g) i) as [x|] eqn:Ex; [|eauto].
      assert (G1 : g <= gen s1 node) by (pose proof (r_gen _ _ S1 node); lia).
      destruct (element_ok _ _ _ _ _ I1 G1 Ex) as [Hx Hg].
      assert (U1 : users s1 <= E) by (pose proof (r_users _ _ S1); lia).
      assert (NL : node <> leaf \/ x = leaf).
      { destruct (Nat.eq_dec node leaf) as [->|]; [|auto]. rewrite leaf_nodeps in Hx. destruct Hx; auto. }
      destruct (Nat.eqb_spec x root) as [->|Hxr].
      + (* the use is replaced *)
        specialize (Hg eq_refl). rewrite Hg in Ex. apply nth_error_In in Ex.
        assert (reach node) as Rn.
        { destruct RE as [?|Hl]; [assumption|]. destruct NL as [NL|NL]; congruence. }
        destruct (repl_step_inv s1 node I1 Rn Ex) as (I2 & S2 & U2 & T2).
        fold (repl_step s1 node).
        destruct (IH (E - 1) R root (repl_step s1 node)) as (s3 & E3 & I3 & S3); auto.
        * lia.
        * left. unfold reach. auto.
        * assert (1 <= E) by lia. nia.
        * rewrite E3. apply IHk; auto; [|lia].
          eapply step_trans; [exact S1|]. eapply step_trans; [exact S2|exact S3].
      + assert (rank x <= r - 1 /\ (1 <= r \/ x = leaf) /\ (reach x \/ x = leaf)) as (Q1 & Q2 & Q3).
        { destruct Hx as [Hx| ->].
          - pose proof (ranked0 node x Hx Hxr). splits; [lia|left; lia|].
            left. destruct RE as [RE| ->]; [now apply (reach_step node)|].
            rewrite leaf_nodeps in Hx. contradiction.
          - splits; auto. lia. }
        destruct (Nat.eq_dec x leaf) as [->|Hl].
        * (* leaf has no dependencies *)
          assert (cur s1 leaf = []) as CL.
          { destruct (i_cur s1 I1 leaf) as [->|(_ & H & _)]; [assumption|]. rewrite leaf_nodeps in H. contradiction. }
          assert (EF : rep f leaf s1 = Some s1).
          { destruct f as [|f']; [lia|]. unfold cur in CL. cbn [replace_output_leaf_nodes].
            cbv zeta. rewrite CL at 1. cbn [length replace_loop]. rewrite CL. reflexivity. }
          rewrite EF. apply IHk; auto. lia.
        * destruct (IH E (r - 1) x s1) as (s3 & E3 & I3 & S3); auto.
          -- destruct Q2 as [Q2|]; [lia|contradiction].
          -- rewrite E3. apply IHk; auto; [|lia]. eapply step_trans; eassumption. }
  destruct (LOOP (length (heap s node g)) 0 s I (step_refl s) ltac:(lia)) as (s' & E' & I' & S').
  exists s'. splits; assumption.
Qed.

End R.

(** * Completeness of the replacement *)
Section Clean.
Variable O : oracle.
Variables (root leaf : nat).
Notation rep := (replace_output_leaf_nodes O root leaf).

(** [clean s n]: neither [n] nor anything it depends on uses the output object. *)
Definition clean (s : lstate) (n : nat) : Prop :=
  forall m, m = n \/ dep_on (cur s) n m -> ~ In root (cur s m).

(** A call that changes nothing has looked at everything. *)
Lemma rep_unchanged : forall fuel node s s', rep fuel node s = Some s' ->
  ltick s <= ltick s' /\ (ltick s' = ltick s -> s' = s /\ clean s node).
Proof.
  induction fuel as [|f IH]; intros node s s' E; [discriminate|].
  cbn [replace_output_leaf_nodes] in E. cbv zeta in E.
  assert (LOOP : forall k i s1 s2 g, replace_loop O root leaf (rep f) node g k i s1 = Some s2 ->
    ltick s1 <= ltick s2 /\ (ltick s2 = ltick s1 -> s2 = s1 /\
      forall j x, i <= j -> nth_error (heap s1 node g) j = Some x -> x <> root /\ clean s1 x)).
  { induction k as [|k IHk]; intros i s1 s2 g E1; cbn [replace_loop] in E1;
      destruct (nth_error (heap s1 node g) i) as [x|] eqn:Ex; try discriminate.
    1,3: injection E1 as <-; split; [lia|]; intros _; split; [reflexivity|]; intros j x Hj Hx;
         apply nth_error_None in Ex; assert (nth_error (heap s1 node g) j <> None) by congruence;
         apply nth_error_Some in H; lia.
    cbv zeta in E1.
    destruct (rep f x _) as [s3|] eqn:E3; [|discriminate].
    destruct (IH _ _ _ E3) as [T3 U3]. destruct (IHk _ _ _ _ E1) as [T4 U4].
    destruct (Nat.eqb_spec x root) as [->|Hx].
    - cbn [ltick append_dependency_node remove_dependency_node] in T3. split; [lia|]. lia.
    - split; [lia|]. intros T. assert (ltick s3 = ltick s1) as T' by lia.
      destruct (U3 T') as [-> C]. destruct (U4 ltac:(lia)) as [-> Q]. split; [reflexivity|].
      intros j y Hj Hy. assert (j = i \/ S i <= j) as [->|H] by lia.
      + replace y with x by congruence. auto.
      + eauto. }
  destruct (LOOP _ _ _ _ _ E) as [T Q]. split; [exact T|]. intros T'. destruct (Q T') as [-> C].
  split; [reflexivity|]. intros m [->|D].
  - intros H. apply In_nth_error in H. destruct H as [j H]. destruct (C j root ltac:(lia) H). congruence.
  - inversion D as [? ? H|? w ? H D']; subst.
    + apply In_nth_error in H. destruct H as [j H]. destruct (C j m ltac:(lia) H) as [_ Q'].
      apply Q'. now left.
    + apply In_nth_error in H. destruct H as [j H]. destruct (C j w ltac:(lia) H) as [_ Q'].
      apply Q'. now right.
Qed.

(** After the last replacement the output itself was traversed once more. *)
Lemma rep_clean : forall fuel node s s', rep fuel node s = Some s' ->
  ltick s' = ltick s \/ clean s' root.
Proof.
  induction fuel as [|f IH]; intros node s s' E; [discriminate|].
  cbn [replace_output_leaf_nodes] in E. cbv zeta in E.
  assert (LOOP : forall k i s1 s2 g, replace_loop O root leaf (rep f) node g k i s1 = Some s2 ->
    (ltick s2 = ltick s1 /\ s2 = s1) \/ clean s2 root).
  { induction k as [|k IHk]; intros i s1 s2 g E1; cbn [replace_loop] in E1;
      destruct (nth_error (heap s1 node g) i) as [x|] eqn:Ex; try discriminate.
    1,3: injection E1 as <-; auto.
    cbv zeta in E1.
    destruct (rep f x _) as [s3|] eqn:E3; [|discriminate].
    destruct (rep_unchanged _ _ _ _ E3) as [T3 U3].
    assert (C3 : s3 = s1 \/ clean s3 root).
    { destruct (Nat.eqb_spec x root) as [->|Hx].
      - destruct (IH _ _ _ E3) as [T|C]; [|auto]. destruct (U3 T) as [-> C]. auto.
      - destruct (IH _ _ _ E3) as [T|C]; [|auto]. destruct (U3 T) as [-> C]. auto. }
    destruct (IHk _ _ _ _ E1) as [[T ->]|C]; [|auto].
    destruct C3 as [->|C3]; auto. }
  destruct (LOOP _ _ _ _ _ E) as [[T _]|C]; auto.
Qed.
End Clean.

Lemma replace_loop_mono O root leaf rec rec' node g :
  (forall x s r, rec x s = Some r -> rec' x s = Some r) ->
  forall k i s r, replace_loop O root leaf rec node g k i s = Some r ->
                  replace_loop O root leaf rec' node g k i s = Some r.
Proof.
  intros H. induction k as [|k IH]; intros i s r E; cbn [replace_loop] in *;
    destruct (nth_error _ _); auto.
  cbv zeta in *. destruct (rec _ _) as [s'|] eqn:E1; [|discriminate].
  rewrite (H _ _ _ E1). now apply IH.
Qed.
Lemma replace_mono O root leaf : forall fuel node s r,
  replace_output_leaf_nodes O root leaf fuel node s = Some r ->
  forall fuel', fuel <= fuel' -> replace_output_leaf_nodes O root leaf fuel' node s = Some r.
Proof.
  induction fuel as [|f IH]; intros node s r E fuel' L; [discriminate|].
  destruct fuel' as [|f']; [lia|]. cbn [replace_output_leaf_nodes] in *. cbv zeta in *.
  eapply replace_loop_mono; [|exact E]. intros x s1 r1 E1. apply (IH _ _ _ E1). lia.
Qed.

(** Starting state. *)
Lemma lstart_inv root leaf d node0 t : inv root leaf d node0 (lstart d t).
Proof.
  constructor; simpl.
  - intros m. now left.
  - intros m g L. lia.
Qed.

Definition no_root (root : nat) (d : nat -> list nat) (n : nat) : list nat :=
  filter (fun v => negb (Nat.eqb v root)) (d n).

Lemma no_root_in root d n v : In v (no_root root d n) <-> In v (d n) /\ v <> root.
Proof.
  unfold no_root. rewrite filter_In, negb_true_iff, Nat.eqb_neq. reflexivity.
Qed.

(** The part of the graph below [root] that avoids edges into [root] is not
    affected by the replacement. *)
Lemma reach_avoid root d m : dep_on d root m -> m = root \/ dep_on (no_root root d) root m.
Proof.
  intros D.
  assert (G : forall u v, dep_on d u v -> v = root \/ dep_on (no_root root d) root v \/ dep_on (no_root root d) u v).
  { induction 1 as [u v H|u w v H D' IH].
    - destruct (Nat.eq_dec v root); [auto|]. right; right. constructor. now apply no_root_in.
    - destruct IH as [|[|IH]]; auto. destruct (Nat.eq_dec w root) as [->|Hw]; [auto|].
      right; right. apply dep_step with w; [now apply no_root_in|assumption]. }
  destruct (G _ _ D) as [|[|]]; auto.
Qed.

Theorem replace_spec O root leaf d N node t :
  finite_graph N d -> simple_graph d -> acyclic (no_root root d) ->
  (forall u, ~ In leaf (d u)) -> d leaf = [] -> leaf <> root ->
  exists s', (exists F, forall fuel, F <= fuel ->
                replace_output_leaf_nodes O root leaf fuel node (lstart d t) = Some s')
    /\ inv root leaf d node s'
    /\ (s' = lstart d t /\ clean root s' node \/ clean root s' root).
Proof.
  intros FIN SIM AC LF LN LR.
  assert (FIN' : finite_graph N (no_root root d)).
  { intros u v H. apply no_root_in in H. now apply FIN. }
  pose proof (finite_acyclic_ranked N _ FIN' AC) as RK.
  set (rank := height (no_root root d) N) in RK.
  assert (HR : forall u, rank u <= N).
  { intros u. unfold rank. destruct (height_walk (no_root root d) N u) as (l & W & <-).
    exact (walk_length N _ u l FIN' AC W). }
  assert (RL : rank leaf = 0).
  { unfold rank. destruct (height_walk (no_root root d) N leaf) as (l & W & <-).
    destruct W as [|? v l H]; [reflexivity|]. apply no_root_in in H. rewrite LN in H.
    destruct H as [[] _]. }
  assert (R0 : forall u v, In v (d u) -> v <> root -> rank v < rank u).
  { intros u v H1 H2. apply RK. now apply no_root_in. }
  assert (F0 : forall u v, In v (d u) -> u < N) by (intros u v H; now apply (FIN u v)).
  pose proof (rep_terminates O root leaf d rank N SIM F0 R0 LN LR node N HR RL) as T.
  set (E := users root N (lstart d t)) in *.
  set (F := E * (N + 1) + N + 2).
  destruct (T F E N node (lstart d t) (lstart_inv _ _ _ _ _) (le_n _) (HR node)
              (or_introl (or_introl eq_refl)) (le_n _)) as (s' & E' & I' & S').
  exists s'. splits.
  - exists F. intros fuel L.
    exact (replace_mono _ _ _ _ _ _ _ E' _ L).
  - exact I'.
  - pose proof E' as Q. apply rep_clean in Q. destruct Q as [Q|Q]; [|now right].
    apply rep_unchanged in E'. destruct E' as [_ E']. destruct (E' Q) as [-> C]. left. auto.
Qed.

(** * define *)
Lemma keep_edges root leaf d node s u v : inv root leaf d node s ->
  dep_on (no_root root d) u v -> dep_on (cur s) u v.
Proof.
  intros I. apply dep_on_mono. intros m w H. constructor. apply no_root_in in H.
  destruct (i_cur _ _ _ _ _ I m) as [->|(_ & _ & _ & E)]; [tauto|]. apply E. now left.
Qed.

Theorem define_graph_partial O out expr leaf d N t fuel d' :
  finite_graph N d -> simple_graph d -> expr <> out ->
  expr < N -> out < N -> N <= leaf ->
  define_graph O fuel out expr leaf d t = Some d' ->
  (forall m, m = out \/ m = expr \/ dep_on d out m \/ dep_on d expr m ->
          forall v, In v (d' m) <->
            (v <> out /\ (In v (d m) \/ m = out /\ v = expr)) \/ (v = leaf /\ In out (d m)))
    /\ (forall m, m <> out -> m <> expr -> ~ dep_on d out m -> ~ dep_on d expr m -> d' m = d m)
    /\ simple_graph d' /\ finite_graph (S leaf) d' /\ (acyclic d -> acyclic d').
Proof.
  intros FIN SIM NE LE LO LL.
  set (d1 := upd d out (O t (d out ++ [expr]))).
  assert (D1 : forall m v, In v (d1 m) <-> In v (d m) \/ m = out /\ v = expr).
  { intros m v. unfold d1, upd. destruct (Nat.eqb_spec m out) as [->|H].
    - rewrite ord_in, in_app_iff. simpl. intuition.
    - intuition. }
  assert (FIN1 : finite_graph N d1).
  { intros u v H. apply D1 in H. destruct H as [H|[-> ->]]; [now apply FIN|lia]. }
  assert (SIM1 : simple_graph d1).
  { intros m. unfold d1, upd. destruct (Nat.eqb_spec m out); [apply ord_nodup|apply SIM]. }
  assert (AC1 : acyclic d -> acyclic (no_root out d1)).
  { assert (G : forall u v, dep_on (no_root out d1) u v -> u <> out -> v <> out /\ dep_on d u v).
    { induction 1 as [u v H|u w v H D IH]; intros Hu.
      - apply no_root_in in H. destruct H as [H Hv]. split; [assumption|].
        apply D1 in H. destruct H as [H|[? _]]; [now constructor|contradiction].
      - apply no_root_in in H. destruct H as [H Hw]. destruct (IH Hw) as [Hv Dv].
        split; [assumption|]. apply D1 in H.
        destruct H as [H|[? _]]; [now apply dep_step with w|contradiction]. }
    intros AC n D. destruct (Nat.eq_dec n out) as [->|Hn].
    - destruct (dep_on_last _ _ _ D) as (w & _ & H). apply no_root_in in H. tauto.
    - destruct (G n n D Hn) as [_ D']. exact (AC n D'). }
  assert (LF : forall u, ~ In leaf (d1 u)).
  { intros u H. apply FIN1 in H. lia. }
  assert (LN : d1 leaf = []).
  { destruct (d1 leaf) as [|x l] eqn:E; [reflexivity|]. exfalso.
    assert (In x (d1 leaf)) as H by (rewrite E; now left). apply FIN1 in H. lia. }
  unfold define_graph. fold d1.
  destruct (replace_output_leaf_nodes O out leaf fuel out (lstart d1 (S t))) as [s'|] eqn:EF;
    [|discriminate]. intros ED. injection ED as <-.
  assert (F1 : forall u v, In v (d1 u) -> u < N) by (intros u v H; now apply (FIN1 u v)).
  destruct (rep_inv O out leaf d1 N SIM1 F1 LN ltac:(lia) out _ _ _ _ EF (lstart_inv _ _ _ _ _)
             (or_introl (or_introl eq_refl))) as [I _].
  assert (CL : clean out s' out).
  { pose proof EF as Q. apply rep_clean in Q. destruct Q as [Q|Q]; [|assumption].
    apply rep_unchanged in EF. destruct EF as [_ EF]. destruct (EF Q) as [-> C]. assumption. }
  assert (RE : forall m, m = out \/ m = expr \/ dep_on d out m \/ dep_on d expr m ->
            m = out \/ dep_on d1 out m).
  { assert (MO : forall u v, dep_on d u v -> dep_on d1 u v).
    { intros u v. apply dep_on_mono. intros a b H. constructor. apply D1. auto. }
    assert (In expr (d1 out)) as HE by (apply D1; auto).
    intros m [->|[->|[H|H]]]; [auto| | |]; right.
    - now constructor.
    - now apply MO.
    - apply dep_step with expr; auto. }
  assert (ER : forall m, dep_on d1 out m -> m = out \/ m = expr \/ dep_on d out m \/ dep_on d expr m).
  { assert (G : forall u v, dep_on d1 u v -> dep_on d u v \/ v = expr \/ dep_on d expr v).
    { induction 1 as [u v H|u w v H D IH].
      - apply D1 in H. destruct H as [H|[_ ->]]; [left; now constructor|auto].
      - destruct IH as [IH|IH]; [|auto]. apply D1 in H. destruct H as [H|[_ ->]]; [|auto].
        left. now apply dep_step with w. }
    intros m D. destruct (G _ _ D) as [H|[H|H]]; auto. }
  assert (SP : forall m, m = out \/ dep_on d1 out m -> forall v,
      In v (cur s' m) <-> (v <> out /\ In v (d1 m)) \/ (v = leaf /\ In out (d1 m))).
  { intros m Hm.
    assert (NR : ~ In out (cur s' m)).
    { apply CL. destruct Hm as [->|Hm]; [auto|]. apply reach_avoid in Hm.
      destruct Hm as [->|Hm]; [auto|]. right. exact (keep_edges _ _ _ _ _ _ _ I Hm). }
    intros v. destruct (i_cur _ _ _ _ _ I m) as [E|(_ & HR & _ & E)].
    - rewrite E in NR. rewrite E. split; [intros H; left; split; [congruence|assumption]|].
      intros [[_ H]|[_ H]]; [assumption|contradiction].
    - rewrite E. intuition. }
  splits.
  - intros m Hm v. rewrite (SP m (RE m Hm)). rewrite !D1.
    assert (~ (m = out /\ out = expr)) by intuition. tauto.
  - intros m H1 H2 H3 H4. destruct (i_cur _ _ _ _ _ I m) as [E|(H & _)].
    + rewrite E. unfold d1. now apply upd_other.
    + exfalso. unfold reach in H.
      assert (m = out \/ dep_on d1 out m) as [?|H'] by tauto; [contradiction|].
      destruct (ER m H') as [|[|[|]]]; contradiction.
  - intros m. destruct (i_cur _ _ _ _ _ I m) as [->|(_ & _ & H & _)]; [apply SIM1|exact H].
  - intros u v H. destruct (i_cur _ _ _ _ _ I u) as [E|(_ & HR & _ & E)].
    + rewrite E in H. apply FIN1 in H. lia.
    + apply FIN1 in HR. apply E in H. destruct H as [[H _]| ->]; [apply FIN1 in H|]; lia.
  - intros AC. specialize (AC1 AC).
    assert (SUB : forall u v, In v (cur s' u) -> v <> out -> v = leaf \/ In v (no_root out d1 u)).
    { intros u v H Hv. destruct (i_cur _ _ _ _ _ I u) as [E|(_ & _ & _ & E)].
      - rewrite E in H. right. now apply no_root_in.
      - apply E in H. destruct H as [H|H]; [right; now apply no_root_in|auto]. }
    assert (LC : cur s' leaf = []).
    { destruct (i_cur _ _ _ _ _ I leaf) as [E|(_ & H & _)]; [congruence|]. rewrite LN in H. contradiction. }
    assert (LD : forall v, ~ dep_on (cur s') leaf v).
    { intros v D. inversion D as [? ? H|? w ? H]; subst; rewrite LC in H; contradiction. }
    assert (OO : ~ dep_on (cur s') out out).
    { intros D. destruct (dep_on_last _ _ _ D) as (w & Hw & H). revert H. apply CL. tauto. }
    assert (G : forall u v, dep_on (cur s') u v ->
       v = leaf \/ dep_on (no_root out d1) u v \/ (v = out \/ dep_on (cur s') out v) /\ (dep_on (cur s') u out)).
    { induction 1 as [u v H|u w v H D IH].
      - destruct (Nat.eq_dec v out) as [->|Hv]; [right; right; split; [auto|now constructor]|].
        destruct (SUB u v H Hv); [auto|]. right; left. now constructor.
      - destruct (Nat.eq_dec w out) as [->|Hw]; [right; right; split; [auto|now constructor]|].
        destruct IH as [IH|[IH|[IH1 IH2]]]; [auto| |].
        + destruct (SUB u w H Hw) as [->|H']; [destruct (LD _ D)|].
          right; left. now apply dep_step with w.
        + right; right. split; [assumption|]. now apply dep_step with w. }
    intros n D. destruct (G n n D) as [->|[H|[[->|H1] H2]]].
    + exact (LD _ D).
    + exact (AC1 _ H).
    + exact (OO H2).
    + apply OO. exact (dep_on_trans _ _ _ _ H1 H2).
Qed.

Theorem define_graph_spec O out expr leaf d N t :
  finite_graph N d -> simple_graph d -> acyclic d -> expr <> out ->
  expr < N -> out < N -> N <= leaf ->
  exists d', (exists F, forall fuel, F <= fuel -> define_graph O fuel out expr leaf d t = Some d')
    /\ (forall m, m = out \/ m = expr \/ dep_on d out m \/ dep_on d expr m ->
          forall v, In v (d' m) <->
            (v <> out /\ (In v (d m) \/ m = out /\ v = expr)) \/ (v = leaf /\ In out (d m)))
    /\ (forall m, m <> out -> m <> expr -> ~ dep_on d out m -> ~ dep_on d expr m -> d' m = d m)
    /\ simple_graph d' /\ acyclic d' /\ finite_graph (S leaf) d'.
Proof.
  intros FIN SIM AC NE LE LO LL.
  set (d1 := upd d out (O t (d out ++ [expr]))).
  assert (D1 : forall m v, In v (d1 m) <-> In v (d m) \/ m = out /\ v = expr).
  { intros m v. unfold d1, upd. destruct (Nat.eqb_spec m out) as [->|H].
    - rewrite ord_in, in_app_iff. simpl. intuition.
    - intuition. }
  assert (FIN1 : finite_graph N d1).
  { intros u v H. apply D1 in H. destruct H as [H|[-> ->]]; [now apply FIN|lia]. }
  assert (SIM1 : simple_graph d1).
  { intros m. unfold d1, upd. destruct (Nat.eqb_spec m out); [apply ord_nodup|apply SIM]. }
  assert (AC1 : acyclic (no_root out d1)).
  { assert (G : forall u v, dep_on (no_root out d1) u v -> u <> out -> v <> out /\ dep_on d u v).
    { induction 1 as [u v H|u w v H D IH]; intros Hu.
      - apply no_root_in in H. destruct H as [H Hv]. split; [assumption|].
        apply D1 in H. destruct H as [H|[? _]]; [now constructor|contradiction].
      - apply no_root_in in H. destruct H as [H Hw]. destruct (IH Hw) as [Hv Dv].
        split; [assumption|]. apply D1 in H.
        destruct H as [H|[? _]]; [now apply dep_step with w|contradiction]. }
    intros n D. destruct (Nat.eq_dec n out) as [->|Hn].
    - destruct (dep_on_last _ _ _ D) as (w & _ & H). apply no_root_in in H. tauto.
    - destruct (G n n D Hn) as [_ D']. exact (AC n D'). }
  assert (LF : forall u, ~ In leaf (d1 u)).
  { intros u H. apply FIN1 in H. lia. }
  assert (LN : d1 leaf = []).
  { destruct (d1 leaf) as [|x l] eqn:E; [reflexivity|]. exfalso.
    assert (In x (d1 leaf)) as H by (rewrite E; now left). apply FIN1 in H. lia. }
  destruct (replace_spec O out leaf d1 N out (S t) FIN1 SIM1 AC1 LF LN ltac:(lia))
    as (s' & (F & EF) & _).
  exists (cur s').
  assert (ED : forall fuel, F <= fuel -> define_graph O fuel out expr leaf d t = Some (cur s')).
  { intros fuel L. unfold define_graph. fold d1. now rewrite EF. }
  destruct (define_graph_partial O out expr leaf d N t F (cur s') FIN SIM NE LE LO LL (ED F (le_n _)))
    as (P1 & P2 & P3 & P4 & P5).
  splits; auto. now exists F.
Qed.

(** * define_residual *)
Section Residual.
Variable O : oracle.
Variables (root leaf : nat) (d : nat -> list nat) (N node0 : nat).
Hypothesis simple : simple_graph d.
Hypothesis fin : forall u v, In v (d u) -> u < N.
Hypothesis leaf_nodeps : d leaf = [].
Hypothesis leaf_root : leaf <> root.
Hypothesis root_nodeps : d root = [].
Hypothesis acy : acyclic d.
(** a node that uses the output directly does not also use it indirectly *)
Hypothesis single : forall m v, In root (d m) -> In v (d m) -> ~ dep_on d v root.

Notation rep := (replace_output_leaf_nodes O root leaf).
Notation inv := (inv root leaf d node0).
Notation reach := (reach root d node0).

Record mono (s s' : lstate) : Prop := {
  m_gen : forall m, gen s m <= gen s' m;
  m_same : forall m, gen s' m = gen s m -> cur s' m = cur s m;
  m_new : forall m, gen s m < gen s' m -> In root (d m) /\ ~ In root (cur s' m);
  m_sub : forall m v, In v (cur s' m) -> In v (cur s m) \/ v = leaf
}.

Lemma mono_refl s : mono s s.
Proof. constructor; auto. intros m L. lia. Qed.
Lemma mono_trans a b c : mono a b -> mono b c -> mono a c.
Proof.
  intros [A1 A2 A3 A4] [B1 B2 B3 B4]. constructor.
  - intros m. specialize (A1 m). specialize (B1 m). lia.
  - intros m E. pose proof (A1 m). pose proof (B1 m). rewrite B2 by lia. apply A2. lia.
  - intros m L. destruct (Nat.eq_dec (gen b m) (gen c m)) as [E|E].
    + destruct (A3 m ltac:(lia)) as [H1 H2]. rewrite B2 by lia. auto.
    + apply B3. pose proof (B1 m). lia.
  - intros m v H. apply B4 in H. destruct H as [H|H]; auto.
Qed.

Lemma inv_edge s m v : inv s -> In v (cur s m) -> In v (d m) \/ v = leaf.
Proof.
  intros I H. destruct (i_cur _ _ _ _ _ I m) as [E|(_ & _ & _ & E)].
  - rewrite E in H. auto.
  - apply E in H. tauto.
Qed.

Lemma leaf_cur s : inv s -> cur s leaf = [].
Proof.
  intros I. destruct (i_cur _ _ _ _ _ I leaf) as [->|(_ & H & _)]; [assumption|].
  rewrite leaf_nodeps in H. contradiction.
Qed.

Lemma inv_dep s u v : inv s -> dep_on (cur s) u v -> dep_on d u v \/ v = leaf.
Proof.
  intros I. induction 1 as [u v H|u w v H D IH].
  - apply (inv_edge s) in H; [|assumption]. destruct H; [left; now constructor|auto].
  - apply (inv_edge s) in H; [|assumption]. destruct H as [H| ->].
    + destruct IH as [IH|IH]; [|auto]. left. now apply dep_step with w.
    + exfalso. inversion D as [? ? H|? ? ? H]; subst; rewrite leaf_cur in H by assumption; contradiction.
Qed.

(** A node below which the output does not occur is clean in every state. *)
Lemma free_clean s x : inv s -> ~ dep_on d x root -> clean root s x.
Proof.
  intros I H m Hm Hr.
  assert (In root (d m)) as Hd.
  { apply (inv_edge s) in Hr; [|assumption]. destruct Hr as [|Hr]; [assumption|]. congruence. }
  apply H. destruct Hm as [->|Hm]; [now constructor|].
  apply (inv_dep s) in Hm; [|assumption]. destruct Hm as [Hm| ->].
  - apply dep_on_trans with m; [assumption|now constructor].
  - rewrite leaf_nodeps in Hd. contradiction.
Qed.

Lemma clean_mono s s' x : inv s -> mono s s' -> clean root s x -> clean root s' x.
Proof.
  intros I M C.
  assert (G : forall u v, dep_on (cur s') u v -> dep_on (cur s) u v \/ v = leaf \/ dep_on (cur s') leaf v).
  { induction 1 as [u v H|u w v H D IH].
    - apply (m_sub _ _ M) in H. destruct H as [H|H]; [left; now constructor|auto].
    - apply (m_sub _ _ M) in H. destruct H as [H| ->]; [|auto].
      destruct IH as [IH|[IH|IH]]; auto. left. now apply dep_step with w. }
  assert (L : cur s' leaf = []).
  { destruct (cur s' leaf) as [|y r] eqn:E; [reflexivity|].
    assert (H : In y (cur s' leaf)) by (rewrite E; now left).
    assert (gen s leaf < gen s' leaf \/ gen s' leaf = gen s leaf) as [Q|Q]
      by (pose proof (m_gen _ _ M leaf); lia).
    - apply (m_new _ _ M) in Q. rewrite leaf_nodeps in Q. destruct Q as [[] _].
    - rewrite (m_same _ _ M leaf Q), leaf_cur in H by assumption. contradiction. }
  intros m Hm Hr. assert (Hc : In root (cur s m)).
  { apply (m_sub _ _ M) in Hr. destruct Hr as [|Hr]; [assumption|congruence]. }
  destruct Hm as [->|Hm]; [exact (C x (or_introl eq_refl) Hc)|].
  apply G in Hm. destruct Hm as [Hm|[->|Hm]].
  - exact (C m (or_intror Hm) Hc).
  - rewrite L in Hr. contradiction.
  - inversion Hm as [? ? H|? ? ? H]; subst; rewrite L in H; contradiction.
Qed.

Lemma root_cur s : inv s -> cur s root = [].
Proof.
  intros I. destruct (i_cur _ _ _ _ _ I root) as [->|(_ & H & _)]; [assumption|].
  rewrite root_nodeps in H. contradiction.
Qed.

Lemma rep_nil fuel n s s' : cur s n = [] -> rep fuel n s = Some s' -> s' = s.
Proof.
  intros E H. destruct fuel as [|f]; [discriminate|]. unfold cur in E.
  cbn [replace_output_leaf_nodes] in H. cbv zeta in H. rewrite E in H at 1.
  cbn [length replace_loop] in H. rewrite E in H. now injection H.
Qed.

Lemma repl_mono s n : inv s -> reach n -> In root (cur s n) ->
  inv (repl_step O root leaf s n) /\ mono s (repl_step O root leaf s n)
  /\ gen s n < gen (repl_step O root leaf s n) n.
Proof.
  intros I R H.
  destruct (repl_step_inv O root leaf d N simple fin leaf_root node0 s n I R H) as (I2 & _).
  assert (Hd : In root (d n)).
  { apply (inv_edge s) in H; [|assumption]. destruct H as [|H]; [assumption|congruence]. }
  assert (NL : forall v, In v (newlist root leaf s n) <-> (In v (d n) /\ v <> root) \/ v = leaf).
  { intros v. now apply newlist_in with node0. }
  splits; [exact I2| |].
  - constructor.
    + intros m. rewrite repl_step_gen. destruct (Nat.eqb_spec m n) as [Q|Q]; [subst m|]; lia.
    + intros m E. rewrite repl_step_gen in E. rewrite repl_step_cur.
      destruct (Nat.eqb_spec m n) as [Q|Q]; [subst m; lia|reflexivity].
    + intros m L. rewrite repl_step_gen in L. rewrite repl_step_cur.
      destruct (Nat.eqb_spec m n) as [Q|Q]; [|lia]. subst m. split; [assumption|].
      rewrite ord_in, NL. intros [[_ Q]|Q]; congruence.
    + intros m v Hv. rewrite repl_step_cur in Hv.
      destruct (Nat.eqb_spec m n) as [Q|Q]; [|auto]. subst m.
      rewrite ord_in in Hv. unfold newlist in Hv. rewrite in_app_iff in Hv. simpl in Hv.
      destruct Hv as [Hv|[Hv|[]]]; [|auto]. left.
      apply remove_first_In in Hv; [tauto|]. eapply cur_nodup; eassumption.
  - rewrite repl_step_gen, Nat.eqb_refl. lia.
Qed.

Lemma rep_residual : forall fuel node s s', rep fuel node s = Some s' -> inv s ->
  reach node \/ node = leaf -> inv s' /\ mono s s' /\ clean root s' node.
Proof.
  induction fuel as [|f IH]; intros node s s' E I RE; [discriminate|].
  destruct (Nat.eq_dec node leaf) as [->|NL].
  { pose proof (rep_nil _ _ _ _ (leaf_cur s I) E) as ->. splits; [assumption|apply mono_refl|].
    apply free_clean; [assumption|]. intros D.
    inversion D as [? ? H|? ? ? H]; subst; rewrite leaf_nodeps in H; contradiction. }
  destruct RE as [RE|]; [|contradiction].
  cbn [replace_output_leaf_nodes] in E. cbv zeta in E.
  assert (LOOP : forall k i s1 s2 g, replace_loop O root leaf (rep f) node g k i s1 = Some s2 ->
    inv s1 -> g <= gen s1 node ->
    inv s2 /\ mono s1 s2 /\
    (gen s1 node = g -> (forall j x, j < i -> nth_error (cur s1 node) j = Some x -> x <> root /\ clean root s1 x) ->
       clean root s2 node)).
  { induction k as [|k IHk]; intros i s1 s2 g E1 I1 G1; cbn [replace_loop] in E1;
      destruct (nth_error (heap s1 node g) i) as [x|] eqn:Ex; try discriminate.
    1,3: injection E1 as <-; splits; [assumption|apply mono_refl|]; intros EG A m [->|D] H;
      [ apply In_nth_error in H; destruct H as [j H];
        assert (j < i) as L by (apply nth_error_None in Ex; assert (nth_error (cur s1 node) j <> None) as Q by congruence;
          apply nth_error_Some in Q; unfold cur in Q; rewrite EG in Q; lia);
        destruct (A j root L H); congruence
      | inversion D as [? ? Q|? w ? Q D']; subst; apply In_nth_error in Q; destruct Q as [j Q];
        (assert (j < i) as L by (apply nth_error_None in Ex; assert (nth_error (cur s1 node) j <> None) as Q' by congruence;
          apply nth_error_Some in Q'; unfold cur in Q'; lia));
        destruct (A j _ L Q) as [_ C]; revert H; apply C; auto ].
    cbv zeta in E1.
    destruct (element_ok root leaf d leaf_root node0 s1 node g i x I1 G1 Ex) as [Hx Hg].
    destruct (Nat.eqb_spec x root) as [->|Hxr].
    - specialize (Hg eq_refl). rewrite Hg in Ex. apply nth_error_In in Ex.
      change (append_dependency_node O (remove_dependency_node s1 node root) node leaf)
        with (repl_step O root leaf s1 node) in E1.
      destruct (repl_mono s1 node I1 RE Ex) as (I2 & M2 & L2).
      destruct (rep f root _) as [s3|] eqn:E3; [|discriminate].
      pose proof (rep_nil _ _ _ _ (root_cur _ I2) E3) as ->.
      destruct (IHk _ _ _ _ E1 I2 ltac:(lia)) as (I4 & M4 & _).
      splits; [assumption|now apply mono_trans with (repl_step O root leaf s1 node)|].
      intros _ _.
      assert (gen s1 node < gen s2 node) as LG by (pose proof (m_gen _ _ M4 node); lia).
      destruct (m_new _ _ (mono_trans _ _ _ M2 M4) node LG) as [Hd Hn].
      intros m [->|D]; [assumption|].
      inversion D as [? ? Q|? w ? Q D']; subst;
        (apply (inv_edge s2) in Q; [|assumption]; destruct Q as [Q| ->]).
      + apply (free_clean s2 m I4 (single node m Hd Q)). now left.
      + rewrite leaf_cur by assumption. tauto.
      + apply (free_clean s2 w I4 (single node w Hd Q)). now right.
      + inversion D' as [? ? H|? ? ? H]; subst; rewrite leaf_cur in H by assumption; contradiction.
    - destruct (rep f x s1) as [s3|] eqn:E3; [|discriminate].
      assert (RX : reach x \/ x = leaf).
      { destruct Hx as [Hx|Hx]; [left; now apply (reach_step root d node0 node)|auto]. }
      destruct (IH x s1 s3 E3 I1 RX) as (I3 & M3 & C3).
      destruct (IHk _ _ _ _ E1 I3 ltac:(pose proof (m_gen _ _ M3 node); lia)) as (I4 & M4 & C4).
      splits; [assumption|now apply mono_trans with s3|].
      intros EG A. destruct (Nat.eq_dec (gen s3 node) g) as [EG3|NG].
      + apply C4; [assumption|]. rewrite (m_same _ _ M3 node ltac:(lia)).
        intros j y Lj Hy. assert (j < i \/ j = i) as [L| ->] by lia.
        * destruct (A j y L Hy) as [Q1 Q2]. split; [assumption|]. now apply clean_mono with s1.
        * unfold cur in Hy. rewrite EG in Hy. replace y with x by congruence. auto.
      + (* the child call replaced a use in this very node *)
        assert (gen s1 node < gen s2 node) as LG
          by (pose proof (m_gen _ _ M3 node); pose proof (m_gen _ _ M4 node); lia).
        destruct (m_new _ _ (mono_trans _ _ _ M3 M4) node LG) as [Hd Hn].
        intros m [->|D]; [assumption|].
        inversion D as [? ? Q|? w ? Q D']; subst;
          (apply (inv_edge s2) in Q; [|assumption]; destruct Q as [Q| ->]).
        * apply (free_clean s2 m I4 (single node m Hd Q)). now left.
        * rewrite leaf_cur by assumption. tauto.
        * apply (free_clean s2 w I4 (single node w Hd Q)). now right.
        * inversion D' as [? ? H|? ? ? H]; subst; rewrite leaf_cur in H by assumption; contradiction. }
  destruct (LOOP _ _ _ _ _ E I (le_n _)) as (I2 & M2 & C2). splits; [assumption|assumption|].
  apply C2; [reflexivity|]. intros j x L. lia.
Qed.
End Residual.

Theorem residual_graph_single O out residual leaf d N t :
  finite_graph N d -> simple_graph d -> acyclic d -> d out = [] ->
  out < N -> residual < N -> N <= leaf ->
  (forall m v, In out (d m) -> In v (d m) -> ~ dep_on d v out) ->
  exists d', (exists F, forall fuel, F <= fuel -> residual_graph O fuel out residual leaf d t = Some d')
    /\ (forall m, m = residual \/ dep_on d' residual m -> ~ In out (d' m))
    /\ (forall m v, m = residual \/ dep_on d residual m ->
          In v (d' m) <-> (v <> out /\ In v (d m)) \/ (v = leaf /\ In out (d m)))
    /\ (forall m, m <> residual -> ~ dep_on d residual m -> d' m = d m).
Proof.
  intros FIN SIM AC RO LO LR LL SG.
  assert (LF : forall u, ~ In leaf (d u)) by (intros u H; apply FIN in H; lia).
  assert (LN : d leaf = []).
  { destruct (d leaf) as [|x l] eqn:E; [reflexivity|]. exfalso.
    assert (In x (d leaf)) as H by (rewrite E; now left). apply FIN in H. lia. }
  assert (AC' : acyclic (no_root out d)).
  { intros n D. apply (AC n). revert D. apply dep_on_mono. intros u v H. constructor.
    now apply no_root_in in H. }
  destruct (replace_spec O out leaf d N residual t FIN SIM AC' LF LN ltac:(lia))
    as (s' & (F & EF) & I & _).
  assert (CL : clean out s' residual).
  { refine (proj2 (proj2 (rep_residual O out leaf d N residual SIM _ LN ltac:(lia) RO SG _ _ _ _
             (EF F (le_n _)) (lstart_inv _ _ _ _ _) (or_introl (or_introl eq_refl))))).
    intros u v H. now apply (FIN u v). }
  exists (cur s'). splits.
  - exists F. intros fuel L. unfold residual_graph. now rewrite EF.
  - exact CL.
  - intros m v Hm.
    destruct (Nat.eq_dec m out) as [->|MO].
    { rewrite RO. rewrite (root_cur out leaf d residual RO s' I). simpl. tauto. }
    assert (NR : ~ In out (cur s' m)).
    { apply CL. destruct Hm as [->|Hm]; [auto|]. right.
      apply (keep_edges _ _ _ _ _ _ _ I).
      (* a path through out ends there *)
      clear -Hm RO MO. induction Hm as [u v H|u w v H D IH].
      - constructor. now apply no_root_in.
      - destruct (Nat.eq_dec w out) as [->|Hw].
        + inversion D as [? ? H'|? ? ? H']; subst; rewrite RO in H'; contradiction.
        + apply dep_step with w; [now apply no_root_in|auto]. }
    destruct (i_cur _ _ _ _ _ I m) as [E|(_ & HR & _ & E)].
    + rewrite E in NR. rewrite E. split; [intros H; left; split; [congruence|assumption]|].
      intros [[_ H]|[_ H]]; [assumption|contradiction].
    + rewrite E. intuition.
  - intros m H1 H2. destruct (i_cur _ _ _ _ _ I m) as [E|(H & HR & _)]; [assumption|].
    exfalso. unfold reach in H. destruct H as [H|[H|[->|H]]]; try contradiction.
    + rewrite RO in HR. contradiction.
    + inversion H as [? ? H'|? ? ? H']; subst; rewrite RO in H'; contradiction.
Qed.
