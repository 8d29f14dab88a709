(** remove_indirect_dependencies. *)
From Coq Require Import Sorted.
From Verif Require Import PyBase PySet PySetProofs SpecGraph GraphLemmas Graph.

(** * Removing listed positions in descending order *)
Lemma remove_first_in x l y : In y (remove_first x l) -> In y l.
Proof.
  induction l as [|z l IH]; simpl; [tauto|].
  destruct (Nat.eqb z x); simpl; intuition.
Qed.

Lemma remove_first_filter x l : NoDup l ->
  remove_first x l = filter (fun y => negb (Nat.eqb y x)) l.
Proof.
  induction 1 as [|z l Hz Hl IH]; simpl; [reflexivity|].
  destruct (Nat.eqb_spec z x) as [->|NE]; simpl; [|now rewrite IH].
  clear IH. induction l as [|w l IHl]; simpl; [reflexivity|].
  apply NoDup_cons_iff in Hl. destruct Hl as [Hw Hl].
  destruct (Nat.eqb_spec w x) as [->|NE]; simpl.
  - exfalso. apply Hz. now left.
  - rewrite <- IHl; [reflexivity| |assumption]. intros H. apply Hz. now right.
Qed.

Lemma remove_first_nth : forall l i x j, NoDup l -> nth_error l i = Some x -> j < i ->
  nth_error (remove_first x l) j = nth_error l j.
Proof.
  induction l as [|z l IH]; intros [|i] x j N H L; simpl in *; try lia; try discriminate.
  apply NoDup_cons_iff in N. destruct N as [Nz N].
  destruct (Nat.eqb_spec z x) as [->|NE].
  - exfalso. apply Nz. now apply nth_error_In with i.
  - destruct j as [|j]; [reflexivity|]. simpl. apply IH with i; auto. lia.
Qed.

Definition at_index (l : list nat) (x i : nat) : bool :=
  match nth_error l i with Some y => Nat.eqb x y | None => false end.

Lemma at_index_true l x i : at_index l x i = true <-> nth_error l i = Some x.
Proof.
  unfold at_index. destruct (nth_error l i) as [y|].
  - rewrite Nat.eqb_eq. split; [now intros ->|congruence].
  - split; discriminate.
Qed.

Lemma filter_filter {A} (p q : A -> bool) l :
  filter p (filter q l) = filter (fun x => q x && p x) l.
Proof.
  induction l as [|x l IH]; simpl; [reflexivity|].
  destruct (q x); simpl; [|assumption]. destruct (p x); now rewrite IH.
Qed.

Lemma filter_ext_in' {A} (p q : A -> bool) l :
  (forall x, In x l -> p x = q x) -> filter p l = filter q l.
Proof. apply filter_ext_in. Qed.

Lemma remove_descending l : NoDup l -> forall rem, StronglySorted lt rem ->
  (forall i, In i rem -> i < length l) ->
  let r := fold_right (fun i l => remove_dependency_by_index l i) l rem in
  r = filter (fun x => negb (existsb (at_index l x) rem)) l
  /\ forall j, (forall i, In i rem -> j < i) -> nth_error r j = nth_error l j.
Proof.
  intros N rem S. induction S as [|i rem S IH F]; intros B; cbn [fold_right].
  - split; [|reflexivity]. simpl. clear. induction l; simpl; congruence.
  - rewrite Forall_forall in F.
    destruct (IH (fun k H => B k (or_intror H))) as [E1 E2]. clear IH.
    set (r := fold_right (fun i l => remove_dependency_by_index l i) l rem) in *.
    assert (Nr : NoDup r) by (rewrite E1; now apply NoDup_filter).
    assert (Hi : nth_error r i = nth_error l i) by (apply E2; auto).
    destruct (nth_error l i) as [x|] eqn:Ex.
    2: { apply nth_error_None in Ex. specialize (B i (or_introl eq_refl)). lia. }
    unfold remove_dependency_by_index. rewrite Hi. split.
    + rewrite remove_first_filter by assumption. rewrite E1, filter_filter.
      apply filter_ext_in. intros y Hy. cbn [existsb].
      rewrite negb_orb, andb_comm. f_equal. unfold at_index. now rewrite Ex.
    + intros j Hj. rewrite remove_first_nth with (i := i); auto.
      * apply E2. intros k Hk. specialize (F k Hk). specialize (Hj i (or_introl eq_refl)). lia.
      * apply Hj. now left.
Qed.

(** * Indices found by the double loop *)
Lemma index_of_spec x l i : NoDup l -> (index_of x l = Some i <-> nth_error l i = Some x).
Proof.
  intros N. revert i. induction N as [|y l Hy N IH]; intros i; simpl.
  - destruct i; split; discriminate.
  - destruct (Nat.eqb_spec y x) as [->|NE].
    + destruct i as [|i]; simpl; [tauto|]. split; [discriminate|].
      intros H. exfalso. apply Hy. now apply nth_error_In with i.
    + destruct i as [|i]; simpl.
      * split; [|congruence]. destruct (index_of x l); discriminate.
      * rewrite <- IH. destruct (index_of x l) as [k|]; split; congruence.
Qed.

Lemma indirect_indices_spec d n i : NoDup (d n) ->
  (In i (indirect_indices d n) <->
   exists x c, nth_error (d n) i = Some x /\ In c (d n) /\ In x (d c)).
Proof.
  intros N. unfold indirect_indices. rewrite in_flat_map. split.
  - intros (c & Hc & H). apply in_flat_map in H. destruct H as (x & Hx & H).
    destruct (index_of x (d n)) as [k|] eqn:E; [|contradiction].
    destruct H as [->|[]]. apply index_of_spec in E; [|assumption]. now exists x, c.
  - intros (x & c & E & Hc & Hx). exists c. split; [assumption|].
    apply in_flat_map. exists x. split; [assumption|].
    apply index_of_spec in E; [|assumption]. rewrite E. now left.
Qed.

(** x is reached from n in two steps *)
Definition grandchild (d : nat -> list nat) (n x : nat) : bool :=
  existsb (fun c => mem x (d c)) (d n).

Lemma grandchild_spec d n x : grandchild d n x = true <-> exists c, In c (d n) /\ In x (d c).
Proof.
  unfold grandchild. rewrite existsb_exists. split; intros (c & H1 & H2); exists c.
  - now rewrite mem_In in H2.
  - now rewrite mem_In.
Qed.

Lemma sorted_nodup l : StronglySorted lt l -> NoDup l.
Proof.
  induction 1 as [|x l S IH F]; constructor; [|assumption].
  rewrite Forall_forall in F. intros H. specialize (F x H). lia.
Qed.

Section Prune.
Variable iset : list nat -> list nat.

(** the positions to remove are listed in ascending order *)
Definition listed (s : gstate) (n : nat) : Prop :=
  ascending_listing (iset (indirect_indices (deps s) n)) (indirect_indices (deps s) n).

Lemma narrow_listed B s n : iset_ok iset B -> NoDup (deps s n) -> length (deps s n) <= B -> listed s n.
Proof.
  intros IB N L. apply IB. intros i Hi. apply indirect_indices_spec in Hi; [|assumption].
  destruct Hi as (x & c & E & _). apply Nat.lt_le_trans with (length (deps s n)); [|assumption].
  apply nth_error_Some. congruence.
Qed.

(** General effect on one node (no acyclicity needed). *)
Lemma remove_indirect_general s n :
  NoDup (deps s n) -> listed s n ->
  let d := deps s in
  let l' := deps (remove_indirect_dependencies iset s n) n in
  (forallb (grandchild d n) (d n) = false -> l' = filter (fun x => negb (grandchild d n x)) (d n))
  /\ (forallb (grandchild d n) (d n) = true -> l' = firstn 1 (d n)).
Proof.
  intros N L d l'. unfold l', remove_indirect_dependencies. cbn [set_deps deps].
  rewrite upd_same. fold d. set (rem := iset (indirect_indices d n)).
  assert (HB : forall x, In x (indirect_indices d n) -> x < length (d n)).
  { intros i Hi. apply indirect_indices_spec in Hi; [|assumption].
    destruct Hi as (x & c & E & _). apply nth_error_Some. unfold d in *. congruence. }
  destruct L as [S E]. fold d in S, E.
  fold rem in S, E.
  assert (Hrem : forall i, In i rem <-> exists x, nth_error (d n) i = Some x /\ grandchild d n x = true).
  { intros i. rewrite E, indirect_indices_spec by assumption. split.
    - intros (x & c & H1 & H2 & H3). exists x. split; [assumption|]. apply grandchild_spec. now exists c.
    - intros (x & H1 & H2). apply grandchild_spec in H2. destruct H2 as (c & H2 & H3). now exists x, c. }
  assert (Hlt : forall i, In i rem -> i < length (d n)) by (intros i Hi; apply HB, E, Hi).
  (* all removed iff lengths agree *)
  assert (Hall : length rem = length (d n) <-> forallb (grandchild d n) (d n) = true).
  { split.
    - intros EL. apply forallb_forall. intros x Hx. apply In_nth_error in Hx. destruct Hx as (i & Hi).
      assert (incl (seq 0 (length (d n))) rem) as I.
      { apply NoDup_length_incl; [now apply sorted_nodup|rewrite seq_length; lia|].
        intros k Hk. apply in_seq. specialize (Hlt k Hk). lia. }
      assert (Hir : In i rem).
      { apply I, in_seq. assert (i < length (d n)) by (apply nth_error_Some; congruence). lia. }
      apply Hrem in Hir. destruct Hir as (y & Hy & Hg). congruence.
    - intros A. rewrite forallb_forall in A.
      assert (length rem <= length (seq 0 (length (d n)))).
      { apply NoDup_incl_length; [now apply sorted_nodup|].
        intros k Hk. apply in_seq. specialize (Hlt k Hk). lia. }
      assert (length (seq 0 (length (d n))) <= length rem).
      { apply NoDup_incl_length; [apply seq_NoDup|]. intros k Hk. apply in_seq in Hk.
        apply Hrem. destruct (nth_error (d n) k) as [x|] eqn:Ex.
        - exists x. split; [reflexivity|]. apply A. now apply nth_error_In with k.
        - apply nth_error_None in Ex. lia. }
      rewrite seq_length in *. lia. }
  split; intros HA.
  - assert (length rem <> length (d n)) as NE by (rewrite Hall; congruence).
    apply Nat.eqb_neq in NE. rewrite NE. cbn [Nat.leb].
    rewrite <- fold_left_rev_right. rewrite rev_involutive.
    destruct (remove_descending (d n) N rem S Hlt) as [-> _].
    apply filter_ext_in. intros x Hx. f_equal.
    apply eq_true_iff_eq. rewrite existsb_exists. split.
    + intros (i & Hi & Ha). apply at_index_true in Ha. apply Hrem in Hi.
      destruct Hi as (y & Hy & Hg). congruence.
    + intros Hg. apply In_nth_error in Hx. destruct Hx as (i & Hi). exists i.
      split; [apply Hrem; now exists x|now apply at_index_true].
  - apply Hall in HA. rewrite HA, Nat.eqb_refl.
    rewrite <- fold_left_rev_right. rewrite rev_involutive.
    assert (Efold : forall r, fold_right (fun y x => if 1 <=? y then remove_dependency_by_index x y else x) (d n) r
            = fold_right (fun i l => remove_dependency_by_index l i) (d n) (filter (Nat.leb 1) r)).
    { induction r as [|i r IH]; [reflexivity|]. cbn [fold_right filter]. rewrite IH.
      destruct (1 <=? i); reflexivity. }
    rewrite Efold. clear Efold.
    destruct (remove_descending (d n) N (filter (Nat.leb 1) rem)) as [-> _].
    + now apply filter_sorted.
    + intros i Hi. apply filter_In in Hi. now apply Hlt.
    + destruct (d n) as [|y r] eqn:Ed; [reflexivity|]. cbn [firstn].
      assert (Hin : forall i, i < length (y :: r) -> In i rem).
      { intros i Hi. destruct (nth_error (y :: r) i) as [z|] eqn:Ez.
        2: { apply nth_error_None in Ez. lia. }
        apply Hrem. exists z. split; [assumption|].
        assert (forallb (grandchild d n) (y :: r) = true) as A by (now apply Hall).
        rewrite forallb_forall in A. apply A. now apply nth_error_In with i. }
      cbn [filter].
      match goal with |- (if negb ?b then _ else _) = _ => assert (b = false) as -> end.
      { apply Bool.not_true_iff_false. rewrite existsb_exists. intros (i & Hi & Ha).
        apply filter_In in Hi. destruct Hi as [_ Hi]. apply Nat.leb_le in Hi.
        apply at_index_true in Ha. destruct i as [|i]; [lia|]. simpl in Ha.
        change (NoDup (d n)) in N. rewrite Ed in N.
        apply NoDup_cons_iff in N. apply (proj1 N). now apply nth_error_In with i. }
      cbn [negb]. f_equal.
      match goal with |- filter ?p r = [] => assert (Hp : forall z, In z r -> p z = false) end.
      { intros z Hz. apply negb_false_iff, existsb_exists.
        apply In_nth_error in Hz. destruct Hz as (i & Hi). exists (Datatypes.S i). split.
        - apply filter_In. split; [|reflexivity]. apply Hin. simpl.
          assert (i < length r) by (apply nth_error_Some; congruence). lia.
        - now apply at_index_true. }
      revert Hp. generalize (fun x : nat => negb (existsb (at_index (y :: r) x) (filter (Nat.leb 1) rem))).
      clear. intros p Hp. induction r as [|z r IH]; [reflexivity|]. simpl.
      rewrite Hp by (now left). apply IH. intros w Hw. apply Hp. now right.
Qed.

Lemma max_rank_elem (rank : nat -> nat) (l : list nat) : l <> [] ->
  exists x, In x l /\ forall y, In y l -> rank y <= rank x.
Proof.
  induction l as [|z l IH]; [congruence|]. intros _.
  destruct l as [|w l].
  - exists z. split; [now left|]. intros y [->|[]]. lia.
  - destruct (IH ltac:(discriminate)) as (x & Hx & Hm).
    destruct (Nat.le_gt_cases (rank z) (rank x)).
    + exists x. split; [now right|]. intros y [<-|Hy]; [assumption|auto].
    + exists z. split; [now left|]. intros y [<-|Hy]; [lia|]. specialize (Hm y Hy). lia.
Qed.

(** On acyclic graphs exactly the grandchildren are dropped. *)
Lemma remove_indirect_acyclic s n rank :
  ranked (deps s) rank -> NoDup (deps s n) -> listed s n ->
  deps (remove_indirect_dependencies iset s n) n
  = filter (fun x => negb (grandchild (deps s) n x)) (deps s n).
Proof.
  intros R N L.
  destruct (remove_indirect_general s n N L) as [H1 H2].
  destruct (deps s n) as [|x0 r0] eqn:E.
  - unfold remove_indirect_dependencies. cbn [set_deps deps]. rewrite upd_same.
    rewrite E. simpl. clear. induction (rev (iset (indirect_indices (deps s) n))) as [|i l IH]; simpl; auto.
    destruct (_ <=? i); [|assumption]. unfold remove_dependency_by_index. destruct i; assumption.
  - rewrite <- E in *. destruct (forallb (grandchild (deps s) n) (deps s n)) eqn:A; [|auto].
    exfalso. destruct (max_rank_elem rank (deps s n)) as (x & Hx & Hm); [congruence|].
    rewrite forallb_forall in A. apply A in Hx. apply grandchild_spec in Hx.
    destruct Hx as (c & Hc & Hxc). apply R in Hxc. specialize (Hm c Hc). lia.
Qed.

Lemma remove_indirect_others s n m : m <> n ->
  deps (remove_indirect_dependencies iset s n) m = deps s m.
Proof. intros H. unfold remove_indirect_dependencies. cbn [set_deps deps]. now apply upd_other. Qed.

Definition same_but_deps (s s' : gstate) : Prop :=
  dependents s' = dependents s /\ visited s' = visited s
  /\ dag_cost s' = dag_cost s /\ tick s' = tick s.

Record prune_rel (s s' : gstate) : Prop := {
  pr_frame : same_but_deps s s';
  pr_sub : forall u v, In v (deps s' u) -> In v (deps s u);
  pr_nodup : forall u, NoDup (deps s u) -> NoDup (deps s' u);
  pr_len : forall u, length (deps s' u) <= length (deps s u);
  pr_reach : forall u v, dep_on (deps s') u v <-> dep_on (deps s) u v
}.

Lemma filter_length_le' {A} (p : A -> bool) l : length (filter p l) <= length l.
Proof. induction l as [|x l IH]; simpl; [lia|]. destruct (p x); simpl; lia. Qed.

Lemma prune_one s n rank :
  ranked (deps s) rank -> NoDup (deps s n) -> listed s n ->
  prune_rel s (remove_indirect_dependencies iset s n).
Proof.
  intros R N L.
  pose proof (remove_indirect_acyclic s n rank R N L) as E.
  set (s' := remove_indirect_dependencies iset s n) in *.
  assert (O : forall m, m <> n -> deps s' m = deps s m) by (intros; now apply remove_indirect_others).
  assert (Sub : forall u v, In v (deps s' u) -> In v (deps s u)).
  { intros u v H. destruct (Nat.eq_dec u n) as [->|NE].
    - rewrite E in H. now apply filter_In in H.
    - now rewrite O in H. }
  constructor.
  - repeat split.
  - exact Sub.
  - intros u Nu. destruct (Nat.eq_dec u n) as [->|NE].
    + rewrite E. now apply NoDup_filter.
    + now rewrite O.
  - intros u. destruct (Nat.eq_dec u n) as [->|NE].
    + rewrite E. apply filter_length_le'.
    + now rewrite O.
  - intros u v. split.
    + apply dep_on_mono. intros x y H. apply dep_direct. now apply Sub.
    + apply dep_on_mono. clear u v.
      assert (G : forall k v, In v (deps s n) -> rank n - rank v <= k -> dep_on (deps s') n v).
      { induction k as [|k IH]; intros v Hv Hk.
        - apply R in Hv. lia.
        - destruct (grandchild (deps s) n v) eqn:Gv.
          + apply grandchild_spec in Gv. destruct Gv as (c & Hc & Hvc).
            pose proof (R _ _ Hc). pose proof (R _ _ Hvc).
            apply dep_on_trans with c; [apply IH; [assumption|lia]|].
            apply dep_direct. rewrite O; [assumption|]. intros ->. lia.
          + apply dep_direct. rewrite E. apply filter_In. now rewrite Gv. }
      intros u v H. destruct (Nat.eq_dec u n) as [->|NE].
      * apply (G (rank n - rank v)); auto.
      * apply dep_direct. now rewrite O.
Qed.

Lemma prune_rel_refl s : prune_rel s s.
Proof. constructor; auto; try (repeat split; auto); intros; tauto. Qed.

Lemma prune_rel_trans s1 s2 s3 : prune_rel s1 s2 -> prune_rel s2 s3 -> prune_rel s1 s3.
Proof.
  intros [F1 S1 N1 L1 R1] [F2 S2 N2 L2 R2]. constructor; auto.
  - destruct F1 as (?&?&?&?), F2 as (?&?&?&?). repeat split; congruence.
  - intros u. etransitivity; [apply L2|apply L1].
  - intros u v. now rewrite R2, R1.
Qed.

(** ... at every node in turn *)
Fixpoint all_listed (ns : list nat) (s : gstate) : Prop :=
  match ns with
  | [] => True
  | n :: r => listed s n /\ all_listed r (remove_indirect_dependencies iset s n)
  end.

Lemma prune_all : forall ns s rank,
  ranked (deps s) rank -> (forall n, NoDup (deps s n)) -> all_listed ns s ->
  prune_rel s (fold_left (remove_indirect_dependencies iset) ns s).
Proof.
  induction ns as [|n ns IH]; intros s rank R N L; cbn [fold_left]; [apply prune_rel_refl|]. destruct L as [L1 L2].
  pose proof (prune_one s n rank R (N n) L1) as P.
  apply prune_rel_trans with (remove_indirect_dependencies iset s n); [assumption|].
  destruct P as [F S Nd Ln Rc]. apply (IH _ rank).
  - intros u v H. apply R. auto.
  - auto.
  - exact L2.
Qed.
End Prune.
