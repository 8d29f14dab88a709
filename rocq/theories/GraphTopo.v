(** topological_sort: invariant of the work-list loop. *)
From Verif Require Import PyBase SpecGraph GraphLemmas Graph.

Lemma filter_add (p p' : nat -> bool) x l : NoDup l ->
  (forall y, y <> x -> p' y = p y) -> p x = false -> p' x = true ->
  length (filter p' l) = length (filter p l) + (if mem x l then 1 else 0).
Proof.
  intros N H Px Px'. induction N as [|y l Hy N IH]; simpl; [reflexivity|].
  unfold mem in *. simpl.
  destruct (Nat.eqb_spec x y) as [<-|NE]; simpl.
  - rewrite Px, Px'. simpl.
    assert (existsb (Nat.eqb x) l = false) as E.
    { apply Bool.not_true_iff_false. intros E. apply Hy. now apply mem_In. }
    rewrite E in IH. lia.
  - rewrite H by congruence. destruct (p y); simpl; lia.
Qed.

Lemma filter_ext_len (p p' : nat -> bool) l : (forall y, In y l -> p' y = p y) ->
  length (filter p' l) = length (filter p l).
Proof. intros H. f_equal. now apply filter_ext_in. Qed.

Lemma filter_full {A} (p : A -> bool) l : length (filter p l) = length l -> forall x, In x l -> p x = true.
Proof.
  induction l as [|y l IH]; simpl; [tauto|].
  assert (length (filter p l) <= length l).
  { clear. induction l as [|z l IH]; simpl; [lia|]. destruct (p z); simpl; lia. }
  destruct (p y) eqn:E; simpl; intros HL x Hx; [|lia].
  destruct Hx as [<-|Hx]; [assumption|]. apply IH; [lia|assumption].
Qed.

Lemma filter_len_le {A} (p : A -> bool) l : length (filter p l) <= length l.
Proof. induction l as [|z l IH]; simpl; [lia|]. destruct (p z); simpl; lia. Qed.

Lemma count_rev x l : count_occ Nat.eq_dec (rev l) x = count_occ Nat.eq_dec l x.
Proof.
  induction l as [|y l IH]; simpl; [reflexivity|].
  rewrite count_occ_app, IH. simpl. destruct (Nat.eq_dec y x); lia.
Qed.

Lemma count_nodup x l : NoDup l -> count_occ Nat.eq_dec l x = if mem x l then 1 else 0.
Proof.
  intros N. destruct (mem x l) eqn:E.
  - apply mem_In in E. now apply NoDup_count_occ'.
  - apply count_occ_not_In. intros H. apply mem_In in H. congruence.
Qed.

Fixpoint sumf (f : nat -> nat) (l : list nat) : nat :=
  match l with [] => 0 | x :: r => f x + sumf f r end.

Lemma sumf_ext f g l : (forall x, In x l -> f x = g x) -> sumf f l = sumf g l.
Proof. induction l as [|x l IH]; simpl; intros H; [reflexivity|]. rewrite H, IH; auto. Qed.

Lemma sumf_zero_one f g x l : NoDup l -> In x l -> (forall y, y <> x -> f y = g y) ->
  sumf f l + g x = sumf g l + f x.
Proof.
  intros N Hx H. induction N as [|y l Hy N IH]; [contradiction|]. simpl.
  destruct Hx as [->|Hx].
  - rewrite (sumf_ext f g l); [lia|]. intros z Hz. apply H. intros ->. contradiction.
  - specialize (IH Hx). rewrite (H y); [lia|]. intros ->. contradiction.
Qed.

Section Topo.
Variable s : gstate.
Variables (root : nat) (ns : list nat).
Let d := deps s.
Let ds := dependents s.
Hypothesis d_nodup : forall n, NoDup (d n).
Hypothesis ds_nodup : forall n, NoDup (ds n).
Hypothesis ds_spec : forall v u, In u (ds v) <-> (u = root \/ dep_on d root u) /\ In v (d u).
Hypothesis root_free : ~ dep_on d root root.
Hypothesis ns_nodup : NoDup ns.
Hypothesis ns_spec : forall v, In v ns <-> dep_on d root v.

Lemma root_not_ns : ~ In root ns.
Proof. rewrite ns_spec. exact root_free. Qed.

Lemma ds_root : ds root = [].
Proof.
  destruct (ds root) as [|u l] eqn:E; [reflexivity|exfalso].
  assert (H : In u (ds root)) by (rewrite E; now left).
  apply ds_spec in H. destruct H as [[->|H1] H2]; apply root_free.
  - now apply dep_direct.
  - apply dep_on_trans with u; [assumption|now apply dep_direct].
Qed.

Lemma deps_in_ns u v : u = root \/ In u ns -> In v (d u) -> In v ns.
Proof.
  intros [->|H] Hv; apply ns_spec; [now apply dep_direct|].
  apply ns_spec in H. apply dep_on_trans with u; [assumption|now apply dep_direct].
Qed.

Lemma ds_mem x v : x = root \/ In x ns -> mem x (ds v) = mem v (d x).
Proof.
  intros Hx. apply eq_true_iff_eq. rewrite !mem_In, ds_spec, <- ns_spec. tauto.
Qed.

Definition procb (vis : nat -> nat) (sorted : list nat) (u : nat) : bool :=
  if Nat.eqb u root then Nat.leb 1 (vis root) else mem u sorted.

Definition pending (vis : nat -> nat) (sorted : list nat) : nat :=
  sumf (fun u => if procb vis sorted u then 0 else length (d u)) (root :: ns).

Record Inv (stack : list nat) (vis : nat -> nat) (sorted : list nat) : Prop := {
  i_count : forall v, In v ns ->
     vis v + count_occ Nat.eq_dec stack v = length (filter (procb vis sorted) (ds v));
  i_done : forall v, In v ns -> (In v sorted <-> vis v = length (ds v));
  i_stack : forall x, In x stack -> x = root \/ In x ns;
  i_root : (vis root = 0 /\ stack = [root] /\ sorted = []) \/ (vis root = 1 /\ ~ In root stack);
  i_nodup : NoDup sorted;
  i_sub : forall x, In x sorted -> In x ns;
  i_order : forall l1 v l2, sorted = l1 ++ v :: l2 -> forall u, In u (ds v) -> u = root \/ In u l1
}.

Lemma inv_init vis : (forall n, vis n = 0) -> Inv [root] vis [].
Proof.
  intros Z. constructor; auto.
  - intros v Hv. rewrite Z. simpl. destruct (Nat.eq_dec root v) as [E|NE].
    + exfalso. apply root_not_ns. now rewrite E.
    + simpl. symmetry. apply length_zero_iff_nil.
      assert (H : forall u, procb vis [] u = false).
      { intros u. unfold procb. rewrite Z. now destruct (Nat.eqb u root). }
      induction (ds v) as [|u l IH]; simpl; [reflexivity|]. now rewrite H.
  - intros v Hv. simpl. rewrite Z. split; [tauto|]. intros E. exfalso.
    apply ns_spec in Hv. apply dep_on_last in Hv. destruct Hv as (w & Hw & Hv).
    assert (H : In w (ds v)) by (apply ds_spec; tauto).
    destruct (ds v); [contradiction|discriminate].
  - intros x [<-|[]]. now left.
  - constructor.
  - intros x [].
  - intros l1 v l2 E. destruct l1; discriminate.
Qed.

(** Popping the root. *)
Lemma inv_root vis sorted stack : Inv (root :: stack) vis sorted ->
  stack = [] /\ sorted = [] /\ vis root = 0
  /\ Inv (rev (d root)) (upd vis root 1) [].
Proof.
  intros [C D S R N Sb Or].
  destruct R as [(R1 & R2 & R3)|(R1 & R2)]; [|exfalso; apply R2; now left].
  injection R2 as ->. subst sorted. splits; auto.
  constructor; auto.
  - intros v Hv. assert (NE : v <> root) by (intros ->; now apply root_not_ns).
    rewrite upd_other by assumption.
    specialize (C v Hv). simpl in C. destruct (Nat.eq_dec root v) as [E|_]; [congruence|].
    rewrite count_rev, count_nodup by apply d_nodup.
    rewrite (filter_add (procb vis []) _ root (ds v) (ds_nodup v)).
    + rewrite ds_mem by now left. lia.
    + intros y Hy. unfold procb. apply Nat.eqb_neq in Hy. now rewrite Hy.
    + unfold procb. now rewrite Nat.eqb_refl, R1.
    + unfold procb. now rewrite Nat.eqb_refl, upd_same.
  - intros v Hv. rewrite upd_other; [auto|]. intros ->. now apply root_not_ns.
  - intros x Hx. right. rewrite <- in_rev in Hx. now apply deps_in_ns with root; [left|].
  - right. rewrite upd_same. split; [reflexivity|]. rewrite <- in_rev. intros H.
    apply root_not_ns. now apply deps_in_ns with root; [left|].
Qed.

Lemma inv_pop v vis sorted stack : v <> root -> Inv (v :: stack) vis sorted ->
  vis v < length (ds v) /\ In v ns
  /\ (S (vis v) = length (ds v) ->
        ~ In v sorted
        /\ Inv (rev (d v) ++ stack) (upd vis v (S (vis v))) (sorted ++ [v]))
  /\ (S (vis v) <> length (ds v) -> Inv stack (upd vis v (S (vis v))) sorted).
Proof.
  intros NR [C D S R N Sb Or].
  assert (Hv : In v ns) by (destruct (S v (or_introl eq_refl)); [contradiction|assumption]).
  assert (Lt : vis v < length (ds v)).
  { specialize (C v Hv). simpl in C. destruct (Nat.eq_dec v v); [|congruence].
    pose proof (filter_len_le (procb vis sorted) (ds v)). lia. }
  assert (NS : ~ In v sorted) by (intros H; apply D in H; [lia|assumption]).
  assert (Rt : vis root = 1 /\ ~ In root (v :: stack)).
  { destruct R as [(_ & E & _)|R]; [congruence|assumption]. }
  destruct Rt as [R1 R2].
  assert (R1' : forall k, upd vis v k root = 1) by (intros; now rewrite upd_other by congruence).
  splits; auto.
  - intros E. split; [assumption|]. constructor.
    + intros w Hw. rewrite count_occ_app, count_rev, count_nodup by apply d_nodup.
      rewrite (filter_add (procb vis sorted) _ v (ds w) (ds_nodup w)).
      * rewrite ds_mem by now right. pose proof (C w Hw) as Cw. simpl in Cw.
        destruct (Nat.eq_dec v w) as [->|NE].
        -- rewrite upd_same. lia.
        -- rewrite upd_other by congruence. lia.
      * intros y Hy. unfold procb. rewrite R1', R1. destruct (Nat.eqb y root); [reflexivity|].
        apply eq_true_iff_eq. rewrite !mem_In, in_app_iff. simpl. intuition congruence.
      * unfold procb. apply Nat.eqb_neq in NR. rewrite NR.
        apply Bool.not_true_iff_false. now rewrite mem_In.
      * unfold procb. apply Nat.eqb_neq in NR. rewrite NR. apply mem_In, in_or_app. right. now left.
    + intros w Hw. rewrite in_app_iff. simpl. destruct (Nat.eq_dec w v) as [->|NE].
      * rewrite upd_same. intuition.
      * rewrite upd_other by assumption. specialize (D w Hw). intuition congruence.
    + intros x Hx. apply in_app_or in Hx. destruct Hx as [Hx|Hx].
      * right. rewrite <- in_rev in Hx. now apply deps_in_ns with v; [right|].
      * apply S. now right.
    + right. rewrite R1'. split; [reflexivity|]. intros H. apply in_app_or in H.
      destruct H as [H|H].
      * apply root_not_ns. rewrite <- in_rev in H. now apply deps_in_ns with v; [right|].
      * apply R2. now right.
    + apply Permutation_NoDup with (v :: sorted); [apply Permutation_cons_append|].
      now constructor.
    + intros x Hx. apply in_app_or in Hx. destruct Hx as [Hx|[<-|[]]]; auto.
    + intros l1 w l2 El u Hu.
      destruct l2 as [|z l2].
      * apply app_inj_tail in El. destruct El as [<- <-].
        assert (FULL : length (filter (procb vis sorted) (ds v)) = length (ds v)).
        { specialize (C v Hv). simpl in C. destruct (Nat.eq_dec v v); [|congruence].
          pose proof (filter_len_le (procb vis sorted) (ds v)). lia. }
        pose proof (filter_full _ _ FULL u Hu) as P. unfold procb in P.
        destruct (Nat.eqb_spec u root); [now left|]. right. now apply mem_In.
      * destruct (exists_last (l := z :: l2) ltac:(discriminate)) as (l2' & y & E2).
        rewrite E2 in El. rewrite app_comm_cons, app_assoc in El.
        apply app_inj_tail in El. destruct El as [El _]. now apply (Or l1 w l2').
  - intros NE. constructor; auto.
    + intros w Hw.
      rewrite (filter_ext_len (procb vis sorted) (procb (upd vis v (Datatypes.S (vis v))) sorted)).
      * specialize (C w Hw). simpl in C. destruct (Nat.eq_dec v w) as [->|NE'].
        -- rewrite upd_same. lia.
        -- rewrite upd_other by congruence. lia.
      * intros y _. unfold procb. now rewrite R1', R1.
    + intros w Hw. destruct (Nat.eq_dec w v) as [->|NE'].
      * rewrite upd_same. intuition.
      * rewrite upd_other by assumption. auto.
    + intros x Hx. apply S. now right.
    + right. rewrite R1'. split; [reflexivity|]. intros H. apply R2. now right.
Qed.

Lemma topo_total : forall fuel stack vis sorted,
  Inv stack vis sorted -> length stack + pending vis sorted <= fuel ->
  exists sorted' vis', topo_loop fuel stack vis sorted s = Some (sorted', vis')
    /\ Inv [] vis' sorted'.
Proof.
  assert (NDroot : NoDup (root :: ns)) by (constructor; [apply root_not_ns|assumption]).
  induction fuel as [|f IH]; intros stack vis sorted I L.
  - destruct stack as [|v stack]; [|simpl in L; lia]. simpl. eauto.
  - destruct stack as [|v stack]; [simpl; eauto|]. cbn [topo_loop].
    fold ds. destruct (Nat.eq_dec v root) as [->|NR].
    + destruct (inv_root _ _ _ I) as (-> & -> & V0 & I').
      rewrite ds_root, V0. cbn [length Nat.leb]. rewrite upd_same. cbn [Nat.eqb Nat.leb].
      rewrite app_nil_r. apply IH; [exact I'|].
      rewrite rev_length.
      assert (E : pending (upd vis root 1) [] + length (d root) = pending vis []).
      { unfold pending.
        pose proof (sumf_zero_one
          (fun u => if procb (upd vis root 1) [] u then 0 else length (d u))
          (fun u => if procb vis [] u then 0 else length (d u)) root (root :: ns)
          NDroot (or_introl eq_refl)) as E.
        rewrite <- (Nat.add_0_r (sumf _ _)) in E at 1.
        assert (P1 : procb (upd vis root 1) [] root = true) by (unfold procb; now rewrite Nat.eqb_refl, upd_same).
        assert (P2 : procb vis [] root = false) by (unfold procb; now rewrite Nat.eqb_refl, V0).
        rewrite P1, P2 in E. rewrite !Nat.add_0_r in E. apply E.
        intros y Hy. unfold procb. apply Nat.eqb_neq in Hy. now rewrite Hy. }
      cbn [length] in L. fold d. lia.
    + destruct (inv_pop _ _ _ _ NR I) as (Lt & Hv & I1 & I2).
      assert (Nat.leb (vis v) (length (ds v)) = true) as -> by (apply Nat.leb_le; lia).
      rewrite upd_same. fold d.
      destruct (Nat.eq_dec (S (vis v)) (length (ds v))) as [E|NE].
      * rewrite E, Nat.leb_refl, Nat.eqb_refl. rewrite <- E.
        destruct (I1 E) as [NS I1']. apply IH; [exact I1'|].
        assert (EP : pending (upd vis v (S (vis v))) (sorted ++ [v]) + length (d v) = pending vis sorted).
        { unfold pending.
          pose proof (sumf_zero_one
            (fun u => if procb (upd vis v (S (vis v))) (sorted ++ [v]) u then 0 else length (d u))
            (fun u => if procb vis sorted u then 0 else length (d u)) v (root :: ns)
            NDroot (or_intror Hv)) as E'.
          assert (P1 : procb (upd vis v (S (vis v))) (sorted ++ [v]) v = true).
          { unfold procb. apply Nat.eqb_neq in NR. rewrite NR. apply mem_In, in_or_app. right. now left. }
          assert (P2 : procb vis sorted v = false).
          { unfold procb. apply Nat.eqb_neq in NR. rewrite NR.
            apply Bool.not_true_iff_false. now rewrite mem_In. }
          cbn beta in E'. rewrite P1, P2 in E'. rewrite Nat.add_0_r in E'. apply E'.
          intros y Hy. unfold procb. rewrite (upd_other vis v) by congruence.
          destruct (Nat.eqb y root); [reflexivity|].
          assert (mem y (sorted ++ [v]) = mem y sorted) as ->; [|reflexivity].
          apply eq_true_iff_eq. rewrite !mem_In, in_app_iff. simpl. intuition congruence. }
        rewrite app_length, rev_length. cbn [length] in L. lia.
      * assert (Nat.leb (length (ds v)) (S (vis v)) = false) as -> by (apply Nat.leb_gt; lia).
        apply Nat.eqb_neq in NE. rewrite NE. apply Nat.eqb_neq in NE.
        apply IH; [now apply I2|].
        assert (EP : pending (upd vis v (S (vis v))) sorted = pending vis sorted).
        { unfold pending. apply sumf_ext. intros x _. unfold procb.
          now rewrite (upd_other vis v) by congruence. }
        cbn [length] in L. lia.
Qed.

Variable rank : nat -> nat.
Hypothesis rk : ranked d rank.

Lemma topo_complete vis sorted : Inv [] vis sorted -> forall v, In v ns -> In v sorted.
Proof.
  intros I.
  assert (R1 : vis root = 1).
  { destruct (i_root _ _ _ I) as [(_ & E & _)|[H _]]; [discriminate|assumption]. }
  assert (G : forall k v, In v ns -> rank root - rank v <= k -> In v sorted).
  { induction k as [|k IH]; intros v Hv Hk.
    - apply ns_spec in Hv. apply (ranked_dep d rank rk) in Hv. lia.
    - apply (i_done _ _ _ I); [assumption|].
      pose proof (i_count _ _ _ I v Hv) as C. simpl in C. rewrite Nat.add_0_r in C. rewrite C.
      assert (ALL : forall u, In u (ds v) -> procb vis sorted u = true).
      { intros u Hu. unfold procb. destruct (Nat.eqb_spec u root) as [->|NE].
        - now rewrite R1.
        - apply mem_In. apply ds_spec in Hu. destruct Hu as [[->|Hu] Huv]; [contradiction|].
          pose proof (rk _ _ Huv). pose proof (ranked_dep d rank rk _ _ Hu).
          apply IH; [now apply ns_spec|lia]. }
      clear -ALL. induction (ds v) as [|u l IHl]; simpl; [reflexivity|].
      rewrite ALL by (now left). simpl. f_equal. apply IHl. intros w Hw. apply ALL. now right. }
  intros v Hv. now apply (G (rank root - rank v)).
Qed.

(** The result of a complete run. *)
Lemma topo_spec : (forall n, visited s n = 0) ->
  exists N sorted vis, (forall fuel, N <= fuel -> topo_loop fuel [root] (visited s) [] s = Some (sorted, vis))
    /\ NoDup sorted /\ (forall v, In v sorted <-> dep_on d root v)
    /\ (forall u v, In u sorted -> In v (d u) -> before sorted u v)
    /\ vis root = 1.
Proof.
  intros Z.
  pose proof (inv_init (visited s) Z) as I0.
  set (N := length [root] + pending (visited s) []).
  destruct (topo_total N [root] (visited s) [] I0 ltac:(unfold N; lia)) as (sorted & vis & E & I).
  assert (MONO : forall fuel st vs so r, topo_loop fuel st vs so s = Some r ->
     forall fuel', fuel <= fuel' -> topo_loop fuel' st vs so s = Some r).
  { induction fuel as [|f IH]; intros st vs so r Er fuel' L.
    - destruct st; [|discriminate]. simpl in *. destruct fuel'; exact Er.
    - destruct st as [|x st]; [destruct fuel'; exact Er|].
      destruct fuel' as [|f']; [lia|]. cbn [topo_loop] in *.
      destruct (Nat.leb (vs x) (length (dependents s x))); apply (IH _ _ _ _ Er); lia. }
  exists N, sorted, vis. splits.
  - intros fuel L. now apply (MONO N).
  - apply (i_nodup _ _ _ I).
  - intros v. split.
    + intros H. now apply ns_spec, (i_sub _ _ _ I).
    + intros H. apply topo_complete with vis; [assumption|now apply ns_spec].
  - intros u v Hu Hv.
    assert (Hvs : In v sorted).
    { apply topo_complete with vis; [assumption|].
      apply deps_in_ns with u; [right; now apply (i_sub _ _ _ I)|assumption]. }
    apply in_split in Hvs. destruct Hvs as (l1 & l2 & El).
    destruct (i_order _ _ _ I l1 v l2 El u) as [->|H].
    + apply ds_spec. split; [|assumption]. right. now apply ns_spec, (i_sub _ _ _ I).
    + exfalso. apply root_not_ns. now apply (i_sub _ _ _ I).
    + subst sorted. apply in_split in H. destruct H as (a & b & ->).
      exists a, b, l2. now rewrite <- app_assoc.
  - destruct (i_root _ _ _ I) as [(_ & E' & _)|[H _]]; [discriminate|assumption].
Qed.
End Topo.
