(** Group.setup never succeeds on a graph with a reachable cycle. *)
From Coq Require Import Sorted.
From Verif Require Import PyBase PySet PySetProofs SpecGraph GraphLemmas Graph
  SpecSetup GraphRegister GraphPrune GraphEdges GraphSetup.

Definition ranked_on (P : nat -> Prop) (d : nat -> list nat) (rank : nat -> nat) : Prop :=
  forall u v, P u -> In v (d u) -> rank v < rank u.

Section Cycle.
Variables (iset : list nat -> list nat) (B : nat).
Hypothesis iset_B : iset_ok iset B.

(** Pruning one node never destroys all cycles. *)
Lemma prune_one_back (P : nat -> Prop) s n rank :
  (forall u v, P u -> In v (deps s u) -> P v) -> P n ->
  NoDup (deps s n) -> length (deps s n) <= B -> ~ In n (deps s n) ->
  ranked_on P (deps (remove_indirect_dependencies iset s n)) rank ->
  ranked_on P (deps s) rank.
Proof.
  intros PC Pn N L NS R.
  set (s' := remove_indirect_dependencies iset s n) in *.
  assert (Oth : forall m, m <> n -> deps s' m = deps s m) by (intros; now apply remove_indirect_others).
  destruct (remove_indirect_general iset s n N (narrow_listed iset B s n iset_B N L)) as [H1 H2]. fold s' in H1, H2.
  (* a dropped child has a parent of larger rank among the children *)
  assert (UP : forall x, In x (deps s n) -> grandchild (deps s) n x = true ->
            exists c, In c (deps s n) /\ rank x < rank c).
  { intros x Hx G. apply grandchild_spec in G. destruct G as (c & Hc & Hxc). exists c.
    split; [assumption|]. apply R; [now apply PC with n|].
    rewrite Oth; [assumption|]. intros ->. contradiction. }
  intros u v Pu Huv. destruct (Nat.eq_dec u n) as [->|NE].
  2: { apply R; [assumption|]. now rewrite Oth. }
  destruct (max_rank_elem rank (deps s n)) as (m & Hm & Max).
  { intros E. rewrite E in Huv. contradiction. }
  apply Nat.le_lt_trans with (rank m); [now apply Max|].
  assert (Gm : grandchild (deps s) n m = false).
  { destruct (grandchild (deps s) n m) eqn:G; [|reflexivity]. exfalso.
    destruct (UP m Hm G) as (c & Hc & Lt). specialize (Max c Hc). lia. }
  apply R; [assumption|]. rewrite H1.
  - apply filter_In. now rewrite Gm.
  - apply Bool.not_true_iff_false. intros A. rewrite forallb_forall in A.
    specialize (A m Hm). congruence.
Qed.

Lemma prune_sub s n u v : NoDup (deps s n) -> length (deps s n) <= B ->
  In v (deps (remove_indirect_dependencies iset s n) u) -> In v (deps s u).
Proof.
  intros N L H. destruct (Nat.eq_dec u n) as [->|NE].
  2: { now rewrite remove_indirect_others in H. }
  destruct (remove_indirect_general iset s n N (narrow_listed iset B s n iset_B N L)) as [H1 H2].
  destruct (forallb (grandchild (deps s) n) (deps s n)).
  - rewrite H2 in H by reflexivity. destruct (deps s n); simpl in H; [contradiction|].
    destruct H as [<-|[]]. now left.
  - rewrite H1 in H by reflexivity. now apply filter_In in H.
Qed.

Lemma prune_shape s n u : NoDup (deps s n) -> length (deps s n) <= B -> NoDup (deps s u) ->
  NoDup (deps (remove_indirect_dependencies iset s n) u)
  /\ length (deps (remove_indirect_dependencies iset s n) u) <= length (deps s u).
Proof.
  intros N L Nu. destruct (Nat.eq_dec u n) as [->|NE].
  2: { now rewrite remove_indirect_others. }
  destruct (remove_indirect_general iset s n N (narrow_listed iset B s n iset_B N L)) as [H1 H2].
  destruct (forallb (grandchild (deps s) n) (deps s n)).
  - rewrite H2 by reflexivity. destruct (deps s n) as [|x r]; simpl; [auto|].
    split; [repeat constructor; simpl; tauto|lia].
  - rewrite H1 by reflexivity. split; [now apply NoDup_filter|apply filter_length_le'].
Qed.

Lemma prune_all_back (P : nat -> Prop) rank : forall ns s,
  (forall u v, P u -> In v (deps s u) -> P v) -> (forall n, In n ns -> P n) ->
  (forall n, NoDup (deps s n)) -> (forall n, In n ns -> length (deps s n) <= B) ->
  (forall n, ~ In n (deps s n)) ->
  let s' := fold_left (remove_indirect_dependencies iset) ns s in
  (forall u v, In v (deps s' u) -> In v (deps s u))
  /\ dependents s' = dependents s
  /\ (ranked_on P (deps s') rank -> ranked_on P (deps s) rank).
Proof.
  induction ns as [|n ns IH]; intros s PC Pn N L NS; cbn [fold_left].
  - cbn zeta. auto.
  - assert (Ln : length (deps s n) <= B) by (apply L; now left).
    assert (Sub : forall u v, In v (deps (remove_indirect_dependencies iset s n) u) -> In v (deps s u))
      by (intros u v; now apply prune_sub).
    destruct (IH (remove_indirect_dependencies iset s n)) as (A & B1 & C).
    + intros u v Pu H. apply PC with u; auto.
    + intros m Hm. apply Pn. now right.
    + intros m. now apply prune_shape.
    + intros m Hm. destruct (prune_shape s n m (N n) Ln (N m)) as [_ X].
      specialize (L m (or_intror Hm)). lia.
    + intros m Hm. apply (NS m). auto.
    + cbn zeta in *. splits; auto.
      intros R. apply prune_one_back with n; auto. apply Pn. now left.
Qed.

Variables (O : oracle) (uid : nat -> nat) (kd : nat -> kind) (root : nat) (reverse : bool).

Theorem setup_rejects_cycles d :
  (exists N, finite_graph N d) -> simple_graph d -> uid_distinct root uid d ->
  (forall n, ~ In n (d n)) -> (forall n, ~ In root (d n)) ->
  (forall n, dep_on d root n -> width d (filter (fun i => is_indep (kd i)) (d root)) n <= B) ->
  (exists n, dep_on d root n /\ dep_on d n n) ->
  forall fuel r, setup_graph O iset uid kd fuel root reverse [] (fresh d) <> Some (Ok r).
Proof.
  intros FIN SI UD NS RF WI (c & Hc & Cyc) fuel r E.
  unfold setup_graph in E. cbn [deps fresh] in E.
  destruct (register_root root uid d FIN UD) as (N0 & nodes & E0 & ND & SP & K).
  destruct (register_nodes uid fuel d root []) as [[nodes'|e]|] eqn:ER; try discriminate.
  pose proof (register_mono uid _ _ _ _ _ ER (fuel + N0) ltac:(lia)) as ER'.
  rewrite E0 in ER' by lia. injection ER' as <-. clear ER E0.
  set (ns := map snd nodes) in *.
  assert (RN : ~ In root ns).
  { rewrite SP. intros H. apply dep_on_last in H. destruct H as (w & _ & H). now apply (RF w). }
  destruct (add_indep_edges_spec O kd root ns (fresh d) RN) as (F1 & I1 & N1 & R1).
  set (s1 := add_indep_edges O kd root ns (fresh d)) in *. cbn [deps fresh] in I1, R1, N1.
  set (s2 := fold_left (remove_indirect_dependencies iset) ns s1) in *.
  destruct (add_fwd_edges O fuel root s2) as [s3|] eqn:E3; [|discriminate].
  destruct (existsb _ ns) eqn:EX; [discriminate|]. clear E.
  set (P := fun n => In n ns).
  assert (CL1 : forall u v, P u -> In v (deps s1 u) -> P v).
  { intros u v Pu H. apply I1 in H. apply SP. apply SP in Pu. destruct H as [H|(_ & _ & _ & H)].
    - apply dep_on_trans with u; [assumption|now apply dep_direct].
    - now apply dep_direct. }
  assert (W1 : forall n, In n ns -> length (deps s1 n) <= B).
  { intros n Hn. apply SP in Hn. specialize (WI n Hn). etransitivity; [|exact WI].
    apply NoDup_incl_length; [apply N1, SI|].
    intros v Hv. apply I1 in Hv. apply nodup_In, in_or_app.
    destruct Hv as [Hv|(_ & _ & Hv & Hr)]; [now left|]. right. apply filter_In. auto. }
  assert (NS1 : forall n, ~ In n (deps s1 n)).
  { intros n H. apply I1 in H. destruct H as [H|(_ & H1 & H2 & _)]; [now apply (NS n)|congruence]. }
  assert (back : forall rank, ranked_on P (deps s2) rank -> ranked_on P (deps s1) rank).
  { intros rank. apply (prune_all_back P rank ns s1); auto. }
  destruct (prune_all_back P (fun _ => 0) ns s1) as (Sub & DP2 & _); auto.
  fold s2 in Sub, DP2.
  (* every recorded node is still reachable from the root after pruning *)
  destruct (fwd_sound O _ _ _ _ E3) as ((D3 & _) & DP3 & _).
  assert (REACH : forall v, In v ns -> dep_on (deps s2) root v).
  { intros v Hv.
    assert (NE : dependents s3 v <> []).
    { intros Z. apply Bool.not_true_iff_false in EX. apply EX. apply existsb_exists.
      exists v. rewrite Z. auto. }
    destruct (dependents s3 v) as [|u l] eqn:Ed; [congruence|].
    assert (Hu : In u (dependents s3 v)) by (rewrite Ed; now left).
    apply DP3 in Hu. destruct Hu as [Hu|[[->|Hu] Hv']].
    - rewrite DP2 in Hu. destruct F1 as (F1 & _). rewrite F1 in Hu. contradiction.
    - now apply dep_direct.
    - apply dep_on_trans with u; [assumption|now apply dep_direct]. }
  (* hence the pruned graph has no cycle among the recorded nodes *)
  assert (AC : forall v, In v ns -> ~ dep_on (deps s2) v v).
  { intros v Hv C. rewrite (fwd_diverges O root s2 v (or_intror (REACH v Hv)) C) in E3. discriminate. }
  set (d' := fun n => if mem n ns then deps s2 n else []).
  assert (IN' : forall u v, In v (d' u) -> In u ns /\ In v (deps s2 u) /\ In v ns).
  { intros u v H. unfold d' in H. destruct (mem u ns) eqn:M; [|contradiction].
    apply mem_In in M. splits; auto. apply (CL1 u); auto. }
  destruct FIN as (Nf & FN).
  assert (LT : forall v, In v ns -> v < Nf).
  { intros v Hv. apply SP, dep_on_last in Hv. destruct Hv as (w & _ & Hv). now apply FN in Hv. }
  assert (R' : ranked d' (height d' Nf)).
  { apply finite_acyclic_ranked.
    - intros u v H. apply IN' in H. destruct H as (A & _ & C). auto.
    - intros n C.
      assert (Hn : In n ns).
      { inversion C as [a b H|a w b H H1]; subst; now apply IN' in H. }
      apply (AC n Hn). revert C. apply dep_on_mono. intros x y H. apply dep_direct. now apply IN' in H. }
  assert (R1' : ranked_on P (deps s1) (height d' Nf)).
  { apply back. intros u v Pu H. apply R'. unfold d'. apply mem_In in Pu. now rewrite Pu. }
  assert (G : forall u v, dep_on d u v -> In u ns -> height d' Nf v < height d' Nf u).
  { intros u v D. induction D as [u v H|u w v H D IH]; intros Hu.
    - apply R1'; [assumption|]. apply I1. now left.
    - assert (Hw : height d' Nf w < height d' Nf u) by (apply R1'; [assumption|apply I1; now left]).
      assert (Pw : In w ns) by (apply (CL1 u); [assumption|apply I1; now left]).
      specialize (IH Pw). lia. }
  specialize (G c c Cyc (proj2 (SP c) Hc)). lia.
Qed.
End Cycle.
