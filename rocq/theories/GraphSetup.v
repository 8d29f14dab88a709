(** The graph part of Group.setup as a whole. *)
From Coq Require Import Sorted.
From Verif Require Import PyBase PySet PySetProofs PySetWide SpecGraph GraphLemmas Graph SpecSetup
  GraphRegister GraphPrune GraphTidy GraphEdges GraphTopo.

Lemma is_indep_true k : is_indep k = true <-> k = KIndep.
Proof. destruct k; simpl; split; congruence. Qed.
Lemma is_indep_false k : is_indep k = false <-> k <> KIndep.
Proof. destruct k; simpl; split; congruence. Qed.

Section Setup.
Variables (O : oracle) (iset : list nat -> list nat).
Hypothesis iset_P : forall l, placed l -> ascending_listing (iset l) l.
Variables (kd : nat -> kind) (root : nat) (reverse : bool).

Section Passes.
Variable s : gstate.
Variable ns : list nat.
Let d := deps s.
Hypothesis ok : graph_ok kd root d.
Hypothesis ns_nodup : NoDup ns.
Hypothesis ns_spec : forall v, In v ns <-> dep_on d root v.

Let s1 := add_indep_edges O kd root ns s.
Let s2 := fold_left (remove_indirect_dependencies iset) ns s1.

Lemma root_notin : ~ In root ns.
Proof. rewrite ns_spec. apply (go_acyclic _ _ _ ok). Qed.

Lemma s1_facts :
  same_but_deps_tick s s1
  /\ (forall u v, In v (deps s1 u) <-> In v (d u)
       \/ (In u ns /\ kd u <> KIndep /\ kd v = KIndep /\ In v (d root)))
  /\ (forall u, NoDup (deps s1 u))
  /\ deps s1 root = d root.
Proof.
  destruct (add_indep_edges_spec O kd root ns s root_notin) as (F & I & N & R).
  fold s1 in F, I, N, R. splits; auto.
  - intros u v. rewrite I. unfold d. rewrite is_indep_true, is_indep_false. tauto.
  - intros u. apply N. apply (go_simple _ _ _ ok).
Qed.

Lemma s1_ranked : exists rank1, ranked (deps s1) rank1.
Proof.
  destruct (go_finite _ _ _ ok) as (N & FN).
  pose proof (finite_acyclic_ranked N d FN (go_acyclic _ _ _ ok)) as R.
  exists (fun n => if is_indep (kd n) then 0 else S (height d N n)).
  intros u v H. apply (proj1 (proj2 s1_facts)) in H. destruct H as [H|(_ & Hu & Hv & _)].
  - destruct (is_indep (kd u)) eqn:Eu.
    + apply is_indep_true in Eu. rewrite (go_indep _ _ _ ok u Eu) in H. contradiction.
    + apply R in H. destruct (is_indep (kd v)); lia.
  - apply is_indep_true in Hv. apply is_indep_false in Hu. rewrite Hv, Hu. lia.
Qed.

Lemma s1_mono u v : dep_on d u v -> dep_on (deps s1) u v.
Proof. apply dep_on_mono. intros x y H. apply dep_direct. apply s1_facts. now left. Qed.

Lemma s1_root v : dep_on (deps s1) root v <-> dep_on d root v.
Proof.
  split; [|apply s1_mono].
  assert (G : forall u w, dep_on (deps s1) u w -> (u = root \/ dep_on d root u) -> dep_on d root w).
  { assert (E : forall u w, In w (deps s1 u) -> (u = root \/ dep_on d root u) -> dep_on d root w).
    { intros u w H Hu. apply s1_facts in H. destruct H as [H|(_ & _ & _ & H)].
      - destruct Hu as [->|Hu]; [now apply dep_direct|].
        apply dep_on_trans with u; [assumption|now apply dep_direct].
      - now apply dep_direct. }
    intros u w H. induction H as [u w H|u x w H H1 IH]; intros Hu; [eauto|].
    apply IH. right. eauto. }
  intros H. apply (G root v H). now left.
Qed.

Let I := filter (fun i => is_indep (kd i)) (d root).

Lemma I_spec v : In v I <-> In v (d root) /\ kd v = KIndep.
Proof. unfold I. now rewrite filter_In, is_indep_true. Qed.

Lemma s1_listed : all_listed iset ns s1.
Proof.
  destruct s1_ranked as (rank1 & R). destruct s1_facts as (_ & IN & ND & _).
  assert (IE : forall i u, kd i = KIndep -> ~ In u (deps s1 i)).
  { intros i u K H. apply IN in H. rewrite (go_indep _ _ _ ok i K) in H. destruct H as [[]|(_ & H & _)]. congruence. }
  apply (clean_all iset iset_P I (fun n => dep_on d root n) (fun n => dep_on d root n) (width d I) (shortcuts d I) rank1).
  - apply NoDup_filter, (go_simple _ _ _ ok).
  - intros n Hn. apply (go_tidy _ _ _ ok n Hn).
  - intros n Hn. split; now apply ns_spec.
  - constructor; auto.
    + intros u v Hu H. apply IN in H. destruct H as [H|(_ & _ & _ & H)].
      * apply dep_on_trans with u; [assumption|now apply dep_direct].
      * now apply dep_direct.
    + intros n Hn. apply NoDup_incl_length; [apply ND|].
      intros v Hv. apply IN in Hv. apply nodup_In, in_or_app.
      destruct Hv as [Hv|(_ & _ & Hv & Hr)]; [now left|]. right. apply I_spec. auto.
    + intros n Hn. apply filter_length_mono; [apply ND|]. intros v Hv P.
      apply andb_prop in P. destruct P as [P G]. rewrite P. cbn [andb].
      assert (NI : ~ In v I).
      { intros H. apply mem_In in H. rewrite H in P. discriminate. }
      assert (BK : forall u, In v (deps s1 u) -> In v (d u)).
      { intros u H. apply IN in H. destruct H as [H|(_ & _ & H1 & H2)]; [assumption|].
        exfalso. apply NI. apply I_spec. auto. }
      split; [auto|]. apply grandchild_spec in G. destruct G as (c & Hc & Hvc).
      apply existsb_exists. exists c. split; [|apply mem_In; auto].
      apply IN in Hc. destruct Hc as [Hc|(_ & _ & K & _)]; [assumption|]. exfalso. now apply (IE c v).
    + intros n Hn. destruct (is_indep (kd n)) eqn:K.
      * right. intros i _. apply IE. now apply is_indep_true.
      * left. intros i Hi. apply I_spec in Hi. apply IN. right. apply is_indep_false in K.
        splits; try tauto. now apply ns_spec.
Qed.

Lemma s2_prune : prune_rel s1 s2.
Proof.
  destruct s1_ranked as (rank1 & R).
  apply (prune_all iset ns s1 rank1 R).
  - apply s1_facts.
  - apply s1_listed.
Qed.

Lemma s2_reach u v : dep_on (deps s2) u v <-> dep_on (deps s1) u v.
Proof. apply (pr_reach _ _ s2_prune). Qed.

Lemma s2_root : deps s2 root = d root.
Proof.
  assert (G : forall l s', ~ In root l ->
    deps (fold_left (remove_indirect_dependencies iset) l s') root = deps s' root).
  { induction l as [|n l IH]; intros s' H; simpl; [reflexivity|].
    rewrite IH by (intros X; apply H; now right).
    apply remove_indirect_others. intros ->. apply H. now left. }
  unfold s2. rewrite G by apply root_notin. apply s1_facts.
Qed.

(** After every pass before the topological sort. *)
Lemma passes_ok :
  exists N s3 s4,
    (forall fuel, N <= fuel -> add_fwd_edges O fuel root s2 = Some s3)
    /\ existsb (fun n => Nat.eqb (length (dependents s3 n)) 0) ns = false
    /\ (forall fuel, N <= fuel -> compute_dag_cost fuel root s3 = Some s4)
    /\ let s5 := fold_left (sort_dependency_branches reverse) ns s4 in
       (exists rank5, ranked (deps s5) rank5)
       /\ (forall n, NoDup (deps s5 n))
       /\ (forall u v, dep_on (deps s5) u v <-> dep_on (deps s1) u v)
       /\ visited s5 = visited s
       /\ deps s5 root = d root
       /\ (forall v u, In u (dependents s5 v) <->
             In u (dependents s v) \/ ((u = root \/ dep_on d root u) /\ In v (deps s5 u)))
       /\ ((forall v, NoDup (dependents s v)) -> forall v, NoDup (dependents s5 v)).
Proof.
  destruct s1_ranked as (rank1 & R1).
  pose proof s2_prune as [F2 Sub2 Nd2 Ln2 Rc2].
  assert (R2 : ranked (deps s2) rank1) by (intros u v H; apply R1; auto).
  set (N := S (rank1 root)).
  destruct (fwd_total O rank1 N root s2 R2) as (s3 & E3); [unfold N; lia|].
  pose proof (fwd_sound O _ _ _ _ E3) as ((D3 & V3 & C3) & DP3 & ND3).
  destruct (cost_total rank1 N root s3) as (s4 & E4 & D4 & DP4 & V4 & T4).
  { now rewrite D3. } { unfold N; lia. }
  exists N, s3, s4.
  destruct (sort_all reverse ns s4) as (P5 & DP5 & V5 & C5 & T5).
  set (s5 := fold_left (sort_dependency_branches reverse) ns s4) in *.
  assert (IN5 : forall u v, In v (deps s5 u) <-> In v (deps s2 u)).
  { intros u v. rewrite <- D3, <- D4. split; apply Permutation_in; [|apply Permutation_sym]; apply P5. }
  assert (ROOT5 : deps s5 root = d root).
  { assert (G : forall l s', ~ In root l ->
      deps (fold_left (sort_dependency_branches reverse) l s') root = deps s' root).
    { induction l as [|n l IH]; intros s' H; simpl; [reflexivity|].
      rewrite IH by (intros X; apply H; now right).
      unfold sort_dependency_branches. cbn [set_deps deps]. apply upd_other.
      intros ->. apply H. now left. }
    unfold s5. rewrite G by apply root_notin. rewrite D4, D3. apply s2_root. }
  assert (RR : forall u, dep_on (deps s2) root u <-> dep_on d root u).
  { intros u. rewrite s2_reach. apply s1_root. }
  destruct s1_facts as ((S1a & S1b & S1c) & _).
  destruct F2 as (F2a & F2b & F2c & F2d).
  splits.
  - intros fuel L. now apply (fwd_mono O N).
  - apply Bool.not_true_iff_false. rewrite existsb_exists. intros (n & Hn & E).
    apply Nat.eqb_eq, length_zero_iff_nil in E.
    apply ns_spec, RR in Hn. apply dep_on_last in Hn. destruct Hn as (w & Hw & Hn).
    assert (H : In w (dependents s3 n)) by (apply DP3; right; tauto).
    rewrite E in H. contradiction.
  - intros fuel L. now apply (cost_mono N).
  - cbn zeta. splits.
    + exists rank1. intros u v H. apply R2. now apply IN5.
    + intros n. apply (Permutation_NoDup (Permutation_sym (P5 n))). rewrite D4, D3.
      apply Nd2. apply s1_facts.
    + intros u v. rewrite <- s2_reach. split; apply dep_on_mono; intros x y H; apply dep_direct, IN5, H.
    + rewrite V5, V4, V3, F2b, S1b. reflexivity.
    + exact ROOT5.
    + intros v u. rewrite DP5, DP4, DP3, F2a, S1a. rewrite RR.
      now rewrite IN5.
    + intros H v. rewrite DP5, DP4. apply ND3. rewrite F2a, S1a. apply H.
Qed.

(** Facts about the graph with the independent-variable edges. *)
Lemma s1_indep_edge n i : In n ns -> kd n <> KIndep -> kd i = KIndep -> In i (d root) ->
  dep_on (deps s1) n i.
Proof. intros. apply dep_direct, s1_facts. right. auto. Qed.
End Passes.

Variable uid : nat -> nat.

Lemma register_mono : forall fuel d self nodes r, register_nodes uid fuel d self nodes = Some r ->
  forall fuel', fuel <= fuel' -> register_nodes uid fuel' d self nodes = Some r.
Proof.
  induction fuel as [|f IH]; intros d self nodes r E [|f'] L; try discriminate; try lia.
  rewrite register_unfold in *. revert nodes E. generalize (d self) as ds.
  induction ds as [|n ds IHds]; intros nodes E; cbn [reg_loop] in *; [assumption|].
  destruct (lookup (uid n) nodes) as [m|].
  - destruct (Nat.eqb m n); [now apply IHds|assumption].
  - destruct (register_nodes uid f d n (nodes ++ [(uid n, n)])) as [[nodes'|e]|] eqn:E2;
      [| |discriminate]; rewrite (IH _ _ _ _ E2 f') by lia; [now apply IHds|assumption].
Qed.

Lemma register_root d : (exists N, finite_graph N d) -> uid_distinct root uid d ->
  exists N nodes, (forall fuel, N <= fuel -> register_nodes uid fuel d root [] = Some (Ok nodes))
    /\ NoDup (map snd nodes)
    /\ (forall v, In v (map snd nodes) <-> dep_on d root v)
    /\ (forall k n, In (k, n) nodes -> k = uid n).
Proof.
  intros (N & FN) UD.
  set (P := fun n => n = root \/ dep_on d root n).
  assert (PC : forall u v, P u -> In v (d u) -> P v).
  { intros u v [->|Hu] Hv; right; [now apply dep_direct|].
    apply dep_on_trans with u; [assumption|now apply dep_direct]. }
  assert (PU : forall n, P n -> In n (root :: seq 0 N)).
  { intros n [->|Hn]; [now left|]. right. apply in_seq.
    apply dep_on_last in Hn. destruct Hn as (w & _ & Hn). apply FN in Hn. lia. }
  destruct (register_nodes_spec uid P UD d PC (root :: seq 0 N) PU
              (S (length (root :: seq 0 N))) root) as (nodes & E & ND & SP & K).
  - lia.
  - now left.
  - exists (S (length (root :: seq 0 N))), nodes. splits; auto.
    + intros fuel L. now apply (register_mono (S (length (root :: seq 0 N)))).
    + intros k n H. now apply K in H.
Qed.

Lemma before_transitive d l : NoDup l ->
  (forall u v, In u l -> In v (d u) -> before l u v) ->
  forall u v, dep_on d u v -> In u l -> before l u v.
Proof.
  intros N H u v D. induction D as [u v D|u x v D D1 IH]; intros Hu; [auto|].
  assert (X : before l u x) by auto.
  apply before_trans with x; auto. apply IH. now apply before_in in X.
Qed.

Theorem setup_graph_spec d : graph_ok kd root d -> uid_distinct root uid d ->
  exists N nodes l s',
    (forall fuel, N <= fuel ->
       setup_graph O iset uid kd fuel root reverse [] (fresh d) = Some (Ok (nodes, l, s')))
    /\ valid_order d root (rev l)
    /\ (forall i n, In i (d root) -> kd i = KIndep -> In n l -> kd n <> KIndep -> before (rev l) i n)
    /\ NoDup (map snd nodes)
    /\ (forall v, In v (map snd nodes) <-> dep_on d root v)
    /\ (forall k n, In (k, n) nodes -> k = uid n)
    (* what a second run of setup finds *)
    /\ visited s' root = 1
    /\ deps s' root = d root
    /\ (forall u v, In v (deps s' u) -> In v (d u)
          \/ (dep_on d root u /\ kd u <> KIndep /\ kd v = KIndep /\ In v (d root)))
    /\ (forall v, dep_on (deps s') root v <-> dep_on d root v)
    /\ (forall n, NoDup (deps s' n))
    /\ (forall v, dep_on d root v -> dependents s' v <> [])
    /\ dependents s' root = [].
Proof.
  intros ok UD.
  destruct (register_root d (go_finite _ _ _ ok) UD) as (N0 & nodes & E0 & ND & SP & K).
  set (ns := map snd nodes) in *.
  destruct (passes_ok (fresh d) ns ok SP) as (N1 & s3 & s4 & E3 & E3b & E4 & H5).
  cbn zeta in H5.
  set (s5 := fold_left (sort_dependency_branches reverse) ns s4) in *.
  destruct H5 as ((rank5 & R5) & N5 & RC5 & V5 & RT5 & DP5 & DN5).
  assert (RR : forall v, dep_on (deps s5) root v <-> dep_on d root v).
  { intros v. rewrite RC5. apply (s1_root (fresh d) ns ok SP). }
  assert (NR : ~ dep_on (deps s5) root root) by (rewrite RR; apply (go_acyclic _ _ _ ok)).
  assert (DS5 : forall v u, In u (dependents s5 v) <-> (u = root \/ dep_on (deps s5) root u) /\ In v (deps s5 u)).
  { intros v u. rewrite DP5, RR. cbn [dependents fresh]. simpl. tauto. }
  assert (DNN : forall v, NoDup (dependents s5 v)) by (apply DN5; intros v; constructor).
  destruct (topo_spec s5 root ns N5 DNN DS5 NR ND) with (rank := rank5) as
    (N2 & l & vis & E5 & NDl & SPl & BF & VR).
  { intros v. now rewrite SP, RR. }
  { exact R5. }
  { intros n. rewrite V5. reflexivity. }
  exists (N0 + N1 + N2), nodes, l, (GS (deps s5) (dependents s5) vis (dag_cost s5) (tick s5)).
  assert (BT : forall u v, dep_on (deps s5) u v -> In u l -> before l u v).
  { intros u v. now apply before_transitive. }
  assert (NDr : NoDup (rev l)) by now apply NoDup_rev.
  splits.
  - intros fuel L. unfold setup_graph. cbn [deps fresh]. rewrite E0 by lia. fold ns.
    rewrite E3 by lia. rewrite E3b. rewrite E4 by lia. unfold topological_sort.
    fold s5. rewrite E5 by lia. reflexivity.
  - unfold valid_order. splits; auto.
    + intros n. rewrite <- in_rev, SPl. apply RR.
    + intros u v Hu D. rewrite <- in_rev in Hu. apply before_rev, BT; [|assumption].
      apply RC5. now apply (s1_mono (fresh d) ns ok SP).
  - intros i n Hi Ki Hn Kn. apply before_rev, BT; [|assumption]. apply RC5.
    apply (s1_indep_edge (fresh d) ns ok SP); auto. apply SP, RR, SPl, Hn.
  - exact ND.
  - exact SP.
  - exact K.
  - exact VR.
  - exact RT5.
  - intros u v H. cbn [deps] in H.
    assert (H2 : In v (deps (add_indep_edges O kd root ns (fresh d)) u)).
    { pose proof (s2_prune (fresh d) ns ok SP) as [_ Sub _ _ _]. apply Sub.
      destruct (sort_all reverse ns s4) as (P5 & _).
      apply (Permutation_in _ (P5 u)) in H.
      destruct (fwd_sound O _ _ _ _ (E3 N1 (le_n _))) as ((D3 & _) & _).
      pose proof (E4 N1 (le_n _)) as E4'.
      assert (D4 : deps s4 = deps s3).
      { clear - E4' R5 D3 ok SP ND iset_P.
        destruct (s1_ranked (fresh d) ns ok SP) as (rk & Rk).
        pose proof (s2_prune (fresh d) ns ok SP) as [_ Sub _ _ _].
        destruct (cost_total rk (S (N1 + rk root)) root s3) as (s4' & E & Dx & _).
        - rewrite D3. intros a b Hab. apply Rk. now apply Sub.
        - lia.
        - rewrite (cost_mono N1 root s3 s4 E4') in E by lia. congruence. }
      rewrite D4, D3 in H. exact H. }
    apply (s1_facts (fresh d) ns ok SP) in H2. cbn [deps fresh] in H2. rewrite SP in H2. exact H2.
  - intros v. cbn [deps]. apply RR.
  - exact N5.
  - intros v Hv. cbn [dependents]. apply RR in Hv. apply dep_on_last in Hv.
    destruct Hv as (w & Hw & Hv). intros E.
    assert (X : In w (dependents s5 v)) by (apply DS5; tauto). rewrite E in X. contradiction.
  - cbn [dependents]. apply (ds_root s5 root DS5 NR).
Qed.

(** A second run on the state left by the first. *)
Theorem setup_graph_again d N nodes l s' : graph_ok kd root d -> uid_distinct root uid d ->
  (forall fuel, N <= fuel ->
     setup_graph O iset uid kd fuel root reverse [] (fresh d) = Some (Ok (nodes, l, s'))) ->
  exists N' s'', forall fuel, N' <= fuel ->
     setup_graph O iset uid kd fuel root reverse nodes s' = Some (Ok (nodes, [], s'')).
Proof.
  intros ok UD E.
  destruct (setup_graph_spec d ok UD) as
    (N0 & nodes0 & l0 & s0 & E0 & _ & _ & ND & SP & K & VR & RT & SUB & RR & N5 & DNE & DR).
  pose proof (E (N + N0) ltac:(lia)) as A. rewrite E0 in A by lia. injection A as -> -> ->. clear E0.
  set (ns := map snd nodes) in *.
  assert (ok' : graph_ok kd root (deps s')).
  { destruct ok as [[Nf FN] AC SI IN RO WI].
    pose proof (finite_acyclic_ranked Nf d FN AC) as R.
    assert (R' : ranked (deps s') (fun n => if is_indep (kd n) then 0 else S (height d Nf n))).
    { intros u v H. apply SUB in H. destruct H as [H|(_ & Hu & Hv & _)].
      - destruct (is_indep (kd u)) eqn:Eu.
        + apply is_indep_true in Eu. rewrite (IN u Eu) in H. contradiction.
        + apply R in H. destruct (is_indep (kd v)); lia.
      - apply is_indep_true in Hv. apply is_indep_false in Hu. rewrite Hv, Hu. lia. }
    constructor; auto.
    - exists Nf. intros u v H. apply SUB in H. destruct H as [H|(Hu & _ & _ & Hv)]; [auto|].
      apply dep_on_last in Hu. destruct Hu as (w & _ & Hu). apply FN in Hu. apply FN in Hv. lia.
    - now apply ranked_acyclic in R'.
    - intros n Hn. destruct (deps s' n) as [|v r] eqn:Ev; [reflexivity|].
      assert (H : In v (deps s' n)) by (rewrite Ev; now left).
      apply SUB in H. rewrite (IN n Hn) in H. destruct H as [[]|(_ & H & _)]. congruence.
    - intros n Hn. rewrite RT. apply RR in Hn. specialize (WI n Hn).
      set (I := filter (fun i => is_indep (kd i)) (d root)) in *.
      assert (IS : forall v, In v I <-> In v (d root) /\ kd v = KIndep).
      { intros v. unfold I. now rewrite filter_In, is_indep_true. }
      assert (A1 : width (deps s') I n <= width d I n).
      { unfold width. apply NoDup_incl_length; [apply NoDup_nodup|].
        intros v Hv. apply nodup_In in Hv. apply nodup_In. apply in_app_or in Hv.
        apply in_or_app. destruct Hv as [Hv|Hv]; [|now right].
        apply SUB in Hv. destruct Hv as [Hv|(_ & _ & Hv & Hr)]; [now left|right]. now apply IS. }
      assert (A2 : shortcuts (deps s') I n <= shortcuts d I n).
      { apply filter_length_mono; [apply N5|]. intros v Hv P.
        apply andb_prop in P. destruct P as [P G]. rewrite P. cbn [andb].
        assert (BK : forall u, In v (deps s' u) -> In v (d u)).
        { intros u H. apply SUB in H. destruct H as [H|(_ & _ & H1 & H2)]; [assumption|].
          exfalso. assert (X : In v I) by (apply IS; auto). apply mem_In in X. rewrite X in P. discriminate. }
        split; [auto|]. apply existsb_exists in G. destruct G as (c & Hc & Hvc). apply mem_In in Hvc.
        apply existsb_exists. exists c. split; [|apply mem_In; auto].
        apply SUB in Hc. destruct Hc as [Hc|(_ & _ & Kc & _)]; [assumption|].
        apply SUB in Hvc. rewrite (IN c Kc) in Hvc. destruct Hvc as [[]|(_ & X & _)]. congruence. }
      unfold tidy in *. lia. }
  assert (SP' : forall v, In v ns <-> dep_on (deps s') root v) by (intros v; now rewrite SP, RR).
  destruct (passes_ok s' ns ok' SP') as (N1 & s3 & s4 & E3 & E3b & E4 & H5).
  cbn zeta in H5. set (s5 := fold_left (sort_dependency_branches reverse) ns s4) in *.
  destruct H5 as (_ & _ & RC5 & V5 & RT5 & DP5 & _).
  exists (S N1), (GS (deps s5) (dependents s5) (visited s5) (dag_cost s5) (tick s5)).
  intros fuel L. unfold setup_graph.
  assert (REG : register_nodes uid fuel (deps s') root nodes = Some (Ok nodes)).
  { destruct fuel as [|f]; [lia|]. rewrite register_unfold.
    assert (G : forall ds, (forall v, In v ds -> In v (deps s' root)) ->
      reg_loop uid (register_nodes uid f (deps s')) ds nodes = Some (Ok nodes)).
    { induction ds as [|v ds IH]; intros H; cbn [reg_loop]; [reflexivity|].
      assert (Hv : In v ns) by (apply SP'; apply dep_direct, H; now left).
      apply in_snd in Hv. destruct Hv as (k & Hv). pose proof (K _ _ Hv) as ->.
      destruct (lookup (uid v) nodes) as [m|] eqn:Lk.
      - apply lookup_in in Lk. pose proof (K _ _ Lk) as Ek.
        assert (m = v) as ->.
        { apply UD; [| |congruence]; right; apply SP, in_snd; eauto. }
        rewrite Nat.eqb_refl. apply IH. intros w Hw. apply H. now right.
      - exfalso. now apply (lookup_none uid _ _ v Lk). }
    apply G. auto. }
  rewrite REG. fold ns. rewrite E3 by lia. rewrite E3b. rewrite E4 by lia. unfold topological_sort.
  fold s5.
  assert (DR5 : dependents s5 root = []).
  { destruct (dependents s5 root) as [|u r] eqn:Eu; [reflexivity|exfalso].
    assert (H : In u (dependents s5 root)) by (rewrite Eu; now left).
    apply DP5 in H. rewrite DR in H. destruct H as [[]|[Hu Hr]].
    assert (C : dep_on (deps s5) root root).
    { destruct Hu as [->|Hu]; [now apply dep_direct|].
      apply dep_on_trans with u; [|now apply dep_direct].
      apply RC5. now apply (s1_mono s' ns ok' SP'). }
    apply RC5 in C. apply (s1_root s' ns ok' SP') in C. now apply (go_acyclic _ _ _ ok') in C. }
  destruct fuel as [|f]; [lia|]. cbn [topo_loop]. rewrite DR5, V5, VR. cbn [length Nat.leb].
  destruct f; reflexivity.
Qed.
End Setup.
