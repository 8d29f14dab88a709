(** Setup run again on the same group: proofs. *)
From Verif Require Import PyBase PySet SpecGraph GraphLemmas GraphPrune GraphRegister GraphEdges Graph SpecSetup GraphSetup
  Replace ReplaceProofs GroupApi SpecApi GroupApiProofs GroupApiAcyclic Assemble SpecAssemble.

Section Passes.
Variables (O : oracle) (iset : list nat -> list nat) (uid : nat -> nat) (kd : nat -> kind).

(** What each pass may do, whenever it ends; no assumption on the graph. *)
Lemma register_sub d : forall fuel self nodes nodes', register_nodes uid fuel d self nodes = Some (Ok nodes') ->
  forall n, In n (map snd nodes') -> In n (map snd nodes) \/ exists u, In n (d u).
Proof.
  induction fuel as [|f IH]; intros self nodes nodes' E; [discriminate|].
  rewrite register_unfold in E.
  assert (G : forall ds nodes, (forall x, In x ds -> In x (d self)) ->
    reg_loop uid (register_nodes uid f d) ds nodes = Some (Ok nodes') ->
    forall n, In n (map snd nodes') -> In n (map snd nodes) \/ exists u, In n (d u)).
  { clear E nodes. induction ds as [|x ds IHds]; intros nodes Sub E n Hn; cbn [reg_loop] in E.
    - injection E as <-. now left.
    - assert (Sub' : forall y, In y ds -> In y (d self)) by (intros y Hy; apply Sub; now right).
      destruct (lookup (uid x) nodes) as [m|].
      + destruct (Nat.eqb m x); [|discriminate]. now apply (IHds nodes Sub' E).
      + destruct (register_nodes uid f d x (nodes ++ [(uid x, x)])) as [[nodes1|e]|] eqn:E1; try discriminate.
        destruct (IHds nodes1 Sub' E n Hn) as [H|H]; [|now right].
        destruct (IH _ _ _ E1 n H) as [H'|H']; [|now right].
        rewrite map_app in H'. apply in_app_or in H'. destruct H' as [H'|[H'|[]]]; [now left|].
        simpl in H'. subst n. right. exists self. apply Sub. now left. }
  apply G with (ds := d self); auto.
Qed.

Lemma cost_same : forall fuel self s s', compute_dag_cost fuel self s = Some s' -> same_but_cost s s'.
Proof.
  induction fuel as [|f IH]; intros self s s' E; [discriminate|]. rewrite cost_unfold in E.
  assert (G : forall ds s1, same_but_cost s s1 -> cost_loop (compute_dag_cost f) self ds s1 = Some s' -> same_but_cost s s').
  { induction ds as [|w ds IHds]; intros s1 D E1; cbn [cost_loop] in E1; [congruence|].
    destruct (compute_dag_cost f w s1) as [s2|] eqn:E2; [|discriminate].
    apply IH in E2. apply IHds with (2 := E1). destruct D as (?&?&?&?), E2 as (?&?&?&?).
    unfold same_but_cost. cbn [deps dependents visited tick]. splits; congruence. }
  apply (G (deps s self) s); auto. repeat split.
Qed.

Lemma remove_index_sub l i : NoDup l ->
  NoDup (remove_dependency_by_index l i) /\ (forall v, In v (remove_dependency_by_index l i) -> In v l).
Proof.
  intros ND. unfold remove_dependency_by_index. destruct (nth_error l i); [|auto].
  split; [now apply remove_first_nodup|]. intros v. apply remove_first_in.
Qed.

Lemma prune_one s n : (forall m, NoDup (deps s m)) ->
  let s' := remove_indirect_dependencies iset s n in
  (forall m, NoDup (deps s' m)) /\ (forall u v, In v (deps s' u) -> In v (deps s u))
  /\ (forall m, m <> n -> deps s' m = deps s m)
  /\ dependents s' = dependents s /\ visited s' = visited s.
Proof.
  intros ND. cbv zeta. unfold remove_indirect_dependencies.
  set (t := if Nat.eqb _ _ then 1 else 0).
  assert (G : forall is l, NoDup l ->
    NoDup (fold_left (fun l i => if Nat.leb t i then remove_dependency_by_index l i else l) is l)
    /\ forall v, In v (fold_left (fun l i => if Nat.leb t i then remove_dependency_by_index l i else l) is l) -> In v l).
  { induction is as [|i is IH]; intros l Nl; [auto|]. cbn [fold_left].
    destruct (Nat.leb t i); [|auto]. destruct (remove_index_sub l i Nl) as [A B].
    destruct (IH _ A) as [A' B']. auto. }
  cbn [set_deps deps dependents visited]. unfold upd. splits; auto.
  - intros m. destruct (Nat.eqb m n); [now apply G|auto].
  - intros u v. destruct (Nat.eqb_spec u n) as [->|]; [now apply G|auto].
  - intros m Hm. now apply Nat.eqb_neq in Hm as ->.
Qed.

Lemma prune_all : forall ns s, (forall m, NoDup (deps s m)) ->
  let s' := fold_left (remove_indirect_dependencies iset) ns s in
  (forall m, NoDup (deps s' m)) /\ (forall u v, In v (deps s' u) -> In v (deps s u))
  /\ (forall m, ~ In m ns -> deps s' m = deps s m)
  /\ dependents s' = dependents s /\ visited s' = visited s.
Proof.
  induction ns as [|n ns IH]; intros s ND; cbn [fold_left]; [splits; auto|].
  destruct (prune_one s n ND) as (A1 & A2 & A3 & A4 & A5).
  destruct (IH _ A1) as (B1 & B2 & B3 & B4 & B5). cbv zeta. splits; auto; try congruence.
  intros m Hm. rewrite B3 by (intros H; apply Hm; now right). apply A3. intros ->. apply Hm. now left.
Qed.

Lemma sort_root reverse r : forall ns s, ~ In r ns ->
  deps (fold_left (sort_dependency_branches reverse) ns s) r = deps s r.
Proof.
  induction ns as [|n ns IH]; intros s H; cbn [fold_left]; [reflexivity|].
  rewrite IH by (intros Q; apply H; now right). unfold sort_dependency_branches. cbn [set_deps deps].
  apply upd_other. intros ->. apply H. now left.
Qed.

Lemma topo_visits s r : forall fuel stack vis sorted l vis',
  topo_loop fuel stack vis sorted s = Some (l, vis') -> vis r <= vis' r.
Proof.
  induction fuel as [|f IH]; intros [|v stack] vis sorted l vis' E; cbn [topo_loop] in E;
    try discriminate; try (injection E as <- <-; lia).
  destruct (Nat.leb (vis v) (length (dependents s v))).
  - apply IH in E. unfold upd in E at 1. destruct (Nat.eqb_spec r v) as [->|]; lia.
  - now apply IH in E.
Qed.

Lemma topo_root s fuel r l s' : topological_sort fuel r s = Some (l, s') -> dependents s r = [] ->
  1 <= visited s' r /\ (1 <= visited s r -> l = [])
  /\ deps s' = deps s /\ dependents s' = dependents s.
Proof.
  unfold topological_sort. intros E D.
  destruct (topo_loop fuel [r] (visited s) [] s) as [[l0 vis]|] eqn:T; [|discriminate].
  injection E as <- <-. cbn [visited deps dependents].
  destruct fuel as [|f]; cbn [topo_loop] in T; [discriminate|]. rewrite D in T. cbn [length] in T.
  destruct (Nat.leb_spec (visited s r) 0) as [L|L].
  - apply topo_visits with (r := r) in T. rewrite upd_same in T. splits; auto; lia.
  - destruct f; injection T as <- <-; splits; auto.
Qed.

(** The whole graph part of setup. *)
Lemma setup_graph_any fuel r reverse nodes0 s nodes l s' :
  setup_graph O iset uid kd fuel r reverse nodes0 s = Some (Ok (nodes, l, s')) ->
  (forall n, ~ In r (deps s n)) -> ~ In r (map snd nodes0) -> (forall n, NoDup (deps s n)) -> dependents s r = [] ->
  ~ In r (map snd nodes)
  /\ (forall n, In n (map snd nodes) -> In n (map snd nodes0) \/ exists u, In n (deps s u))
  /\ deps s' r = deps s r
  /\ (forall u v, In v (deps s' u) -> In v (deps s u)
        \/ (In u (map snd nodes) /\ kd u <> KIndep /\ kd v = KIndep /\ In v (deps s r)))
  /\ (forall n, NoDup (deps s' n))
  /\ dependents s' r = []
  /\ 1 <= visited s' r /\ (1 <= visited s r -> l = []).
Proof.
  unfold setup_graph. intros E NR N0 ND DR.
  destruct (register_nodes uid fuel (deps s) r nodes0) as [[nodes1|e]|] eqn:E1; try discriminate.
  pose proof (register_sub _ _ _ _ _ E1) as SUB.
  assert (NS : ~ In r (map snd nodes1)).
  { intros H. apply SUB in H. destruct H as [H|(u & H)]; [auto|]. now apply NR in H. }
  destruct (add_indep_edges_spec O kd r (map snd nodes1) s NS) as ((A1 & A2 & A3) & A4 & A5 & A6).
  set (s1 := add_indep_edges O kd r (map snd nodes1) s) in *.
  destruct (prune_all (map snd nodes1) s1 (fun m => A5 m (ND m))) as (B1 & B2 & B3 & B4 & B5).
  set (s2 := fold_left (remove_indirect_dependencies iset) (map snd nodes1) s1) in *.
  destruct (add_fwd_edges O fuel r s2) as [s3|] eqn:E3; [|discriminate].
  destruct (fwd_sound O _ _ _ _ E3) as ((C1 & C2 & C3) & C4 & C5).
  destruct (existsb _ (map snd nodes1)); [discriminate|].
  destruct (compute_dag_cost fuel r s3) as [s4|] eqn:E4; [|discriminate].
  destruct (cost_same _ _ _ _ E4) as (D1 & D2 & D3 & D4).
  destruct (sort_all reverse (map snd nodes1) s4) as (F1 & F2 & F3 & F4 & F5).
  pose proof (sort_root reverse r (map snd nodes1) s4 NS) as F6.
  set (s5 := fold_left (sort_dependency_branches reverse) (map snd nodes1) s4) in *.
  destruct (topological_sort fuel r s5) as [[l1 s6]|] eqn:E5; [|discriminate].
  injection E as <- <- <-.
  assert (EDGE : forall u v, In v (deps s2 u) -> In v (deps s u)
     \/ (In u (map snd nodes1) /\ kd u <> KIndep /\ kd v = KIndep /\ In v (deps s r))).
  { intros u v H. apply B2, A4 in H. destruct H as [H|(H1 & H2 & H3 & H4)]; [now left|right].
    splits; auto; [now apply is_indep_false|now apply is_indep_true]. }
  assert (D5 : dependents s5 r = []).
  { rewrite F2, D2. destruct (dependents s3 r) as [|u q] eqn:Q; [reflexivity|exfalso].
    assert (H : In u (dependents s3 r)) by (rewrite Q; now left).
    apply C4 in H. rewrite B4, A1, DR in H. destruct H as [[]|[_ H]].
    apply EDGE in H. destruct H as [H|(_ & _ & _ & H)]; now apply NR in H. }
  destruct (topo_root s5 fuel r l1 s6 E5 D5) as (T1 & T2 & T3 & T4).
  splits; auto.
  - rewrite T3, F6, D1, C1, B3 by assumption. exact A6.
  - intros u v H. rewrite T3 in H. apply (Permutation_in _ (F1 u)) in H. rewrite D1, C1 in H. now apply EDGE.
  - intros n. rewrite T3. apply (Permutation_NoDup (Permutation_sym (F1 n))). rewrite D1, C1. apply B1.
  - congruence.
  - intros V. apply T2. rewrite F3, D3, C2, B5, A2. exact V.
Qed.
End Passes.

(** * The group between two runs *)
Record between (g : group) : Prop := {
  bt_inv : ainv (g_api g);
  bt_nodes : ~ In root (map snd (g_nodes g));
  bt_bound : forall n, In n (map snd (g_nodes g)) -> n < anext (g_api g);
  bt_dep : dependents (g_passes g) root = []
}.

Lemma between0 : between group0.
Proof. constructor; try (cbn; tauto). exact ainv0. Qed.

Lemma build_all_kinds st : forall order added l, build_all st order added = Ok l -> order = [] -> l = added.
Proof. intros order added l E ->. cbn in E. congruence. Qed.

Lemma setup_once_between O uid fuel reverse g h g' added : between g ->
  setup_once O uid fuel reverse g h = Some (Ok (g', added)) ->
  between g' /\ 1 <= visited (g_passes g') root /\ (1 <= visited (g_passes g) root -> added = []).
Proof.
  intros [I NN NB DR] E. unfold setup_once in E.
  destruct (run_ops O fuel (g_api g) h) as [[st rs]|] eqn:ER; [|discriminate].
  pose proof (run_inv O fuel h _ st rs I ER) as [B R].
  pose proof (e_next _ _ _ (run_ext O fuel h _ st rs I ER)) as LE.
  destruct (setup_graph _ _ _ _ _ _ _ _ _) as [[[[nodes l] s']|e]|] eqn:ES; try discriminate.
  destruct (build_all st (rev l) []) as [ad|e] eqn:EB; [|discriminate]. cbn in E. injection E as <- <-.
  apply setup_graph_any in ES; cbn [deps dependents visited] in *; auto;
    [|apply (v_noroot st B)|apply (v_simple st B)].
  destruct ES as (H1 & H2 & H3 & H4 & H5 & H6 & H7 & H8).
  assert (BD : forall n, In n (map snd nodes) -> n < anext st).
  { intros n H. apply H2 in H. destruct H as [H|(u & H)]; [apply NB in H; lia|]. now apply (v_fin st B) in H. }
  splits; auto.
  - constructor; cbn [g_api g_nodes g_passes]; auto. split.
    + constructor; cbn [set_adeps adeps akind abuild adefined arecent anext adecomp aparts]; try apply B.
      * intros u v H. apply H4 in H. destruct H as [H|(Hu & _ & _ & Hv)]; [now apply (v_fin st B)|].
        apply BD in Hu. apply (v_fin st B) in Hv. lia.
      * exact H5.
      * intros n H. apply H4 in H. destruct H as [H|(_ & _ & _ & H)]; now apply (v_noroot st B) in H.
      * intros n K. destruct (deps s' n) as [|v q] eqn:Q; [reflexivity|exfalso].
        assert (H : In v (deps s' n)) by (rewrite Q; now left).
        apply H4 in H. rewrite (v_indep st B n K) in H. destruct H as [[]|(_ & H & _)]. congruence.
    + intros n H. cbn [set_adeps adeps akind] in *. rewrite H3. now apply R.
  - intros V. rewrite (H8 V) in EB. cbn in EB. congruence.
Qed.

Lemma set_up_between uid g : set_up uid g -> between g /\ 1 <= visited (g_passes g) root.
Proof.
  induction 1 as [O fuel reverse h g added E|O fuel reverse g h g' added _ [IB IV] E].
  - destruct (setup_once_between _ _ _ _ _ _ _ _ between0 E) as (A & B & _). auto.
  - destruct (setup_once_between _ _ _ _ _ _ _ _ IB E) as (A & B & _). auto.
Qed.

Lemma setup_again O uid fuel reverse g h g' added : set_up uid g ->
  setup_once O uid fuel reverse g h = Some (Ok (g', added)) -> added = [].
Proof.
  intros S E. destruct (set_up_between uid g S) as [B V].
  destruct (setup_once_between _ _ _ _ _ _ _ _ B E) as (_ & _ & H). auto.
Qed.

(** * A model set up twice *)
(** y = f(x), written for a group whose next object is [n]. *)
Definition small_model (n : nat) : list op := [DeclareInput 1; Expr 0 [n]; Register 7 (S n)].
Definition group_of (x : option (res (group * list nat))) : group :=
  match x with Some (Ok (g, _)) => g | _ => group0 end.
Definition systems_of (x : option (res (group * list nat))) : option (list nat) :=
  match x with Some (Ok (_, l)) => Some l | _ => None end.
Lemma outcome x l : systems_of x = Some l -> x = Some (Ok (group_of x, l)).
Proof. destruct x as [[[g l']|e]|]; intros H; try discriminate H. injection H as ->. reflexivity. Qed.

Definition setup_next O uid fuel (model : nat -> list op) (g : group) : option (res (group * list nat)) :=
  setup_once O uid fuel false g (model (anext (g_api g))).
Lemma set_up_check O uid fuel model l l' :
  systems_of (setup_next O uid fuel model group0) = Some l ->
  systems_of (setup_next O uid fuel model (group_of (setup_next O uid fuel model group0))) = Some l' ->
  exists g g', setup_once O uid fuel false group0 (model (anext (g_api group0))) = Some (Ok (g, l))
    /\ setup_once O uid fuel false g (model (anext (g_api g))) = Some (Ok (g', l')).
Proof.
  unfold setup_next. intros H1 H2. apply outcome in H1, H2. eauto.
Qed.

Lemma set_up_twice_empty : exists O uid fuel model g g',
  setup_once O uid fuel false group0 (model (anext (g_api group0))) = Some (Ok (g, [2]))
  /\ setup_once O uid fuel false g (model (anext (g_api g))) = Some (Ok (g', [])).
Proof.
  exists nodup_oracle, (fun n => n), 60, small_model. apply set_up_check; vm_compute; reflexivity.
Qed.
