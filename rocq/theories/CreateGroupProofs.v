(** Groups made by create_group: proofs. *)
From Verif Require Import PyBase PySet SpecGraph GraphLemmas GraphPrune GraphRegister GraphEdges Graph SpecSetup GraphSetup
  Replace ReplaceProofs GroupApi SpecApi GroupApiProofs GroupApiAcyclic Assemble SpecAssemble ApiCheck SetupAgain GraphTick CreateGroup.
Import ListNotations.

Section Again.
Variables (O : oracle) (iset : list nat -> list nat) (uid : nat -> nat) (kd : nat -> kind).

Lemma lookup_app k nodes more m : lookup k nodes = Some m -> lookup k (nodes ++ more) = Some m.
Proof.
  induction nodes as [|[k' n] nodes IH]; intros H; [discriminate|]. cbn [lookup app] in *.
  destruct (Nat.eqb k' k); auto.
Qed.
Lemma lookup_snoc k nodes n : lookup k nodes = None -> lookup k (nodes ++ [(k, n)]) = Some n.
Proof.
  induction nodes as [|[k' m] nodes IH]; intros H; cbn [lookup app] in *; [now rewrite Nat.eqb_refl|].
  destruct (Nat.eqb k' k); [discriminate|auto].
Qed.

(** register_nodes that ends normally has recorded everything it meets. *)
Lemma register_closed d : forall fuel self nodes nodes', register_nodes uid fuel d self nodes = Some (Ok nodes') ->
  exists new, nodes' = nodes ++ new
    /\ (forall v, In v (d self) -> lookup (uid v) nodes' = Some v)
    /\ forall u v, In u (map snd new) -> In v (d u) -> lookup (uid v) nodes' = Some v.
Proof.
  induction fuel as [|f IH]; intros self nodes nodes' E; [discriminate|].
  rewrite register_unfold in E.
  assert (G : forall ds nodes, reg_loop uid (register_nodes uid f d) ds nodes = Some (Ok nodes') ->
    exists new, nodes' = nodes ++ new /\ (forall v, In v ds -> lookup (uid v) nodes' = Some v)
      /\ forall u v, In u (map snd new) -> In v (d u) -> lookup (uid v) nodes' = Some v).
  { clear E nodes. induction ds as [|x ds IHds]; intros nodes E; cbn [reg_loop] in E.
    - injection E as <-. exists []. rewrite app_nil_r. splits; auto; intros; contradiction.
    - destruct (lookup (uid x) nodes) as [m|] eqn:L.
      + destruct (Nat.eqb_spec m x) as [->|]; [|discriminate].
        destruct (IHds _ E) as (new & -> & A & B). exists new. splits; auto.
        intros v [<-|H]; [now apply lookup_app|auto].
      + destruct (register_nodes uid f d x (nodes ++ [(uid x, x)])) as [[nodes1|e]|] eqn:E1; try discriminate.
        destruct (IH _ _ _ E1) as (new1 & -> & A1 & B1). destruct (IHds _ E) as (new2 & -> & A2 & B2).
        exists ([(uid x, x)] ++ new1 ++ new2). splits.
        * now rewrite <- !app_assoc.
        * intros v [<-|H]; [|auto]. apply lookup_app, lookup_app, lookup_snoc, L.
        * intros u v H Hv. cbn in H. rewrite map_app in H. destruct H as [<-|H]; [now apply lookup_app, A1|].
          apply in_app_or in H. destruct H as [H|H]; [apply lookup_app; eauto|eauto]. }
  exact (G _ _ E).
Qed.

(** Everything recorded already: nothing happens. *)
Lemma register_done d fuel self nodes : 0 < fuel ->
  (forall v, In v (d self) -> lookup (uid v) nodes = Some v) -> register_nodes uid fuel d self nodes = Some (Ok nodes).
Proof.
  intros F H. destruct fuel as [|f]; [lia|]. rewrite register_unfold. revert H. generalize (d self) as ds.
  induction ds as [|x ds IH]; intros H; cbn [reg_loop]; [reflexivity|].
  rewrite (H x) by now left. rewrite Nat.eqb_refl. apply IH. intros; apply H; now right.
Qed.

(** What a run leaves behind, and what the next one needs. *)
Definition levels (d : nat -> list nat) (rank : nat -> nat) : Prop :=
  ranked d rank /\ forall n, rank n = 0 <-> is_indep (kd n) = true.
Record rerun (M : nat) (r : nat) (nodes : list (nat * nat)) (s : gstate) : Prop := {
  rr_rank : exists rank, levels (deps s) rank /\ rank r <= M;
  rr_indep : forall n, kd n = KIndep -> deps s n = [];
  rr_simple : forall n, NoDup (deps s n);
  rr_noroot : forall n, ~ In r (deps s n);
  rr_nodes : ~ In r (map snd nodes);
  rr_known : forall v, In v (deps s r) -> lookup (uid v) nodes = Some v;
  rr_used : forall n, In n (map snd nodes) -> dependents s n <> [];
  rr_root : dependents s r = []
}.

(** The edges to independent variables that setup adds keep the graph acyclic. *)
Lemma to_levels d rank : ranked d rank -> (forall n, kd n = KIndep -> d n = []) ->
  levels d (fun n => if is_indep (kd n) then 0 else S (rank n)).
Proof.
  intros R HI. split.
  - intros u v H. destruct (is_indep (kd u)) eqn:K.
    + apply is_indep_true in K. rewrite (HI u K) in H. contradiction.
    + pose proof (R u v H). destruct (is_indep (kd v)); lia.
  - intros n. destruct (is_indep (kd n)); split; intros H; auto; discriminate.
Qed.
Lemma indep_levels r ns s rank : levels (deps s) rank -> ~ In r ns -> levels (deps (add_indep_edges O kd r ns s)) rank.
Proof.
  intros [R L] N. split; [|assumption]. intros u v H.
  apply (add_indep_edges_spec O kd r ns s N) in H. destruct H as [H|(_ & Ku & Kv & _)]; [auto|].
  apply L in Kv. assert (rank u <> 0) by (intros Q; apply L in Q; congruence). lia.
Qed.

Lemma setup_rerun M r reverse nodes s : rerun M r nodes s -> 1 <= visited s r ->
  forall fuel, S (S M) <= fuel -> exists s',
    setup_graph O iset uid kd fuel r reverse nodes s = Some (Ok (nodes, [], s'))
    /\ rerun M r nodes s' /\ 1 <= visited s' r.
Proof.
  intros [(rank1 & RK & RM) HI HS HR HN HK HU HD] V fuel F. unfold setup_graph.
  destruct (indep_levels r (map snd nodes) s rank1 RK HN) as [R1 RL].
  rewrite register_done by (auto; lia).
  destruct (add_indep_edges_spec O kd r (map snd nodes) s HN) as ((A1 & A2 & A3) & A4 & A5 & A6).
  set (s1 := add_indep_edges O kd r (map snd nodes) s) in *.
  destruct (prune_all iset (map snd nodes) s1 (fun m => A5 m (HS m))) as (B1 & B2 & B3 & B4 & B5).
  set (s2 := fold_left (remove_indirect_dependencies iset) (map snd nodes) s1) in *.
  assert (R2 : ranked (deps s2) rank1) by (intros u v H; apply R1, B2, H).
  destruct (fwd_total O rank1 fuel r s2 R2 ltac:(lia)) as (s3 & E3). rewrite E3.
  destruct (fwd_sound O _ _ _ _ E3) as ((C1 & C2 & C3) & C4 & C5).
  assert (U3 : forall n, In n (map snd nodes) -> dependents s3 n <> []).
  { intros n Hn Q. apply (HU n Hn). destruct (dependents s n) as [|u q] eqn:W; [reflexivity|exfalso].
    assert (H : In u (dependents s3 n)) by (apply C4; left; rewrite B4, A1, W; now left).
    rewrite Q in H. contradiction. }
  assert (EX : existsb (fun n => Nat.eqb (length (dependents s3 n)) 0) (map snd nodes) = false).
  { apply not_true_is_false. intros Q. apply existsb_exists in Q. destruct Q as (n & Hn & Q).
    apply Nat.eqb_eq in Q. apply (U3 n Hn). now destruct (dependents s3 n). }
  rewrite EX.
  assert (R3 : ranked (deps s3) rank1) by (rewrite C1; exact R2).
  destruct (cost_total rank1 fuel r s3 R3 ltac:(lia)) as (s4 & E4 & D1 & D2 & D3 & D4). rewrite E4.
  destruct (sort_all reverse (map snd nodes) s4) as (F1 & F2 & F3 & F4 & F5).
  pose proof (sort_root reverse r (map snd nodes) s4 HN) as F6.
  set (s5 := fold_left (sort_dependency_branches reverse) (map snd nodes) s4) in *.
  assert (EDGE : forall u v, In v (deps s5 u) -> In v (deps s u)
     \/ (In u (map snd nodes) /\ kd u <> KIndep /\ kd v = KIndep /\ In v (deps s r))).
  { intros u v H. apply (Permutation_in _ (F1 u)) in H. rewrite D1, C1 in H. apply B2, A4 in H.
    destruct H as [H|(H1 & H2 & H3 & H4)]; [now left|right].
    splits; auto; [now apply is_indep_false|now apply is_indep_true]. }
  assert (D5 : dependents s5 r = []).
  { rewrite F2, D2. destruct (dependents s3 r) as [|u q] eqn:Q; [reflexivity|exfalso].
    assert (H : In u (dependents s3 r)) by (rewrite Q; now left).
    apply C4 in H. rewrite B4, A1, HD in H. destruct H as [[]|[_ H]].
    apply B2, A4 in H. destruct H as [H|(_ & _ & _ & H)]; now apply HR in H. }
  assert (V5 : 1 <= visited s5 r) by (rewrite F3, D3, C2, B5, A2; exact V).
  assert (T : exists s6, topological_sort fuel r s5 = Some ([], s6) /\ deps s6 = deps s5
              /\ dependents s6 = dependents s5 /\ visited s6 = visited s5).
  { unfold topological_sort. destruct fuel as [|f]; [lia|]. cbn [topo_loop]. rewrite D5. cbn [length].
    destruct (Nat.leb_spec (visited s5 r) 0) as [L|L]; [lia|].
    destruct f as [|f]; [lia|]. cbn [topo_loop]. eexists. split; [reflexivity|]. cbn. auto. }
  destruct T as (s6 & E6 & T1 & T2 & T3). rewrite E6. exists s6. splits; auto; [|now rewrite T3].
  constructor; auto.
  - exists rank1. split; [|assumption]. split; [|assumption].
    intros u v H. rewrite T1 in H. apply (Permutation_in _ (F1 u)) in H. rewrite D1 in H. now apply R3.
  - intros n K. destruct (deps s6 n) as [|v q] eqn:Q; [reflexivity|exfalso].
    assert (W : In v (deps s6 n)) by (rewrite Q; now left). rewrite T1 in W.
    apply EDGE in W. rewrite (HI n K) in W. destruct W as [[]|(_ & W & _)]. congruence.
  - intros n. rewrite T1. apply (Permutation_NoDup (Permutation_sym (F1 n))). rewrite D1, C1. apply B1.
  - intros n H. rewrite T1 in H. apply EDGE in H. destruct H as [H|(_ & _ & _ & H)]; now apply HR in H.
  - intros v H. rewrite T1, F6, D1, C1, B3, A6 in H by assumption. now apply HK.
  - intros n Hn. rewrite T2, F2, D2. now apply U3.
  - now rewrite T2.
Qed.

(** A run that ended normally. *)
Lemma setup_leaves fuel r reverse s nodes l s' :
  (exists rank, ranked (deps s) rank) -> (forall n, kd n = KIndep -> deps s n = []) -> (forall n, NoDup (deps s n)) ->
  (forall n, ~ In r (deps s n)) -> dependents s r = [] ->
  setup_graph O iset uid kd fuel r reverse [] s = Some (Ok (nodes, l, s')) ->
  exists M, rerun M r nodes s' /\ 1 <= visited s' r.
Proof.
  intros [rank RK] HI HS HR HD E.
  destruct (setup_graph_any O iset uid kd _ _ _ _ _ _ _ _ E HR ltac:(auto) HS HD) as (N1 & N2 & N3 & N4 & N5 & N6 & N7 & _).
  pose proof (to_levels _ _ RK HI) as R0. set (rank1 := fun n => if is_indep (kd n) then 0 else S (rank n)) in *.
  exists (rank1 r). split; [|assumption]. unfold setup_graph in E.
  destruct (register_nodes uid fuel (deps s) r []) as [[nodes1|e]|] eqn:E1; try discriminate.
  destruct (register_closed _ _ _ _ _ E1) as (new & -> & CL1 & CL2). cbn [app] in *.
  set (s1 := add_indep_edges O kd r (map snd new) s) in *.
  set (s2 := fold_left (remove_indirect_dependencies iset) (map snd new) s1) in *.
  destruct (add_fwd_edges O fuel r s2) as [s3|] eqn:E3; [|discriminate].
  destruct (existsb _ (map snd new)) eqn:EX; [discriminate|].
  destruct (compute_dag_cost fuel r s3) as [s4|] eqn:E4; [|discriminate].
  destruct (cost_same _ _ _ _ E4) as (D1 & D2 & D3 & D4).
  destruct (sort_all reverse (map snd new) s4) as (F1 & F2 & F3 & F4 & F5).
  set (s5 := fold_left (sort_dependency_branches reverse) (map snd new) s4) in *.
  destruct (topological_sort fuel r s5) as [[l1 s6]|] eqn:E5; [|discriminate]. injection E as <- <- <-.
  assert (T : deps s6 = deps s5 /\ dependents s6 = dependents s5).
  { unfold topological_sort in E5. destruct (topo_loop _ _ _ _ _) as [[? ?]|]; [|discriminate]. injection E5 as _ <-. auto. }
  destruct T as [T1 T2].
  destruct (indep_levels r (map snd new) s rank1 R0 N1) as [R1 RL]. fold s1 in R1.
  destruct (add_indep_edges_spec O kd r (map snd new) s N1) as ((A1 & A2 & A3) & A4 & A5 & A6). fold s1 in A1, A2, A3, A4, A5, A6.
  destruct (prune_all iset (map snd new) s1 (fun m => A5 m (HS m))) as (B1 & B2 & B3 & B4 & B5). fold s2 in B1, B2, B3, B4, B5.
  destruct (fwd_sound O _ _ _ _ E3) as ((C1 & C2 & C3) & C4 & C5).
  constructor; auto.
  - exists rank1. split; [|lia]. split; [|assumption].
    intros u v H. rewrite T1 in H. apply (Permutation_in _ (F1 u)) in H. rewrite D1, C1 in H. now apply R1, B2.
  - intros n K. destruct (deps s6 n) as [|v q] eqn:Q; [reflexivity|exfalso].
    assert (W : In v (deps s6 n)) by (rewrite Q; now left).
    apply N4 in W. rewrite (HI n K) in W. destruct W as [[]|(_ & W & _)]. congruence.
  - intros n H. apply N4 in H. destruct H as [H|(_ & _ & _ & H)]; now apply HR in H.
  - intros v H. rewrite N3 in H. now apply CL1.
  - intros n Hn Q. rewrite T2, F2, D2 in Q.
    assert (W : existsb (fun n => Nat.eqb (length (dependents s3 n)) 0) (map snd new) = true).
    { apply existsb_exists. exists n. split; [assumption|]. now rewrite Q. }
    rewrite W in EX. discriminate.
Qed.
End Again.

Definition steady uid M (c : child) : Prop :=
  let g := ch_group c in
  rerun uid (akind (g_api g)) M root (g_nodes g) (g_passes g) /\ 1 <= visited (g_passes g) root
  /\ adeps (g_api g) = deps (g_passes g) /\ ch_systems c = ch_static c.

Lemma retick uid kd M r nodes s t : rerun uid kd M r nodes s ->
  rerun uid kd M r nodes (GS (deps s) (dependents s) (visited s) (dag_cost s) t).
Proof. intros []. constructor; auto. Qed.

Lemma problem_setup_steady O uid M c : steady uid M c -> forall fuel, S (S M) <= fuel ->
  exists c', problem_setup O uid fuel c = Some (Ok c') /\ steady uid M c' /\ ch_systems c' = ch_systems c.
Proof.
  intros (R & V & D & S) fuel F. set (g := ch_group c) in *. set (s := g_passes g) in *.
  destruct (setup_rerun O set_list uid (akind (g_api g)) M root false (g_nodes g)
              (GS (deps s) (dependents s) (visited s) (dag_cost s) (atick (g_api g))) ltac:(now apply retick) V fuel F)
    as (s' & E & R' & V').
  unfold problem_setup, setup_once. fold g. cbn [run_ops]. fold s. rewrite D, E. cbn [rev build_all].
  eexists. split; [reflexivity|]. cbn. rewrite app_nil_r. split; [|congruence].
  split; [exact R'|]. split; [exact V'|]. split; reflexivity.
Qed.

Lemma problem_setups_steady O uid M fuel : S (S M) <= fuel -> forall k c, steady uid M c ->
  exists c', problem_setups O uid fuel k c = Some (Ok c') /\ ch_systems c' = ch_systems c.
Proof.
  intros F. induction k as [|k IH]; intros c H; cbn [problem_setups]; [eauto|].
  destruct (problem_setup_steady O uid M c H fuel F) as (c1 & -> & H1 & Q).
  destruct (IH c1 H1) as (c' & E & Q'). exists c'. split; [assumption|congruence].
Qed.

Lemma run_until_ops O fuel : forall h st st' x, run_until O fuel st h = Some (st', x) ->
  exists h1 rs, (exists h2, h = h1 ++ h2) /\ run_ops O fuel st h1 = Some (st', rs)
    /\ match x with None => h1 = h | Some e => exists rs', rs = rs' ++ [Raise e] end.
Proof.
  induction h as [|o h IH]; intros st st' x E; cbn [run_until] in E.
  - injection E as <- <-. exists [], []. splits; auto. exists []. reflexivity.
  - destruct (step O fuel st o) as [[st1 [y|e]]|] eqn:S; [| |discriminate].
    + destruct (IH _ _ _ E) as (h1 & rs & (h2 & ->) & R & X). exists (o :: h1), (Ok y :: rs). cbn [run_ops].
      rewrite S, R. splits; [exists h2; reflexivity|reflexivity|].
      destruct x as [e|]; [|congruence]. destruct X as (rs' & ->). exists (Ok y :: rs'). reflexivity.
    + injection E as <- <-. exists [o], [Raise e]. cbn [run_ops]. rewrite S.
      splits; [exists h; reflexivity|reflexivity|]. exists []. reflexivity.
Qed.

(** setup of a group that has not been set up before *)
Lemma setup_new O uid fuel reverse st : setup_once O uid fuel reverse (MkGroup st [] (fresh (adeps st))) [] =
  match setup_graph O set_list uid (akind st) fuel root reverse [] (ahead (atick st) (fresh (adeps st))) with
  | None => None
  | Some (Raise e) => Some (Raise e)
  | Some (Ok (nodes, l, s')) =>
    Some (do added <- build_all st (rev l) [] ;; Ok (MkGroup (set_adeps st (deps s') (tick s')) nodes s', added))
  end.
Proof. unfold setup_once, ahead, fresh. cbn. now rewrite Nat.add_0_r. Qed.

Lemma setup_new_systems O uid fuel reverse st g added :
  setup_once O uid fuel reverse (MkGroup st [] (fresh (adeps st))) [] = Some (Ok (g, added)) ->
  group_setup (oracle_from (atick st) O) set_list uid fuel reverse st = Some (Ok added).
Proof.
  rewrite setup_new, setup_ahead. unfold group_setup.
  destruct (setup_graph (oracle_from (atick st) O) set_list uid (akind st) fuel root reverse [] (fresh (adeps st)))
    as [[[[nodes l] s']|e]|]; try discriminate. cbn [option_map ahead_result].
  destruct (build_all st (rev l) []); [|discriminate]. cbn. intros E. now injection E as _ ->.
Qed.

(** C104 *)
Theorem create_group_steady O uid fuel h c :
  create_group O uid fuel h = Some (Ok c) ->
  exists st rs, run_ops O fuel api0 h = Some (st, rs)
    /\ group_setup (oracle_from (atick st) O) set_list uid fuel false st = Some (Ok (ch_systems c))
    /\ (acyclic (adeps st) -> exists N, forall O' fuel' k, N <= fuel' -> exists c',
          problem_setups O' uid fuel' k c = Some (Ok c') /\ ch_systems c' = ch_systems c).
Proof.
  unfold create_group. intros E. destruct (run_until O fuel api0 h) as [[st x]|] eqn:R; [|discriminate].
  destruct (run_until_ops _ _ _ _ _ _ R) as (h1 & rs & _ & RO & X).
  destruct (setup_once O uid fuel false _ []) as [[[g added]|e]|] eqn:S; try discriminate.
  destruct x as [e|]; [discriminate|]. injection E as <-. subst h1. exists st, rs. splits; auto.
  - exact (setup_new_systems _ _ _ _ _ _ _ S).
  - intros AC. pose proof (run_inv O fuel h api0 st rs ainv0 RO) as [B RT]. rewrite setup_new in S.
    destruct (setup_graph _ _ _ _ _ _ _ _ _) as [[[[nodes l] s']|e]|] eqn:ES; try discriminate.
    destruct (build_all st (rev l) []) as [ad|e] eqn:EB; [|discriminate]. cbn in S. injection S as <- <-.
    apply setup_leaves in ES.
    + destruct ES as (M & RR & V). exists (Datatypes.S (Datatypes.S M)). intros O' fuel' k F.
      apply (problem_setups_steady O' uid M fuel' F k). unfold steady. cbn. splits; auto.
    + exists (height (adeps st) (anext st)). exact (finite_acyclic_ranked _ _ (v_fin st B) AC).
    + exact (v_indep st B).
    + exact (v_simple st B).
    + exact (v_noroot st B).
    + reflexivity.
Qed.

(** C105 *)
Theorem block_exception O uid fuel h1 o h2 st e st' :
  run_until O fuel api0 h1 = Some (st, None) -> step O fuel st o = Some (st', Raise e) ->
  create_group O uid fuel (h1 ++ o :: h2) =
    match group_setup (oracle_from (atick st') O) set_list uid fuel false st' with
    | None => None
    | Some (Raise e') => Some (Raise e')
    | Some (Ok _) => Some (Raise e)
    end.
Proof.
  intros R S. unfold create_group.
  assert (Q : run_until O fuel api0 (h1 ++ o :: h2) = Some (st', Some e)).
  { revert R. generalize api0. induction h1 as [|a h1 IH]; intros s0 R; cbn [run_until app] in *.
    - injection R as ->. now rewrite S.
    - destruct (step O fuel s0 a) as [[s1 [y|e']]|]; try discriminate. now apply IH. }
  rewrite Q, setup_new, setup_ahead. unfold group_setup.
  destruct (setup_graph (oracle_from (atick st') O) set_list uid (akind st') fuel root false [] (fresh (adeps st')))
    as [[[[nodes l] s']|e']|]; try reflexivity. cbn [option_map ahead_result].
  destruct (build_all st' (rev l) []); reflexivity.
Qed.

Lemma block_exception_masked : exists O uid fuel h st st' o,
  run_until O fuel api0 h = Some (st, None) /\ step O fuel st o = Some (st', Raise TypeError)
  /\ create_group O uid fuel (h ++ [o]) = Some (Raise ValueError).
Proof.
  (* an output whose definition is to follow, then an input registered as an output *)
  exists nodup_oracle, (fun n => n), 60, [CreateOutput 1; DeclareInput 2].
  eexists. eexists. exists (Register 3 2).
  split; [vm_compute; reflexivity|]. split; [vm_compute; reflexivity|]. vm_compute. reflexivity.
Qed.

Definition systems_at (x : option (res child)) : option (list nat) :=
  match x with Some (Ok c) => Some (ch_systems c) | _ => None end.
Definition ranks_after (x : option (api * list (res nat))) : bool :=
  match x with Some (st, _) => ranks st | None => false end.
Lemma create_group_check O uid fuel h l :
  systems_at (create_group O uid fuel h) = Some l -> ranks_after (run_ops O fuel api0 h) = true ->
  exists st rs c, create_group O uid fuel h = Some (Ok c) /\ run_ops O fuel api0 h = Some (st, rs)
    /\ acyclic (adeps st) /\ ch_systems c = l.
Proof.
  intros H1 H2. destruct (create_group O uid fuel h) as [[c|e]|]; try discriminate H1.
  destruct (run_ops O fuel api0 h) as [[st rs]|] eqn:R; [|discriminate H2]. cbn in H1, H2. injection H1 as <-.
  exists st, rs, c. splits; auto. exact (ranks_acyclic st (proj1 (run_inv O fuel h api0 st rs ainv0 R)) H2).
Qed.

Lemma create_group_instance : exists O uid fuel h st rs c,
  create_group O uid fuel h = Some (Ok c) /\ run_ops O fuel api0 h = Some (st, rs) /\ acyclic (adeps st) /\ ch_systems c = [1; 3].
Proof.
  exists nodup_oracle, (fun n => n), 60, [CreateIndep 1; DeclareInput 2; Expr 0 [1; 2]; Register 3 3].
  apply create_group_check; vm_compute; reflexivity.
Qed.
