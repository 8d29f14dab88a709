(** Only the first of the wrapped setups of an instance adds systems. *)
From Verif Require Import PyBase PySet PySetProofs SpecGraph GraphLemmas Graph GraphEdges SpecSetup GroupApi ApiWitness
  Inherit SpecInherit.

(** * Frames of the passes, whatever the graph *)
Lemma indep_frame O kd root ns s : same_but_deps_tick s (add_indep_edges O kd root ns s).
Proof.
  unfold add_indep_edges. revert s. induction ns as [|n ns IH]; intros s; cbn [fold_left]; [repeat split|].
  assert (G : forall l s1, same_but_deps_tick s s1 -> same_but_deps_tick s
    (fold_left (fun s indep => if is_indep (kd indep) then
       if negb (is_indep (kd n)) then add_dependency_node O s n indep else s else s) l s1)).
  { induction l as [|x l IHl]; intros s1 H; cbn [fold_left]; [assumption|]. apply IHl.
    destruct (is_indep (kd x)); [|assumption]. destruct (negb (is_indep (kd n))); assumption. }
  specialize (G (deps s root) s ltac:(repeat split)).
  destruct G as (A1 & A2 & A3).
  destruct (IH (fold_left (fun s indep => if is_indep (kd indep) then
       if negb (is_indep (kd n)) then add_dependency_node O s n indep else s else s) (deps s root) s)) as (B1 & B2 & B3).
  unfold same_but_deps_tick. splits; congruence.
Qed.

Lemma prune_frame iset ns : forall s, same_but_deps_tick s (fold_left (remove_indirect_dependencies iset) ns s).
Proof.
  induction ns as [|n ns IH]; intros s; cbn [fold_left]; [repeat split|].
  destruct (IH (remove_indirect_dependencies iset s n)) as (B1 & B2 & B3).
  unfold same_but_deps_tick. rewrite B1, B2, B3. repeat split.
Qed.

Lemma cost_frame : forall fuel self s s', compute_dag_cost fuel self s = Some s' -> same_but_cost s s'.
Proof.
  induction fuel as [|f IH]; intros self s s' E; [discriminate|]. rewrite cost_unfold in E.
  assert (G : forall ds s1 s', cost_loop (compute_dag_cost f) self ds s1 = Some s' ->
    same_but_cost s s1 -> same_but_cost s s').
  { clear E s'. induction ds as [|w ds IHds]; intros s1 s' E D; cbn [cost_loop] in E; [now injection E as <-|].
    destruct (compute_dag_cost f w s1) as [s2|] eqn:E2; [|discriminate].
    apply IHds in E; [assumption|]. apply IH in E2. destruct E2 as (F1 & F2 & F3 & F4).
    destruct D as (D1 & D2 & D3 & D4). unfold same_but_cost. cbn [deps dependents visited tick]. splits; congruence. }
  apply (G _ _ _ E). repeat split.
Qed.

Lemma topo_visits s : forall fuel stack vis sorted r vis', topo_loop fuel stack vis sorted s = Some (r, vis') ->
  forall n, vis n <= vis' n.
Proof.
  induction fuel as [|f IH]; intros [|v stack] vis sorted r vis' E n; cbn [topo_loop] in E;
    try discriminate; try (injection E as _ <-; lia).
  destruct (Nat.leb (vis v) (length (dependents s v))).
  - specialize (IH _ _ _ _ _ E n). unfold upd in IH. destruct (Nat.eqb_spec n v) as [Q|Q]; [subst n|]; lia.
  - exact (IH _ _ _ _ _ E n).
Qed.

(** * One pass *)
Lemma passes_once O iset uid kd fuel root reverse nodes0 s nodes l s' :
  setup_graph O iset uid kd fuel root reverse nodes0 s = Some (Ok (nodes, l, s')) ->
  dependents s root = [] ->
  dependents s' root = [] /\ 1 <= visited s' root /\ (1 <= visited s root -> l = []).
Proof.
  unfold setup_graph. intros E DR.
  destruct (register_nodes uid fuel (deps s) root nodes0) as [[nodes1|e]|]; try discriminate.
  set (ns := map snd nodes1) in *.
  destruct (indep_frame O kd root ns s) as (A1 & A2 & _). set (s1 := add_indep_edges O kd root ns s) in *.
  destruct (prune_frame iset ns s1) as (B1 & B2 & _). set (s2 := fold_left _ ns s1) in *.
  destruct (add_fwd_edges O fuel root s2) as [s3|] eqn:E3; [|discriminate].
  destruct (existsb _ ns); [discriminate|].
  destruct (compute_dag_cost fuel root s3) as [s4|] eqn:E4; [|discriminate].
  apply cost_frame in E4. destruct E4 as (C1 & C2 & C3 & _).
  destruct (sort_all reverse ns s4) as (_ & D2 & D3 & _). set (s5 := fold_left _ ns s4) in *.
  destruct (topological_sort fuel root s5) as [[l0 s6]|] eqn:E6; [|discriminate].
  injection E as -> -> ->.
  pose proof (fwd_sound O _ _ _ _ E3) as ((F1 & F2 & _) & F3 & _).
  assert (R3 : dependents s3 root = []).
  { destruct (dependents s3 root) as [|u r] eqn:Eu; [reflexivity|exfalso].
    assert (H : In u (dependents s3 root)) by (rewrite Eu; now left).
    apply F3 in H. rewrite B1, A1, DR in H. destruct H as [[]|[Hu Hr]].
    assert (C : dep_on (deps s2) root root).
    { destruct Hu as [->|Hu]; [now apply dep_direct|]. apply dep_on_trans with u; [assumption|now apply dep_direct]. }
    rewrite (fwd_diverges O root s2 root (or_introl eq_refl) C fuel) in E3. discriminate. }
  assert (R5 : dependents s5 root = []) by congruence.
  assert (V5 : visited s5 = visited s) by congruence.
  unfold topological_sort in E6.
  destruct (topo_loop fuel [root] (visited s5) [] s5) as [[l1 vis]|] eqn:E7; [|discriminate].
  injection E6 as <- <-. cbn [dependents visited]. rewrite V5 in E7.
  destruct fuel as [|f]; [discriminate|]. cbn [topo_loop] in E7. rewrite R5 in E7. cbn [length] in E7.
  splits; [assumption| |].
  - destruct (Nat.leb_spec (visited s root) 0) as [L|L].
    + pose proof (topo_visits _ _ _ _ _ _ _ E7 root) as T. rewrite upd_same in T. lia.
    + pose proof (topo_visits _ _ _ _ _ _ _ E7 root) as T. lia.
  - intros L. destruct (Nat.leb_spec (visited s root) 0) as [L'|_]; [lia|].
    destruct f; cbn [topo_loop] in E7; now injection E7 as <- _.
Qed.

Definition unvisited (i : inst) : Prop :=
  idependents i = (fun _ => []) /\ ivisited i = (fun _ => 0) /\ icost i = (fun _ => 1)
  /\ itick i = 0 /\ inodes i = [] /\ isys i = [].
Definition done (i : inst) : Prop := idependents i root = [] /\ 1 <= ivisited i root.

Section Main.
Variable O : oracle.
Variable iset : list nat -> list nat.
Variable uid : nat -> nat.
Variable reverse : bool.
Variable fuel : nat.
Notation pass := (pass O iset uid reverse fuel).
Notation run_setup := (run_setup O iset uid reverse fuel).
Notation body := (body O fuel).

Lemma pass_done i i' : pass i = Some (Ok i') -> done i -> done i' /\ isys i' = isys i.
Proof.
  unfold Inherit.pass. intros E [D V].
  destruct (setup_graph _ _ _ _ _ _ _ _ _) as [[[[nodes l] s]|e]|] eqn:G; try discriminate.
  apply passes_once in G; [|exact D]. cbn [visited] in G. destruct G as (D' & V' & L). rewrite (L V) in E.
  cbn [rev build_all bind] in E. injection E as <-. splits; auto. split; assumption.
Qed.

Lemma pass_first i i' : pass i = Some (Ok i') -> unvisited i ->
  done i' /\ group_setup O iset uid fuel reverse (iapi i) = Some (Ok (isys i')).
Proof.
  unfold Inherit.pass, group_setup, fresh. intros E (U1 & U2 & U3 & U4 & U5 & U6).
  rewrite U1, U2, U3, U4, U5, U6 in E.
  destruct (setup_graph _ _ _ _ _ _ _ _ _) as [[[[nodes l] s]|e]|] eqn:G; try discriminate.
  apply passes_once in G; [|reflexivity]. destruct G as (D' & V' & _).
  destruct (build_all (iapi i) (rev l) []) as [sys|e]; [|discriminate]. cbn [bind] in E.
  injection E as <-. split; [|reflexivity]. split; assumption.
Qed.

Lemma setup_done : forall classes i i', run_setup classes i = Some (Ok i') -> done i ->
  done i' /\ isys i' = isys i.
Proof.
  induction classes as [|b parents IH]; intros i i' E D; cbn [Inherit.run_setup] in E.
  - now apply pass_done.
  - assert (G : forall b i i', body (run_setup parents) b i = Some (Ok i') -> done i -> done i' /\ isys i' = isys i).
    { clear E D i i' b. induction b as [|[o|] b IHb]; intros i i' E D; cbn [Inherit.body] in E.
      - injection E as <-. auto.
      - destruct (step O fuel (iapi i) o) as [[st [x|e]]|]; try discriminate.
        now apply (IHb (set_api i st)) in E.
      - destruct (run_setup parents i) as [[i1|e]|] eqn:E1; try discriminate.
        apply IH in E1; [|assumption]. destruct E1 as [D1 E1]. apply IHb in E; [|assumption].
        destruct E as [D2 E]. split; [assumption|congruence]. }
    destruct (body (run_setup parents) b i) as [[i1|e]|] eqn:E1; try discriminate.
    apply G in E1; [|assumption]. destruct E1 as [D1 E1]. apply pass_done in E; [|assumption].
    destruct E as [D2 E]. split; [assumption|congruence].
Qed.

Lemma setup_first : forall classes i i', run_setup classes i = Some (Ok i') -> unvisited i ->
  done i' /\ exists st rs, run_ops O fuel (iapi i) (first_calls classes) = Some (st, map Ok rs)
    /\ group_setup O iset uid fuel reverse st = Some (Ok (isys i')).
Proof.
  induction classes as [|b parents IH]; intros i i' E U; cbn [Inherit.run_setup] in E.
  - apply pass_first in E; [|assumption]. destruct E as [D E]. split; [assumption|].
    exists (iapi i), []. split; [reflexivity|assumption].
  - cbn [first_calls]. revert i E U. induction b as [|[o|] b IHb]; intros i E U; cbn [Inherit.body] in E.
    + apply pass_first in E; [|assumption]. destruct E as [D E]. split; [assumption|].
      exists (iapi i), []. split; [reflexivity|assumption].
    + destruct (step O fuel (iapi i) o) as [[st [x|e]]|] eqn:S; try discriminate.
      apply IHb in E; [|exact U]. destruct E as (D & st' & rs & R & E). split; [assumption|].
      exists st', (x :: rs). split; [|assumption]. cbn [run_ops set_api iapi] in R |- *. rewrite S.
      cbn [first_calls] in R |- *. now rewrite R.
    + destruct (run_setup parents i) as [[i1|e]|] eqn:E1; try discriminate.
      apply IH in E1; [|assumption]. destruct E1 as (D1 & st & rs & R & E1).
      assert (T : run_setup (b :: parents) i1 = Some (Ok i')) by exact E.
      apply setup_done in T; [|assumption]. destruct T as [D T]. split; [assumption|].
      exists st, rs. split; [assumption|]. now rewrite T.
Qed.
End Main.

Lemma first_pass_decides O iset uid reverse fuel classes i :
  run_setup O iset uid reverse fuel classes inst0 = Some (Ok i) ->
  exists st rs, run_ops O fuel api0 (first_calls classes) = Some (st, map Ok rs)
    /\ group_setup O iset uid fuel reverse st = Some (Ok (isys i)).
Proof. intros E. apply setup_first in E; [exact (proj2 E)|]. repeat split. Qed.

Lemma first_calls_own b parents : first_calls (map Call b :: parents) = b.
Proof. cbn [first_calls]. induction b as [|o b IH]; cbn [map]; [reflexivity|]. now rewrite IH. Qed.

Lemma super_first_drops O iset uid reverse fuel b i :
  run_setup O iset uid reverse fuel [Super :: b] inst0 = Some (Ok i) -> isys i = [].
Proof.
  intros E. apply first_pass_decides in E. destruct E as (st & rs & R & E).
  cbn [first_calls run_ops] in R. injection R as <- _.
  unfold group_setup, setup_graph in E. destruct fuel as [|f]; [discriminate|].
  destruct f; cbn in E; now injection E as <-.
Qed.

Lemma own_only O iset uid reverse fuel b parents i :
  run_setup O iset uid reverse fuel (map Call b :: parents) inst0 = Some (Ok i) ->
  exists st rs, run_ops O fuel api0 b = Some (st, map Ok rs)
    /\ group_setup O iset uid fuel reverse st = Some (Ok (isys i)).
Proof. intros E. apply first_pass_decides in E. now rewrite first_calls_own in E. Qed.

(** * Witnesses: a parent with an independent variable and an output, and a child
    that adds a second output computed from an expression. *)
Definition parent : list item := map Call [CreateIndep 1; Expr 0 [1]; Register 2 2].
Definition child : list item := [Super] ++ map Call [DeclareInput 2; Expr 1 [3]; Register 3 4].
Definition built (classes : list (list item)) : option (res (list nat)) :=
  match run_setup ApiWitness.O set_list (fun n => n) false 60 classes inst0 with
  | Some (Ok i) => Some (Ok (isys i))
  | Some (Raise e) => Some (Raise e)
  | None => None
  end.

Example ex_parent : built [parent] = Some (Ok [1; 2]).
Proof. vm_compute. reflexivity. Qed.
Example ex_flat : built [map Call (all_calls [child; parent])] = Some (Ok [1; 2; 4]).
Proof. vm_compute. reflexivity. Qed.
Example ex_child : built [child; parent] = Some (Ok [1; 2]).
Proof. vm_compute. reflexivity. Qed.
(** Calling Group's own empty setup first drops the whole model. *)
Example ex_base : built [Super :: parent] = Some (Ok []).
Proof. vm_compute. reflexivity. Qed.
(** A super call at the end is harmless. *)
Example ex_last : built [parent ++ [Super]] = Some (Ok [1; 2]).
Proof. vm_compute. reflexivity. Qed.
Lemma class_needs_setup : forall own parents,
  (forall c, make_class own parents = Ok c <-> exists b, own = Some b /\ c = b :: parents) /\
  (own = None -> make_class own parents = Raise KeyError).
Proof.
  intros [b|] parents; cbn; split; try discriminate.
  - intros c. split; [intros E; injection E as <-; now exists b|intros (b' & E & ->); injection E as <-; reflexivity].
  - intros c. split; [discriminate|intros (b & E & _); discriminate].
  - reflexivity.
Qed.

Example ex_no_setup : make_class None [parent] = Raise KeyError.
Proof. reflexivity. Qed.

Lemma built_ok classes l : built classes = Some (Ok l) ->
  exists i, run_setup ApiWitness.O set_list (fun n => n) false 60 classes inst0 = Some (Ok i) /\ isys i = l.
Proof.
  unfold built. destruct (run_setup _ _ _ _ _ _ _) as [[i|e]|]; intros E; try discriminate.
  exists i. split; [reflexivity|]. now injection E.
Qed.

Lemma extends_fails :
  ~ (forall O uid reverse fuel classes i j,
       run_setup O set_list uid reverse fuel classes inst0 = Some (Ok i) ->
       run_setup O set_list uid reverse fuel [map Call (all_calls classes)] inst0 = Some (Ok j) ->
       forall n, In n (isys j) -> In n (isys i)).
Proof.
  intros H. destruct (built_ok _ _ ex_flat) as (j & F & Fl). destruct (built_ok _ _ ex_child) as (i & C & Cl).
  specialize (H _ _ _ _ _ _ _ C F 4). rewrite Fl, Cl in H. simpl in H. lia.
Qed.
