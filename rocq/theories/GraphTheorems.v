(** Theorems about Group.setup in the form used by the property files. *)
From Coq Require Import Sorted.
From Verif Require Import PyBase PySet PySetProofs PySetWide SpecGraph GraphLemmas Graph SpecSetup
  GraphRegister GraphPrune GraphTidy GraphEdges GraphTopo GraphSetup GraphCycle.

(** * Fuel monotonicity of the whole pass *)
Lemma topo_mono s : forall fuel st vs so r, topo_loop fuel st vs so s = Some r ->
  forall fuel', fuel <= fuel' -> topo_loop fuel' st vs so s = Some r.
Proof.
  induction fuel as [|f IH]; intros st vs so r Er fuel' L.
  - destruct st; [|discriminate]. simpl in *. destruct fuel'; exact Er.
  - destruct st as [|x st]; [destruct fuel'; exact Er|].
    destruct fuel' as [|f']; [lia|]. cbn [topo_loop] in *.
    destruct (Nat.leb (vs x) (length (dependents s x))); apply (IH _ _ _ _ Er); lia.
Qed.

Lemma setup_graph_mono O iset uid kd root reverse nodes s fuel r :
  setup_graph O iset uid kd fuel root reverse nodes s = Some r ->
  forall fuel', fuel <= fuel' -> setup_graph O iset uid kd fuel' root reverse nodes s = Some r.
Proof.
  intros E fuel' L. unfold setup_graph in *.
  destruct (register_nodes uid fuel (deps s) root nodes) as [x|] eqn:E1; [|discriminate].
  rewrite (register_mono _ _ _ _ _ _ E1 _ L).
  destruct x as [nds|e]; [|exact E].
  destruct (add_fwd_edges O fuel root _) as [s3|] eqn:E3; [|discriminate].
  rewrite (fwd_mono _ _ _ _ _ E3 _ L).
  destruct (existsb _ _); [exact E|].
  destruct (compute_dag_cost fuel root s3) as [s4|] eqn:E4; [|discriminate].
  rewrite (cost_mono _ _ _ _ E4 _ L).
  unfold topological_sort in *.
  destruct (topo_loop fuel _ _ _ _) as [[l vis]|] eqn:E5; [|discriminate].
  rewrite (topo_mono _ _ _ _ _ _ E5 _ L). exact E.
Qed.

Lemma setup_mono O iset uid kd root reverse defd hb nodes s fuel r :
  setup O iset uid kd fuel root reverse defd hb nodes s = Some r ->
  forall fuel', fuel <= fuel' -> setup O iset uid kd fuel' root reverse defd hb nodes s = Some r.
Proof.
  intros E fuel' L. unfold setup in *.
  destruct (setup_graph O iset uid kd fuel root reverse nodes s) as [x|] eqn:E1; [|discriminate].
  rewrite (setup_graph_mono _ _ _ _ _ _ _ _ _ _ E1 _ L). exact E.
Qed.

(** * The build loop *)
Lemma build_loop_ok kd defd hb : forall order added,
  (forall n, In n order -> is_output (kd n) = true -> defd n = true) ->
  build_loop kd defd hb order added = Ok (added ++ filter hb order).
Proof.
  induction order as [|n r IH]; intros added H; cbn [build_loop filter].
  - now rewrite app_nil_r.
  - assert (is_output (kd n) && negb (defd n) = false) as ->.
    { destruct (is_output (kd n)) eqn:E; [|reflexivity].
      rewrite (H n (or_introl eq_refl) E). reflexivity. }
    rewrite IH by (intros m Hm; apply H; now right).
    destruct (hb n); [|reflexivity]. now rewrite <- app_assoc.
Qed.

Lemma build_loop_undefined kd defd hb n : is_output (kd n) = true -> defd n = false ->
  forall order added, In n order -> build_loop kd defd hb order added = Raise ValueError.
Proof.
  intros K D. induction order as [|m r IH]; intros added H; [contradiction|]. cbn [build_loop].
  destruct H as [->|H].
  - now rewrite K, D.
  - destruct (_ && _); [reflexivity|]. now apply IH.
Qed.

Lemma before_filter (p : nat -> bool) l a b : before l a b -> p a = true -> p b = true ->
  before (filter p l) a b.
Proof.
  intros (l1 & l2 & l3 & ->) Pa Pb. exists (filter p l1), (filter p l2), (filter p l3).
  rewrite filter_app. cbn [filter]. rewrite Pa, filter_app. cbn [filter]. now rewrite Pb.
Qed.

Section Main.
Variables (O : oracle) (uid : nat -> nat) (kd : nat -> kind) (root : nat) (reverse : bool).
Variable iset : list nat -> list nat.
Hypothesis iset_P : forall l, placed l -> ascending_listing (iset l) l.
Variables (defd hb : nat -> bool) (d : nat -> list nat).
Hypothesis ok : graph_ok kd root d.
Hypothesis UD : uid_distinct root uid d.

Let run fuel := setup O iset uid kd fuel root reverse defd hb [] (fresh d).

Lemma setup_ok :
  (forall n, dep_on d root n -> kd n = KExplicit \/ kd n = KImplicit -> defd n = true) ->
  exists added rest, eventually run (Ok (added, rest))
    /\ NoDup added
    /\ (forall n, In n added <-> dep_on d root n /\ hb n = true)
    /\ (forall u v, In u added -> In v added -> dep_on d u v -> before added v u)
    /\ (forall i n, In i (d root) -> kd i = KIndep -> In i added ->
          In n added -> kd n <> KIndep -> before added i n).
Proof.
  intros DEF.
  destruct (setup_graph_spec O iset iset_P kd root reverse uid d ok UD) as
    (N & nodes & l & s' & E & (ND & SP & BF) & IND & _).
  exists (filter hb (rev l)), (nodes, l, s'). splits.
  - exists N. intros fuel L. unfold run, setup. rewrite E by assumption.
    rewrite build_loop_ok; [reflexivity|].
    intros n Hn K. apply DEF; [now apply SP|]. destruct (kd n); simpl in K; try discriminate; auto.
  - now apply NoDup_filter.
  - intros n. now rewrite filter_In, SP.
  - intros u v Hu Hv D. apply filter_In in Hu. apply filter_In in Hv.
    apply before_filter; intuition.
  - intros i n Hi Ki Ha Hn Kn. apply filter_In in Ha. apply filter_In in Hn.
    apply before_filter; [|intuition|intuition]. apply IND; auto. rewrite in_rev. tauto.
Qed.

Lemma setup_undefined n : dep_on d root n -> kd n = KExplicit \/ kd n = KImplicit -> defd n = false ->
  eventually run (Raise ValueError).
Proof.
  intros Hn K D.
  destruct (setup_graph_spec O iset iset_P kd root reverse uid d ok UD) as
    (N & nodes & l & s' & E & (ND & SP & BF) & _).
  exists N. intros fuel L. unfold run, setup. rewrite E by assumption.
  rewrite (build_loop_undefined kd defd hb n); auto.
  - destruct K as [-> | ->]; reflexivity.
  - now apply SP.
Qed.

Lemma setup_no_other_error fuel e : run fuel = Some (Raise e) ->
  e = ValueError /\ exists n, dep_on d root n /\ (kd n = KExplicit \/ kd n = KImplicit) /\ defd n = false.
Proof.
  intros E0.
  destruct (setup_graph_spec O iset iset_P kd root reverse uid d ok UD) as
    (N & nodes & l & s' & E & (ND & SP & BF) & _).
  pose proof (setup_mono _ _ _ _ _ _ _ _ _ _ _ _ E0 (fuel + N) ltac:(lia)) as E1.
  unfold setup in E1. rewrite E in E1 by lia. injection E1 as E1.
  assert (G : forall order added, (forall n, In n order -> dep_on d root n) ->
    build_loop kd defd hb order added = Raise e ->
    e = ValueError /\ exists n, dep_on d root n /\ (kd n = KExplicit \/ kd n = KImplicit) /\ defd n = false).
  { induction order as [|n r IH]; intros added H EB; cbn [build_loop] in EB; [discriminate|].
    destruct (is_output (kd n) && negb (defd n)) eqn:C.
    - injection EB as <-. split; [reflexivity|]. apply andb_prop in C. destruct C as [C1 C2].
      exists n. split; [apply H; now left|]. split.
      + destruct (kd n); simpl in C1; try discriminate; auto.
      + now apply negb_true_iff in C2.
    - apply (IH _ (fun m Hm => H m (or_intror Hm)) EB). }
  destruct (build_loop kd defd hb (rev l) []) as [a|e'] eqn:EB; [discriminate|].
  injection E1 as ->. apply (G (rev l) []); [|assumption]. intros n Hn. now apply SP.
Qed.
End Main.

Lemma setup_twice O iset uid kd root reverse defd hb d :
  (forall l, placed l -> ascending_listing (iset l) l) -> graph_ok kd root d -> uid_distinct root uid d ->
  forall added nodes l s',
  eventually (fun fuel => setup O iset uid kd fuel root reverse defd hb [] (fresh d))
             (Ok (added, (nodes, l, s'))) ->
  exists rest, eventually (fun fuel => setup O iset uid kd fuel root reverse defd hb nodes s')
                          (Ok ([], rest)).
Proof.
  intros IB ok UD added nodes l s' (N & E).
  assert (E' : exists N', forall fuel, N' <= fuel ->
     setup_graph O iset uid kd fuel root reverse [] (fresh d) = Some (Ok (nodes, l, s'))).
  { exists N. intros fuel L. specialize (E fuel L). unfold setup in E.
    destruct (setup_graph _ _ _ _ _ _ _ _ _) as [[[[n0 l0] s0]|e]|]; try discriminate.
    destruct (build_loop kd defd hb (rev l0) []); [|discriminate].
    injection E as _ -> -> ->. reflexivity. }
  destruct E' as (N' & E').
  destruct (setup_graph_again O iset IB kd root reverse uid d N' nodes l s' ok UD E') as (N2 & s'' & E2).
  exists (nodes, [], s''). exists N2. intros fuel L. unfold setup. rewrite E2 by assumption. reflexivity.
Qed.

(** * Pruning as a pass on its own *)
Lemma shortcuts_count d n : shortcuts d [] n = length (filter (grandchild d n) (d n)).
Proof. reflexivity. Qed.

Lemma prune_pass_safe ns s :
  (exists N, finite_graph N (deps s)) -> acyclic (deps s) -> simple_graph (deps s) ->
  (forall n, In n ns -> length (deps s n) <= 8 \/ shortcuts (deps s) [] n <= 1) ->
  forall u v, dep_on (deps (fold_left (remove_indirect_dependencies set_list) ns s)) u v
              <-> dep_on (deps s) u v.
Proof.
  intros (N & FN) AC SI L u v. pose proof (finite_acyclic_ranked N _ FN AC) as R.
  assert (A : all_listed set_list ns s).
  { apply (clean_all set_list set_list_placed [] (fun _ => True) (fun n => In n ns)
       (fun n => length (deps s n)) (shortcuts (deps s) []) (height (deps s) N)).
    - constructor.
    - intros n Hn. specialize (L n Hn). simpl. tauto.
    - auto.
    - constructor; auto; simpl; auto. }
  apply (pr_reach _ _ (prune_all set_list ns s _ R SI A)).
Qed.

Lemma prune_node_exact n s :
  (exists N, finite_graph N (deps s)) -> acyclic (deps s) -> simple_graph (deps s) ->
  let len := length (deps s n) in let r := shortcuts (deps s) [] n in
  len <= 8 \/ r <= 1 \/ (5 <= r /\ len <= 32) \/ (19 <= r /\ len <= 128) ->
  forall v, In v (deps (remove_indirect_dependencies set_list s n) n) <->
            In v (deps s n) /\ ~ (exists c, In c (deps s n) /\ In v (deps s c)).
Proof.
  intros (N & FN) AC SI len r L v.
  assert (LI : listed set_list s n).
  { apply set_list_placed. unfold placed. rewrite (indirect_count (deps s) n (SI n)), <- shortcuts_count. fold r.
    assert (Hlt : forall x, In x (indirect_indices (deps s) n) -> x < len).
    { intros x Hx. apply indirect_indices_spec in Hx; [|apply SI].
      destruct Hx as (y & c & E & _). apply nth_error_Some. congruence. }
    destruct L as [L|[L|[[L1 L2]|[L1 L2]]]].
    - left. intros x Hx. specialize (Hlt x Hx). lia.
    - right. now left.
    - right. right. left. split; [assumption|]. intros x Hx. specialize (Hlt x Hx). lia.
    - right. right. right. split; [assumption|]. intros x Hx. specialize (Hlt x Hx). lia. }
  rewrite (remove_indirect_acyclic set_list s n _ (finite_acyclic_ranked N _ FN AC) (SI n) LI).
  rewrite filter_In, negb_true_iff, <- grandchild_spec.
  destruct (grandchild (deps s) n v); intuition congruence.
Qed.

(** * Branch sorting *)
Lemma sort_branches_spec reverse s n :
  let s' := sort_dependency_branches reverse s n in
  Permutation (deps s' n) (deps s n)
  /\ StronglySorted (fun x y => if reverse then dag_cost s y <= dag_cost s x
                                else dag_cost s x <= dag_cost s y) (deps s' n)
  /\ (forall c, filter (fun x => Nat.eqb (dag_cost s x) c) (deps s' n)
                = filter (fun x => Nat.eqb (dag_cost s x) c) (deps s n))
  /\ (forall m, m <> n -> deps s' m = deps s m)
  /\ (forall u v, dep_on (deps s') u v <-> dep_on (deps s) u v).
Proof.
  cbn zeta. unfold sort_dependency_branches.
  set (le := fun x y => if reverse then dag_cost s y <=? dag_cost s x else dag_cost s x <=? dag_cost s y).
  cbn [set_deps deps]. rewrite upd_same. splits.
  - apply stable_sort_perm.
  - assert (S : StronglySorted (fun a b => le a b = true) (stable_sort le (deps s n))).
    { apply stable_sort_sorted; unfold le; destruct reverse; intros *; rewrite ?Nat.leb_le, ?Nat.leb_gt; lia. }
    induction S as [|x l S IH F]; constructor; [assumption|].
    rewrite Forall_forall in *. intros y Hy. specialize (F y Hy). unfold le in F.
    destruct reverse; now apply Nat.leb_le in F.
  - intros c. apply (stable_sort_stable le (dag_cost s)).
    intros x y E. unfold le. rewrite E. destruct reverse; apply Nat.leb_refl.
  - intros m H. now apply upd_other.
  - apply dep_on_perm. intros m. unfold upd. destruct (Nat.eqb_spec m n) as [->|]; [|reflexivity].
    apply stable_sort_perm.
Qed.

(** * Finite-graph checks for concrete witnesses *)
Lemma adj_in rows u v : In v (adj rows u) -> exists r, nth_error rows u = Some r /\ In v r.
Proof.
  unfold adj. intros H. destruct (nth_error rows u) as [r|] eqn:E.
  - exists r. split; [reflexivity|]. now rewrite (nth_error_nth _ _ _ E) in H.
  - apply nth_error_None in E. rewrite nth_overflow in H by assumption. contradiction.
Qed.

(** Rows only mention later nodes and are duplicate-free: checked by computation. *)
Fixpoint nodupb (l : list nat) : bool :=
  match l with [] => true | x :: r => negb (mem x r) && nodupb r end.

Lemma nodupb_sound l : nodupb l = true -> NoDup l.
Proof.
  induction l as [|x l IH]; simpl; intros H; constructor; apply andb_prop in H; destruct H as [H1 H2].
  - intros Hx. apply mem_In in Hx. now rewrite Hx in H1.
  - auto.
Qed.

Fixpoint rows_ok (k n : nat) (rows : list (list nat)) : bool :=
  match rows with
  | [] => true
  | r :: rest => forallb (fun v => Nat.ltb k v && Nat.ltb v n) r
                 && nodupb r && rows_ok (S k) n rest
  end.

Lemma rows_ok_in n : forall rows k, rows_ok k n rows = true ->
  forall u r, nth_error rows u = Some r -> NoDup r /\ forall v, In v r -> k + u < v < n.
Proof.
  induction rows as [|r0 rows IH]; intros k H u r E; [destruct u; discriminate|].
  cbn [rows_ok] in H. apply andb_prop in H. destruct H as [H H3]. apply andb_prop in H. destruct H as [H1 H2].
  destruct u as [|u]; simpl in E.
  - injection E as ->. split; [now apply nodupb_sound|].
    intros v Hv. rewrite forallb_forall in H1. specialize (H1 v Hv).
    apply andb_prop in H1. rewrite !Nat.ltb_lt in H1. lia.
  - destruct (IH (S k) H3 u r E) as [A B]. split; [assumption|]. intros v Hv. specialize (B v Hv). lia.
Qed.

Lemma rows_ok_graph rows : rows_ok 0 (length rows) rows = true ->
  finite_graph (length rows) (adj rows) /\ acyclic (adj rows) /\ simple_graph (adj rows).
Proof.
  intros H. pose proof (rows_ok_in _ _ _ H) as R. splits.
  - intros u v Hv. apply adj_in in Hv. destruct Hv as (r & E & Hv).
    destruct (R u r E) as [_ B]. specialize (B v Hv). split; [|lia].
    apply nth_error_Some. congruence.
  - assert (RK : ranked (adj rows) (fun n => length rows - n)).
    { intros u v Hv. apply adj_in in Hv. destruct Hv as (r & E & Hv).
      destruct (R u r E) as [_ B]. specialize (B v Hv). lia. }
    now apply ranked_acyclic in RK.
  - intros n. unfold adj. destruct (nth_error rows n) as [r|] eqn:E.
    + rewrite (nth_error_nth _ _ _ E). now apply (R n r).
    + apply nth_error_None in E. rewrite nth_overflow by assumption. constructor.
Qed.

(** A row table satisfies [graph_ok] when the checks below compute to true. *)
Definition indeps_of (kd : nat -> kind) (d : nat -> list nat) (root : nat) : list nat :=
  filter (fun i => is_indep (kd i)) (d root).

Definition tidyb (d : nat -> list nat) (indeps : list nat) (n : nat) : bool :=
  let w := width d indeps n in let k := length indeps in let q := shortcuts d indeps n in
  Nat.leb w 8 || Nat.leb (k + q) 1 ||
  (Nat.leb q 1 && ((Nat.leb 5 k && Nat.leb w 32) || (Nat.leb 19 k && Nat.leb w 128))).

Lemma tidyb_ok d indeps n : tidyb d indeps n = true -> tidy d indeps n.
Proof.
  unfold tidyb, tidy. rewrite !orb_true_iff, !andb_true_iff, !orb_true_iff, !andb_true_iff, !Nat.leb_le. tauto.
Qed.

Lemma rows_graph_ok kd root rows :
  rows_ok 0 (length rows) rows = true ->
  forallb (tidyb (adj rows) (indeps_of kd (adj rows) root)) (seq 0 (length rows)) = true ->
  forallb (fun n => negb (is_indep (kd n)) || Nat.eqb (length (adj rows n)) 0)
          (seq 0 (length rows)) = true ->
  is_indep (kd root) = false ->
  graph_ok kd root (adj rows).
Proof.
  intros R W I K. destruct (rows_ok_graph rows R) as (F & A & S). constructor; auto.
  - now exists (length rows).
  - intros n Kn. destruct (Nat.lt_ge_cases n (length rows)) as [L|L].
    + rewrite forallb_forall in I. specialize (I n ltac:(apply in_seq; lia)).
      rewrite Kn in I. simpl in I. apply Nat.eqb_eq, length_zero_iff_nil in I. exact I.
    + unfold adj. now apply nth_overflow.
  - now apply is_indep_false.
  - intros n Hn. rewrite forallb_forall in W.
    apply dep_on_last in Hn. destruct Hn as (w & _ & Hn). apply F in Hn.
    specialize (W n ltac:(apply in_seq; lia)). now apply tidyb_ok.
Qed.

Lemma uid_id_distinct root d : uid_distinct root (fun n => n) d.
Proof. intros u v _ _ E. exact E. Qed.

Lemma eventually_from {A} (run : nat -> option A) fuel r :
  (forall f1 f2 x, run f1 = Some x -> f1 <= f2 -> run f2 = Some x) ->
  run fuel = Some r -> eventually run r.
Proof. intros M E. exists fuel. intros f L. now apply (M fuel). Qed.

(** * Witnesses *)
(** 0 is the group root, 1 an expression with nine direct dependencies, one of
    which (2) itself depends on four of the others. *)
Definition nine_rows (root_row : list nat) : list (list nat) :=
  [root_row; [3; 4; 5; 6; 2; 7; 8; 9; 10]; [3; 10; 4; 5]; []; []; []; []; []; []; []; []].

Definition is_before (l : list nat) (a b : nat) : bool :=
  match index_of a l, index_of b l with
  | Some i, Some j => Nat.ltb i j
  | _, _ => false
  end.

Lemma index_of_split a : forall l i, index_of a l = Some i -> exists l2, l = firstn i l ++ a :: l2.
Proof.
  induction l as [|y l IH]; intros i E; simpl in E; [discriminate|].
  destruct (Nat.eqb_spec y a) as [->|].
  - injection E as <-. now exists l.
  - destruct (index_of a l) as [k|] eqn:Ek; [|discriminate]. injection E as <-.
    destruct (IH k eq_refl) as (l2 & El). exists l2. simpl. now rewrite <- El.
Qed.

Lemma is_before_sound : forall l a b, is_before l a b = true -> before l a b.
Proof.
  unfold is_before. induction l as [|y l IH]; intros a b H; [discriminate|]. simpl in H.
  destruct (Nat.eqb_spec y a) as [->|Na].
  - destruct (Nat.eqb_spec a b) as [->|Nb]; [discriminate|].
    destruct (index_of b l) as [j|] eqn:Ej; [|discriminate].
    apply index_of_split in Ej. destruct Ej as (l2 & E). exists [], (firstn j l), l2. simpl. now rewrite <- E.
  - destruct (index_of a l) as [i|] eqn:Ei; [|discriminate].
    destruct (Nat.eqb_spec y b) as [->|Nb]; [discriminate|].
    destruct (index_of b l) as [j|] eqn:Ej; [|discriminate].
    destruct (IH a b) as (l1 & l2 & l3 & E).
    { rewrite Ei, Ej. exact H. }
    exists (y :: l1), l2, l3. simpl. now rewrite E.
Qed.

(** * Cycles *)
Lemma setup_cyclic iset B : iset_ok iset B ->
  forall O uid kd root reverse defd hb d,
  (exists N, finite_graph N d) -> simple_graph d -> uid_distinct root uid d ->
  (forall n, ~ In n (d n)) -> (forall n, ~ In root (d n)) ->
  (forall n, dep_on d root n -> width d (filter (fun i => is_indep (kd i)) (d root)) n <= B) ->
  (exists n, dep_on d root n /\ dep_on d n n) ->
  forall fuel r, setup O iset uid kd fuel root reverse defd hb [] (fresh d) <> Some (Ok r).
Proof.
  intros IB O uid kd root reverse defd hb d F S U NS RF W C fuel r E. unfold setup in E.
  destruct (setup_graph O iset uid kd fuel root reverse [] (fresh d)) as [[x|e]|] eqn:E1; try discriminate.
  now apply (setup_rejects_cycles iset B IB O uid kd root reverse d F S U NS RF W C fuel x).
Qed.

Lemma fwd_terminates_iff O root s : (exists N, finite_graph N (deps s)) ->
  ((exists fuel s', add_fwd_edges O fuel root s = Some s')
   <-> forall n, n = root \/ dep_on (deps s) root n -> ~ dep_on (deps s) n n).
Proof.
  intros (N & FN). split.
  - intros (fuel & s' & E) n R C. rewrite (fwd_diverges O root s n R C) in E. discriminate.
  - intros AC.
    (* walks from the root have at most N+1 nodes *)
    assert (W : forall l, walk (deps s) root l -> length l <= N).
    { intros l Wl. rewrite <- (seq_length N 0). apply NoDup_incl_length.
      - assert (G : forall u l, walk (deps s) u l -> (u = root \/ dep_on (deps s) root u) -> NoDup l).
        { intros u l0 H. induction H as [u|u x l0 H H1 IH]; intros Hu; [constructor|].
          assert (Hx : dep_on (deps s) root x).
          { destruct Hu as [->|Hu]; [now apply dep_direct|].
            apply dep_on_trans with u; [assumption|now apply dep_direct]. }
          constructor; [|now apply IH; right].
          intros Hin. apply (AC x (or_intror Hx)). now apply walk_dep with l0. }
        apply (G root); auto.
      - intros v Hv. apply in_seq. pose proof (walk_lt N _ _ _ _ FN Wl Hv). lia. }
    assert (T : forall k self s1, deps s1 = deps s -> (forall l, walk (deps s) self l -> length l <= k) ->
              exists s', add_fwd_edges O (S k) self s1 = Some s').
    { induction k as [|k IH]; intros self s1 D Wk; rewrite fwd_unfold.
      - rewrite D. destruct (deps s self) as [|w r] eqn:E; [simpl; eauto|].
        assert (H : walk (deps s) self [w]) by (constructor; [rewrite E; now left|constructor]).
        apply Wk in H. simpl in H. lia.
      - rewrite D.
        assert (G : forall ds s2, deps s2 = deps s -> (forall x, In x ds -> In x (deps s self)) ->
          exists s', fwd_loop O (add_fwd_edges O (S k)) self ds s2 = Some s').
        { induction ds as [|w ds IHds]; intros s2 D2 Sub; cbn [fwd_loop]; [eauto|].
          destruct (IH w (add_dependent_node O s2 w self)) as (s3 & E3).
          - exact D2.
          - intros l Wl. assert (X : walk (deps s) self (w :: l)) by (constructor; [apply Sub; now left|assumption]).
            apply Wk in X. simpl in X. lia.
          - rewrite E3. apply IHds.
            + apply fwd_sound in E3. destruct E3 as ((A & _) & _). rewrite A. exact D2.
            + intros x Hx. apply Sub. now right. }
        apply G; auto. }
    destruct (T N root s eq_refl W) as (s' & E). eauto.
Qed.

(** Costs from a list, for examples. *)
Definition adj_cost (l : list nat) : nat -> nat := fun n => nth n l 0.
