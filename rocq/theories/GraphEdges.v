(** Independent-variable edges, forward edges, branch costs, branch sorting. *)
From Coq Require Import Sorted.
From Verif Require Import PyBase SpecGraph GraphLemmas Graph.

Definition same_but_deps_tick (s s' : gstate) : Prop :=
  dependents s' = dependents s /\ visited s' = visited s /\ dag_cost s' = dag_cost s.

(** * add_indep_edges *)
Section Indep.
Variable O : oracle.
Variable kd : nat -> kind.

Lemma add_dependency_in s n x u v :
  In v (deps (add_dependency_node O s n x) u) <-> In v (deps s u) \/ (u = n /\ v = x).
Proof.
  unfold add_dependency_node. cbn [deps]. unfold upd.
  destruct (Nat.eqb_spec u n) as [->|NE].
  - rewrite ord_in, in_app_iff. simpl. intuition.
  - intuition.
Qed.

Lemma add_dependency_nodup s n x u : NoDup (deps s u) -> NoDup (deps (add_dependency_node O s n x) u).
Proof.
  intros H. unfold add_dependency_node. cbn [deps]. unfold upd.
  destruct (Nat.eqb u n); [apply ord_nodup|assumption].
Qed.

Definition indep_inner (node : nat) (l : list nat) (s : gstate) : gstate :=
  fold_left (fun s indep =>
      if is_indep (kd indep) then
        if negb (is_indep (kd node)) then add_dependency_node O s node indep else s
      else s) l s.

Lemma indep_inner_spec node : forall l s,
  same_but_deps_tick s (indep_inner node l s)
  /\ (forall u v, In v (deps (indep_inner node l s) u) <->
       In v (deps s u) \/ (u = node /\ is_indep (kd node) = false /\ is_indep (kd v) = true /\ In v l))
  /\ (forall u, NoDup (deps s u) -> NoDup (deps (indep_inner node l s) u))
  /\ (forall u, u <> node -> deps (indep_inner node l s) u = deps s u).
Proof.
  induction l as [|x l IH]; intros s; cbn [indep_inner fold_left].
  - split; [repeat split|]. splits; auto. intros u v. simpl. intuition.
  - match goal with |- context [fold_left _ l ?s0] => set (s1 := s0) end.
    destruct (IH s1) as (F & I & N & U). unfold indep_inner in F, I, N, U.
    splits.
    + destruct F as (F1 & F2 & F3). unfold same_but_deps_tick. rewrite F1, F2, F3.
      unfold s1. destruct (is_indep (kd x)), (is_indep (kd node)); repeat split.
    + intros u v. rewrite I. unfold s1.
      destruct (is_indep (kd x)) eqn:Ex, (is_indep (kd node)) eqn:En; cbn [negb];
        try rewrite add_dependency_in; simpl.
      * intuition congruence.
      * split.
        -- intros [[H|[-> ->]]|H]; intuition.
        -- intros [H|(-> & _ & Hv & [<-|H])]; intuition.
      * split; [intuition|]. intros [H|(-> & Hn & Hv & [<-|H])]; intuition congruence.
      * split; [intuition|]. intros [H|(-> & Hn & Hv & [<-|H])]; intuition congruence.
    + intros u Hu. apply N. unfold s1.
      destruct (is_indep (kd x)), (negb (is_indep (kd node))); auto. now apply add_dependency_nodup.
    + intros u Hu. rewrite U by assumption. unfold s1.
      destruct (is_indep (kd x)), (negb (is_indep (kd node))); auto.
      unfold add_dependency_node. cbn [deps]. now apply upd_other.
Qed.

Lemma add_indep_edges_unfold root n ns s :
  add_indep_edges O kd root (n :: ns) s
  = add_indep_edges O kd root ns (indep_inner n (deps s root) s).
Proof. reflexivity. Qed.

Lemma add_indep_edges_spec root : forall ns s, ~ In root ns ->
  let s' := add_indep_edges O kd root ns s in
  same_but_deps_tick s s'
  /\ (forall u v, In v (deps s' u) <->
       In v (deps s u)
       \/ (In u ns /\ is_indep (kd u) = false /\ is_indep (kd v) = true /\ In v (deps s root)))
  /\ (forall u, NoDup (deps s u) -> NoDup (deps s' u))
  /\ deps s' root = deps s root.
Proof.
  induction ns as [|n ns IH]; intros s NR; cbn zeta.
  - cbn. split; [repeat split|]. splits; auto. intros. intuition.
  - rewrite add_indep_edges_unfold.
    destruct (indep_inner_spec n (deps s root) s) as (F & I & N & U).
    set (s1 := indep_inner n (deps s root) s) in *.
    destruct (IH s1) as (F' & I' & N' & U'); [intros H; apply NR; now right|].
    assert (R1 : deps s1 root = deps s root) by (apply U; intros ->; apply NR; now left).
    splits.
    + destruct F as (?&?&?), F' as (?&?&?). unfold same_but_deps_tick. splits; congruence.
    + intros u v. rewrite I', I, R1. simpl. split.
      * intros [[H|(-> & H)]|(H & ?)]; intuition.
      * intros [H|([<-|H] & ?)]; intuition.
    + auto.
    + congruence.
Qed.
End Indep.

(** * add_fwd_edges *)
Section Fwd.
Variable O : oracle.

Definition fwd_loop (rec : nat -> gstate -> option gstate) (self : nat) :=
  fix loop (ds : list nat) (s : gstate) :=
       match ds with
       | [] => Some s
       | dep :: r =>
         match rec dep (add_dependent_node O s dep self) with
         | Some s' => loop r s'
         | None => None
         end
       end.

Lemma fwd_unfold f self s :
  add_fwd_edges O (S f) self s = fwd_loop (add_fwd_edges O f) self (deps s self) s.
Proof. reflexivity. Qed.

Definition same_but_dependents (s s' : gstate) : Prop :=
  deps s' = deps s /\ visited s' = visited s /\ dag_cost s' = dag_cost s.

(** Every dependent recorded is new or was there; nothing is duplicated. *)
Definition fwd_post (Q : nat -> nat -> Prop) (s s' : gstate) : Prop :=
  same_but_dependents s s'
  /\ (forall v u, In u (dependents s' v) <-> In u (dependents s v) \/ Q u v)
  /\ (forall v, NoDup (dependents s v) -> NoDup (dependents s' v)).

Lemma add_dependent_spec s n x :
  fwd_post (fun u v => v = n /\ u = x) s (add_dependent_node O s n x).
Proof.
  unfold add_dependent_node. split; [repeat split|]. split.
  - intros v u. cbn [dependents]. unfold upd. destruct (Nat.eqb_spec v n) as [->|NE].
    + rewrite ord_in, in_app_iff. simpl. intuition.
    + intuition.
  - intros v H. cbn [dependents]. unfold upd. destruct (Nat.eqb v n); [apply ord_nodup|assumption].
Qed.

Lemma fwd_post_trans Q1 Q2 Q3 s1 s2 s3 :
  fwd_post Q1 s1 s2 -> fwd_post Q2 s2 s3 -> (forall u v, Q3 u v <-> Q1 u v \/ Q2 u v) ->
  fwd_post Q3 s1 s3.
Proof.
  intros ((A1 & A2 & A3) & B1 & C1) ((A4 & A5 & A6) & B2 & C2) H. unfold fwd_post. splits.
  - unfold same_but_dependents. splits; congruence.
  - intros v u. rewrite B2, B1, H. tauto.
  - auto.
Qed.

(** Soundness whenever the pass terminates (no acyclicity needed). *)
Lemma fwd_sound : forall fuel self s s', add_fwd_edges O fuel self s = Some s' ->
  fwd_post (fun u v => (u = self \/ dep_on (deps s) self u) /\ In v (deps s u)) s s'.
Proof.
  induction fuel as [|f IH]; intros self s s' E; [discriminate|].
  rewrite fwd_unfold in E.
  assert (G : forall ds s1 s', deps s1 = deps s -> (forall x, In x ds -> In x (deps s self)) ->
     fwd_loop (add_fwd_edges O f) self ds s1 = Some s' ->
     fwd_post (fun u v => (u = self /\ In v ds)
        \/ exists w, In w ds /\ (u = w \/ dep_on (deps s) w u) /\ In v (deps s u)) s1 s').
  { clear E s'. induction ds as [|w ds IHds]; intros s1 s' D Hsub E; cbn [fwd_loop] in E.
    - injection E as <-. unfold fwd_post. splits; [repeat split| |auto]. intros v u. split; [tauto|].
      intros [H|[[_ []]|(w & [] & _)]]. assumption.
    - destruct (add_fwd_edges O f w (add_dependent_node O s1 w self)) as [s2|] eqn:E2; [|discriminate].
      apply IH in E2.
      pose proof (add_dependent_spec s1 w self) as P1.
      assert (D1 : deps (add_dependent_node O s1 w self) = deps s1) by reflexivity.
      rewrite D1, D in E2.
      apply IHds in E.
      + eapply fwd_post_trans; [exact P1| |].
        { eapply fwd_post_trans; [exact E2|exact E|]. intros u v. apply iff_refl. }
        intros u v. cbn beta. split.
        * intros [[-> [<-|H]]|(w' & [<-|H] & Hu & Hv)]; eauto 8.
        * intros [[-> ->]|[[Hu Hv]|[[-> H]|(w' & H & Hu & Hv)]]]; simpl; eauto 8.
      + destruct E2 as ((A & _) & _). rewrite A, D1. exact D.
      + intros x Hx. apply Hsub. now right. }
  apply G in E; auto.
  destruct E as (A & B & C). unfold fwd_post. splits; auto. intros v u. rewrite B. split.
  - intros [H|[[-> H]|(w & Hw & [->|Hu] & Hv)]]; auto.
    + right. split; [|assumption]. right. now apply dep_direct.
    + right. split; [|assumption]. right. now apply dep_step with w.
  - intros [H|[[->|Hu] Hv]]; auto. right. right.
    inversion Hu as [a b H|a w b H H1]; subst.
    + exists u. auto.
    + exists w. auto.
Qed.

(** Termination on acyclic graphs. *)
Lemma fwd_total rank : forall fuel self s, ranked (deps s) rank -> rank self < fuel ->
  exists s', add_fwd_edges O fuel self s = Some s'.
Proof.
  induction fuel as [|f IH]; intros self s R L; [lia|].
  rewrite fwd_unfold.
  assert (G : forall ds s1, deps s1 = deps s -> (forall x, In x ds -> In x (deps s self)) ->
     exists s', fwd_loop (add_fwd_edges O f) self ds s1 = Some s').
  { induction ds as [|w ds IHds]; intros s1 D Hsub; cbn [fwd_loop]; [eauto|].
    assert (Hw : rank w < rank self) by (apply R, Hsub; now left).
    assert (D1 : deps (add_dependent_node O s1 w self) = deps s) by (cbn [add_dependent_node deps]; exact D).
    destruct (IH w (add_dependent_node O s1 w self)) as (s2 & E2).
    { now rewrite D1. } { lia. }
    rewrite E2. apply IHds.
    - apply fwd_sound in E2. destruct E2 as ((A & _) & _). congruence.
    - intros x Hx. apply Hsub. now right. }
  apply G; auto.
Qed.

(** More fuel never changes a result. *)
Lemma fwd_mono : forall fuel self s s', add_fwd_edges O fuel self s = Some s' ->
  forall fuel', fuel <= fuel' -> add_fwd_edges O fuel' self s = Some s'.
Proof.
  induction fuel as [|f IH]; intros self s s' E [|f'] L; try discriminate; try lia.
  rewrite fwd_unfold in *. revert E. generalize (deps s self) as ds. intros ds. revert s.
  induction ds as [|w ds IHds]; intros s E; cbn [fwd_loop] in *; [assumption|].
  destruct (add_fwd_edges O f w (add_dependent_node O s w self)) as [s2|] eqn:E2; [|discriminate].
  rewrite (IH _ _ _ E2 f') by lia. now apply IHds.
Qed.

(** Divergence: if the pass terminates, every walk from [self] is bounded. *)
Lemma fwd_walk : forall fuel self s s', add_fwd_edges O fuel self s = Some s' ->
  forall l, walk (deps s) self l -> length l < fuel.
Proof.
  induction fuel as [|f IH]; intros self s s' E l W; [discriminate|].
  destruct W as [|self v l Hv W]; [simpl; lia|].
  rewrite fwd_unfold in E. cbn [length]. apply -> Nat.succ_lt_mono.
  assert (G : forall ds s1, deps s1 = deps s -> In v ds ->
    fwd_loop (add_fwd_edges O f) self ds s1 = Some s' -> length l < f).
  { induction ds as [|w ds IHds]; intros s1 D Hin E1; [contradiction|]. cbn [fwd_loop] in E1.
    assert (D1 : deps (add_dependent_node O s1 w self) = deps s) by (cbn [add_dependent_node deps]; exact D).
    destruct (add_fwd_edges O f w (add_dependent_node O s1 w self)) as [s2|] eqn:E2; [|discriminate].
    destruct Hin as [->|Hin].
    - apply IH with (l := l) in E2; [assumption|]. now rewrite D1.
    - apply fwd_sound in E2. destruct E2 as ((A & _) & _).
      apply (IHds s2); [congruence|assumption|assumption]. }
  apply (G _ s eq_refl Hv E).
Qed.
End Fwd.

Lemma dep_on_walk d u v : dep_on d u v -> exists l, walk d u (l ++ [v]).
Proof.
  induction 1 as [u v H|u w v H H1 (l & IH)].
  - exists []. simpl. constructor; [assumption|constructor].
  - exists (w :: l). simpl. now constructor.
Qed.

Lemma walk_app d u l v l' : walk d u (l ++ [v]) -> walk d v l' -> walk d u ((l ++ [v]) ++ l').
Proof.
  revert u. induction l as [|x l IH]; intros u H H'; simpl in *.
  - inversion H; subst. now constructor.
  - inversion H; subst. constructor; auto.
Qed.

Lemma cycle_walks d n : dep_on d n n -> forall k, exists l, walk d n l /\ k <= length l.
Proof.
  intros C k. apply dep_on_walk in C. destruct C as (c & C).
  induction k as [|k (l & W & L)].
  - exists []. split; [constructor|simpl; lia].
  - exists ((c ++ [n]) ++ l). split; [now apply walk_app|].
    rewrite !app_length. simpl. lia.
Qed.

Lemma fwd_diverges O root s n : (n = root \/ dep_on (deps s) root n) -> dep_on (deps s) n n ->
  forall fuel, add_fwd_edges O fuel root s = None.
Proof.
  intros R C fuel. destruct (add_fwd_edges O fuel root s) as [s'|] eqn:E; [exfalso|reflexivity].
  destruct (cycle_walks _ _ C fuel) as (l & W & L).
  destruct R as [->|R].
  - apply (fwd_walk O _ _ _ _ E) in W. lia.
  - apply dep_on_walk in R. destruct R as (l0 & W0).
    pose proof (walk_app _ _ _ _ _ W0 W) as W1.
    apply (fwd_walk O _ _ _ _ E) in W1. rewrite app_length in W1. lia.
Qed.

(** * compute_dag_cost: only costs change *)
Section Cost.
Definition cost_loop (rec : nat -> gstate -> option gstate) (self : nat) :=
  fix loop (ds : list nat) (s : gstate) :=
       match ds with
       | [] => Some s
       | dep :: r =>
         match rec dep s with
         | Some s' =>
           loop r (GS (deps s') (dependents s') (visited s')
                      (upd (dag_cost s') self (dag_cost s' self + dag_cost s' dep))
                      (tick s'))
         | None => None
         end
       end.

Lemma cost_unfold f self s :
  compute_dag_cost (S f) self s = cost_loop (compute_dag_cost f) self (deps s self) s.
Proof. reflexivity. Qed.

Definition same_but_cost (s s' : gstate) : Prop :=
  deps s' = deps s /\ dependents s' = dependents s /\ visited s' = visited s /\ tick s' = tick s.

Lemma cost_total rank : forall fuel self s, ranked (deps s) rank -> rank self < fuel ->
  exists s', compute_dag_cost fuel self s = Some s' /\ same_but_cost s s'.
Proof.
  induction fuel as [|f IH]; intros self s R L; [lia|].
  rewrite cost_unfold.
  assert (G : forall ds s1, same_but_cost s s1 -> (forall x, In x ds -> In x (deps s self)) ->
     exists s', cost_loop (compute_dag_cost f) self ds s1 = Some s' /\ same_but_cost s s').
  { induction ds as [|w ds IHds]; intros s1 D Hsub; cbn [cost_loop]; [eauto|].
    assert (Hw : rank w < rank self) by (apply R, Hsub; now left).
    destruct D as (D1 & D2 & D3 & D4).
    destruct (IH w s1) as (s2 & E2 & F1 & F2 & F3 & F4).
    { now rewrite D1. } { lia. }
    rewrite E2. apply IHds.
    - unfold same_but_cost. cbn [deps dependents visited tick]. splits; congruence.
    - intros x Hx. apply Hsub. now right. }
  apply G; auto. repeat split.
Qed.

Lemma cost_mono : forall fuel self s s', compute_dag_cost fuel self s = Some s' ->
  forall fuel', fuel <= fuel' -> compute_dag_cost fuel' self s = Some s'.
Proof.
  induction fuel as [|f IH]; intros self s s' E [|f'] L; try discriminate; try lia.
  rewrite cost_unfold in *. revert E. generalize (deps s self) as ds. intros ds. revert s.
  induction ds as [|w ds IHds]; intros s E; cbn [cost_loop] in *; [assumption|].
  destruct (compute_dag_cost f w s) as [s2|] eqn:E2; [|discriminate].
  rewrite (IH _ _ _ E2 f') by lia. now apply IHds.
Qed.
End Cost.

(** * sort_dependency_branches *)
Lemma insert_perm le x l : Permutation (insert_by le x l) (x :: l).
Proof.
  induction l as [|y l IH]; simpl; [reflexivity|].
  destruct (le x y); [reflexivity|].
  rewrite IH. apply perm_swap.
Qed.

Lemma stable_sort_perm le l : Permutation (stable_sort le l) l.
Proof.
  induction l as [|x l IH]; simpl; [reflexivity|].
  rewrite insert_perm. now constructor.
Qed.

Section Sorted.
Variable le : nat -> nat -> bool.
Hypothesis le_total : forall x y, le x y = false -> le y x = true.
Hypothesis le_trans : forall x y z, le x y = true -> le y z = true -> le x z = true.

Lemma insert_sorted x l : StronglySorted (fun a b => le a b = true) l ->
  StronglySorted (fun a b => le a b = true) (insert_by le x l).
Proof.
  induction 1 as [|y l S IH F]; simpl; [repeat constructor|].
  destruct (le x y) eqn:E.
  - constructor; [now constructor|]. constructor; [assumption|].
    rewrite Forall_forall in *. intros z Hz. eauto.
  - constructor; [assumption|]. rewrite Forall_forall in *. intros z Hz.
    apply (Permutation_in _ (insert_perm le x l)) in Hz. destruct Hz as [<-|Hz]; auto.
Qed.

Lemma stable_sort_sorted l : StronglySorted (fun a b => le a b = true) (stable_sort le l).
Proof. induction l as [|x l IH]; simpl; [constructor|]. now apply insert_sorted. Qed.
End Sorted.

(** Stability: elements equal to each other w.r.t. the key keep their order. *)
Lemma insert_filter_in le p x l :
  p x = true ->
  (forall y, In y l -> p y = true -> le x y = true) ->
  filter p (insert_by le x l) = x :: filter p l.
Proof.
  intros Px. induction l as [|y l IH]; intros H; simpl; [now rewrite Px|].
  destruct (le x y) eqn:E; simpl; [now rewrite Px|].
  destruct (p y) eqn:Py.
  - rewrite H in E; [discriminate|now left|assumption].
  - apply IH. intros z Hz. apply H. now right.
Qed.

Lemma insert_filter_out le p x l : p x = false -> filter p (insert_by le x l) = filter p l.
Proof.
  intros Px. induction l as [|y l IH]; simpl; [now rewrite Px|].
  destruct (le x y); simpl; [now rewrite Px|]. now rewrite IH.
Qed.

Lemma stable_sort_stable le (key : nat -> nat) k l :
  (forall x y, key x = key y -> le x y = true) ->
  filter (fun x => Nat.eqb (key x) k) (stable_sort le l) = filter (fun x => Nat.eqb (key x) k) l.
Proof.
  intros H. induction l as [|x l IH]; [reflexivity|]. cbn [stable_sort fold_right filter].
  change (fold_right (insert_by le) [] l) with (stable_sort le l).
  destruct (Nat.eqb_spec (key x) k) as [<-|NE].
  - rewrite insert_filter_in.
    + now rewrite IH.
    + now rewrite Nat.eqb_refl.
    + intros y _ Hy. apply Nat.eqb_eq in Hy. now apply H.
  - rewrite insert_filter_out; [assumption|]. now apply Nat.eqb_neq.
Qed.

Definition sort_rel (s s' : gstate) : Prop :=
  (forall n, Permutation (deps s' n) (deps s n)) /\ dependents s' = dependents s
  /\ visited s' = visited s /\ dag_cost s' = dag_cost s /\ tick s' = tick s.

Lemma sort_all reverse : forall ns s, sort_rel s (fold_left (sort_dependency_branches reverse) ns s).
Proof.
  induction ns as [|n ns IH]; intros s; simpl.
  - repeat split; auto.
  - destruct (IH (sort_dependency_branches reverse s n)) as (P & A & B & C & D).
    unfold sort_rel. rewrite A, B, C, D. splits; try reflexivity.
    intros m. rewrite P. unfold sort_dependency_branches. cbn [set_deps deps]. unfold upd.
    destruct (Nat.eqb_spec m n) as [->|]; [apply stable_sort_perm|reflexivity].
Qed.

Lemma dep_on_perm d d' : (forall n, Permutation (d' n) (d n)) ->
  forall u v, dep_on d' u v <-> dep_on d u v.
Proof.
  intros P u v. split; apply dep_on_mono; intros x y H; apply dep_direct.
  - now apply (Permutation_in _ (P x)).
  - now apply (Permutation_in _ (Permutation_sym (P x))).
Qed.
