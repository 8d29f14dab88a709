(** register_nodes: total on every finite graph whose identifiers are distinct,
    and records exactly the nodes reachable from the caller. *)
From Verif Require Import PyBase SpecGraph GraphLemmas Graph.

Section Register.
Variable uid : nat -> nat.

Definition reg_loop (rec : nat -> list (nat * nat) -> option (res (list (nat * nat)))) :=
  fix loop (ds : list nat) (nodes : list (nat * nat)) :=
       match ds with
       | [] => Some (Ok nodes)
       | n :: r =>
         match lookup (uid n) nodes with
         | Some m => if Nat.eqb m n then loop r nodes
                     else Some (Raise ValueError)
         | None =>
           match rec n (nodes ++ [(uid n, n)]) with
           | Some (Ok nodes') => loop r nodes'
           | other => other
           end
         end
       end.

Lemma register_unfold f d self nodes :
  register_nodes uid (S f) d self nodes = reg_loop (register_nodes uid f d) (d self) nodes.
Proof. reflexivity. Qed.

Lemma lookup_in k nodes n : lookup k nodes = Some n -> In (k, n) nodes.
Proof.
  induction nodes as [|[k' n'] r IH]; simpl; [discriminate|].
  destruct (Nat.eqb_spec k' k) as [->|]; [|auto]. intros E. injection E as ->. now left.
Qed.

Lemma lookup_none k nodes n : lookup k nodes = None -> ~ In (k, n) nodes.
Proof.
  induction nodes as [|[k' n'] r IH]; simpl; [tauto|].
  destruct (Nat.eqb_spec k' k) as [->|NE]; [discriminate|].
  intros E [H|H]; [congruence|]. now apply IH.
Qed.

Variable P : nat -> Prop.
Hypothesis uid_inj : forall u v, P u -> P v -> uid u = uid v -> u = v.

Definition keyed (nodes : list (nat * nat)) : Prop :=
  forall k n, In (k, n) nodes -> k = uid n /\ P n.

Lemma keyed_snoc nodes n : keyed nodes -> P n -> keyed (nodes ++ [(uid n, n)]).
Proof.
  intros K Hn k m H. apply in_app_or in H. destruct H as [H|[H|[]]]; [now apply K|].
  injection H as <- <-. auto.
Qed.

Lemma in_snd (nodes : list (nat * nat)) n : In n (map snd nodes) <-> exists k, In (k, n) nodes.
Proof.
  rewrite in_map_iff. split.
  - intros ([k m] & E & H). simpl in E. subst m. now exists k.
  - intros (k & H). now exists (k, n).
Qed.

Lemma lookup_none_in nodes n : keyed nodes -> lookup (uid n) nodes = None -> ~ In n (map snd nodes).
Proof.
  intros K L H. apply in_snd in H. destruct H as (k & H).
  destruct (K _ _ H) as [-> _]. now apply (lookup_none _ _ n L).
Qed.

Variable d : nat -> list nat.
Hypothesis P_closed : forall u v, P u -> In v (d u) -> P v.

Definition reg_post (self : nat) (ds : list nat) (nodes new : list (nat * nat)) : Prop :=
  keyed (nodes ++ new)
  /\ NoDup (map snd (nodes ++ new))
  /\ (forall v, In v (map snd new) -> dep_on d self v)
  /\ (forall v, In v ds -> In v (map snd (nodes ++ new)))
  /\ (forall u v, In u (map snd new) -> In v (d u) -> In v (map snd (nodes ++ new))).

(** Number of nodes of the finite universe [U] not yet recorded: bounds the
    recursion depth, also on cyclic graphs. *)
Variable U : list nat.
Hypothesis P_U : forall n, P n -> In n U.

Definition left_over (nodes : list (nat * nat)) : nat :=
  length (filter (fun n => negb (mem n (map snd nodes))) (nodup Nat.eq_dec U)).

Lemma filter_length_le {A} (p q : A -> bool) l :
  (forall x, p x = true -> q x = true) -> length (filter p l) <= length (filter q l).
Proof.
  intros H. induction l as [|x l IH]; simpl; [lia|].
  specialize (H x). destruct (p x), (q x); simpl; try lia.
Qed.

Lemma filter_length_lt {A} (p q : A -> bool) l y :
  (forall x, p x = true -> q x = true) -> In y l -> p y = false -> q y = true ->
  length (filter p l) < length (filter q l).
Proof.
  intros H. induction l as [|x l IH]; simpl; [tauto|].
  intros [->|Hy] E1 E2.
  - rewrite E1, E2. simpl. pose proof (filter_length_le p q l H). lia.
  - specialize (IH Hy E1 E2). specialize (H x).
    destruct (p x), (q x); simpl; try lia.
Qed.

Lemma left_over_app nodes new : left_over (nodes ++ new) <= left_over nodes.
Proof.
  apply filter_length_le. intros x. rewrite map_app.
  destruct (mem x (map snd nodes)) eqn:E; [|reflexivity].
  apply mem_In in E.
  assert (mem x (map snd nodes ++ map snd new) = true) as ->
    by (apply mem_In, in_or_app; now left).
  auto.
Qed.

Lemma left_over_snoc nodes n : keyed nodes -> P n -> lookup (uid n) nodes = None ->
  left_over (nodes ++ [(uid n, n)]) < left_over nodes.
Proof.
  intros K Hn L. apply filter_length_lt with n.
  - intros x. rewrite map_app.
    destruct (mem x (map snd nodes)) eqn:E; [|reflexivity].
    apply mem_In in E.
    assert (mem x (map snd nodes ++ map snd [(uid n, n)]) = true) as ->
      by (apply mem_In, in_or_app; now left).
    auto.
  - apply nodup_In. now apply P_U.
  - apply negb_false_iff, mem_In. rewrite map_app. apply in_or_app. right. now left.
  - apply negb_true_iff. destruct (mem n (map snd nodes)) eqn:E; [|reflexivity].
    apply mem_In in E. now apply lookup_none_in in E.
Qed.

Lemma register_ok : forall fuel self nodes,
  left_over nodes < fuel -> P self -> keyed nodes -> NoDup (map snd nodes) ->
  exists new, register_nodes uid fuel d self nodes = Some (Ok (nodes ++ new))
              /\ reg_post self (d self) nodes new.
Proof.
  induction fuel as [|f IH]; intros self nodes HF HP HK HN; [lia|].
  rewrite register_unfold.
  assert (Hsub : forall v, In v (d self) -> In v (d self)) by auto.
  revert Hsub.
  generalize (d self) at 1 3 4 as ds. intros ds Hsub.
  revert nodes HF HK HN.
  induction ds as [|n ds IHds]; intros nodes HF HK HN.
  - exists []. rewrite app_nil_r. split; [reflexivity|].
    unfold reg_post. rewrite app_nil_r. splits; simpl; auto; tauto.
  - cbn [reg_loop].
    assert (Hn : In n (d self)) by (apply Hsub; now left).
    assert (HPn : P n) by now apply P_closed with self.
    specialize (IHds (fun v H => Hsub v (or_intror H))).
    destruct (lookup (uid n) nodes) as [m|] eqn:L.
    + pose proof (lookup_in _ _ _ L) as Hin. destruct (HK _ _ Hin) as [E Pm].
      assert (m = n) as -> by (apply uid_inj; auto).
      rewrite Nat.eqb_refl.
      destruct (IHds nodes HF HK HN) as (new & E1 & K1 & N1 & S1 & D1 & C1).
      exists new. split; [exact E1|]. unfold reg_post; splits; auto.
      * intros v [<-|Hv]; [|auto]. rewrite map_app. apply in_or_app. left.
        apply in_snd. now exists (uid n).
    + assert (HK' : keyed (nodes ++ [(uid n, n)])) by now apply keyed_snoc.
      assert (HN' : NoDup (map snd (nodes ++ [(uid n, n)]))).
      { rewrite map_app.
        apply Permutation_NoDup with (n :: map snd nodes).
        - simpl. apply Permutation_cons_append.
        - constructor; [now apply lookup_none_in|assumption]. }
      pose proof (left_over_snoc nodes n HK HPn L) as HL.
      destruct (IH n (nodes ++ [(uid n, n)]) ltac:(lia) HPn HK' HN')
        as (new1 & E1 & K1 & N1 & S1 & D1 & C1).
      rewrite E1. cbn beta iota.
      assert (HF2 : left_over ((nodes ++ [(uid n, n)]) ++ new1) < S f).
      { pose proof (left_over_app (nodes ++ [(uid n, n)]) new1). lia. }
      destruct (IHds _ HF2 K1 N1) as (new2 & E2 & K2 & N2 & S2 & D2 & C2).
      exists ([(uid n, n)] ++ new1 ++ new2).
      assert (EQ : nodes ++ [(uid n, n)] ++ new1 ++ new2
                   = ((nodes ++ [(uid n, n)]) ++ new1) ++ new2)
        by (now rewrite <- !app_assoc).
      rewrite EQ. split; [exact E2|]. unfold reg_post. rewrite EQ.
      splits.
      * exact K2.
      * exact N2.
      * intros v Hv. simpl in Hv. destruct Hv as [<-|Hv]; [now apply dep_direct|].
        rewrite map_app in Hv. apply in_app_or in Hv. destruct Hv as [Hv|Hv]; [|auto].
        apply dep_step with n; auto.
      * intros v [<-|Hv]; [|auto]. rewrite !map_app.
        apply in_or_app; left. apply in_or_app; left. apply in_or_app; right. now left.
      * intros u v Hu Huv. simpl in Hu. rewrite map_app in Hu.
        assert (X : In v (map snd ((nodes ++ [(uid n, n)]) ++ new1)) ->
                    In v (map snd (((nodes ++ [(uid n, n)]) ++ new1) ++ new2))).
        { intros X. rewrite map_app. apply in_or_app. now left. }
        destruct Hu as [<-|Hu]; [auto|].
        apply in_app_or in Hu. destruct Hu as [Hu|Hu]; [apply X; eauto|eauto].
Qed.

(** From an empty dict: exactly the reachable nodes, each once. *)
Lemma register_nodes_spec fuel root :
  length U < fuel -> P root ->
  exists nodes, register_nodes uid fuel d root [] = Some (Ok nodes)
    /\ NoDup (map snd nodes)
    /\ (forall v, In v (map snd nodes) <-> dep_on d root v)
    /\ keyed nodes.
Proof.
  intros HF HP.
  assert (L : left_over [] < fuel).
  { unfold left_over. apply Nat.le_lt_trans with (length U); [|assumption].
    apply Nat.le_trans with (length (nodup Nat.eq_dec U)).
    - induction (nodup Nat.eq_dec U) as [|y l IH]; simpl in *; [lia|].
      lia.
    - apply NoDup_incl_length; [apply NoDup_nodup|]. intros x Hx. now apply nodup_In in Hx. }
  destruct (register_ok fuel root [] L HP) as (new & E & K & N & S1 & D1 & C1).
  - intros k n [].
  - constructor.
  - exists new. simpl in *. splits; auto. intros v. split; [auto|].
    + intros H.
      assert (G : forall u v, dep_on d u v -> (u = root \/ In u (map snd new)) -> In v (map snd new)).
      { intros u w Huw. induction Huw as [u w Huw|u x w Huw Hxw IH]; intros [->|Hu]; eauto. }
      eauto.
Qed.
End Register.
