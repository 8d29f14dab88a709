(** Elementary facts about dependency graphs. *)
From Verif Require Import PyBase SpecGraph.

Lemma dep_on_trans d u v w : dep_on d u v -> dep_on d v w -> dep_on d u w.
Proof.
  intros H. revert w. induction H as [u v H|u x v H H1 IH]; intros w Hw.
  - now apply dep_step with v.
  - apply dep_step with x; [assumption|]. now apply IH.
Qed.

Lemma dep_on_mono (d d' : nat -> list nat) :
  (forall u v, In v (d u) -> dep_on d' u v) -> forall u v, dep_on d u v -> dep_on d' u v.
Proof.
  intros H u v D. induction D as [u v D|u x v D D1 IH]; [now apply H|].
  apply dep_on_trans with x; [now apply H|assumption].
Qed.

Lemma dep_on_last d u v : dep_on d u v -> exists w, (w = u \/ dep_on d u w) /\ In v (d w).
Proof.
  induction 1 as [u v H|u x v H H1 IH].
  - exists u. split; [now left|assumption].
  - destruct IH as (w & [->|Hw] & Hv).
    + exists x. split; [right; now apply dep_direct|assumption].
    + exists w. split; [right; now apply dep_step with x|assumption].
Qed.

(** A rank function decreases along dependencies. *)
Definition ranked (d : nat -> list nat) (rank : nat -> nat) : Prop :=
  forall u v, In v (d u) -> rank v < rank u.

Lemma ranked_dep d rank : ranked d rank -> forall u v, dep_on d u v -> rank v < rank u.
Proof.
  intros R u v H. induction H as [u v H|u x v H H1 IH].
  - now apply R.
  - specialize (R u x H). lia.
Qed.

Lemma ranked_acyclic d rank : ranked d rank -> acyclic d.
Proof. intros R n H. apply (ranked_dep d rank R) in H. lia. Qed.

(** Finite acyclic graphs have a rank function: the length of a longest walk. *)
Inductive walk (d : nat -> list nat) : nat -> list nat -> Prop :=
| walk_nil : forall u, walk d u []
| walk_cons : forall u v l, In v (d u) -> walk d v l -> walk d u (v :: l).

Lemma walk_dep d u l v : walk d u l -> In v l -> dep_on d u v.
Proof.
  intros H. induction H as [u|u x l H H1 IH]; intros Hv; [contradiction|].
  destruct Hv as [->|Hv]; [now apply dep_direct|].
  apply dep_step with x; auto.
Qed.

Lemma walk_nodup d u l : acyclic d -> walk d u l -> NoDup l.
Proof.
  intros A H. induction H as [u|u x l H H1 IH]; [constructor|].
  constructor; [|assumption]. intros Hx. apply (A x). now apply walk_dep with l.
Qed.

Lemma walk_lt N d u l v : finite_graph N d -> walk d u l -> In v l -> v < N.
Proof.
  intros F H. induction H as [u|u x l H H1 IH]; intros Hv; [contradiction|].
  destruct Hv as [->|Hv]; [now apply (F u v)|auto].
Qed.

Lemma walk_length N d u l : finite_graph N d -> acyclic d -> walk d u l -> length l <= N.
Proof.
  intros F A H.
  rewrite <- (seq_length N 0). apply NoDup_incl_length.
  - now apply walk_nodup with d u.
  - intros v Hv. apply in_seq. pose proof (walk_lt N d u l v F H Hv). lia.
Qed.

Fixpoint height (d : nat -> list nat) (f : nat) (u : nat) : nat :=
  match f with
  | 0 => 0
  | S f' => fold_right Nat.max 0 (map (fun v => S (height d f' v)) (d u))
  end.

Lemma fold_max_in l x : In x l -> x <= fold_right Nat.max 0 l.
Proof. induction l as [|y l IH]; simpl; [tauto|]. intros [->|H]; [lia|]. specialize (IH H). lia. Qed.

Lemma fold_max_attained l : l <> [] -> In (fold_right Nat.max 0 l) l.
Proof.
  induction l as [|y l IH]; [congruence|]. intros _. simpl.
  destruct l as [|z l]; [left; simpl; lia|].
  specialize (IH ltac:(discriminate)).
  destruct (Nat.max_spec y (fold_right Nat.max 0 (z :: l))) as [[_ ->]|[_ ->]]; [now right|now left].
Qed.

Lemma height_walk d : forall f u, exists l, walk d u l /\ length l = height d f u.
Proof.
  induction f as [|f IH]; intros u.
  - exists []. split; [constructor|reflexivity].
  - cbn [height]. destruct (d u) as [|x r] eqn:E.
    + exists []. split; [constructor|reflexivity].
    + pose proof (fold_max_attained (map (fun v => S (height d f v)) (x :: r)) ltac:(discriminate)) as M.
      apply in_map_iff in M. destruct M as (v & Hv & Hin).
      destruct (IH v) as (l & Hl & Hlen). exists (v :: l). split.
      * constructor; [now rewrite E|assumption].
      * cbn [length]. rewrite Hlen. exact Hv.
Qed.

Lemma walk_height d : forall f u l, walk d u l -> length l <= f -> length l <= height d f u.
Proof.
  induction f as [|f IH]; intros u l H L; [lia|].
  destruct H as [u|u v l H H1]; [simpl; lia|].
  cbn [length] in *. specialize (IH v l H1 ltac:(lia)).
  cbn [height]. apply Nat.le_trans with (S (height d f v)); [lia|].
  apply fold_max_in. apply in_map_iff. now exists v.
Qed.

Lemma finite_acyclic_ranked N d : finite_graph N d -> acyclic d -> ranked d (height d N).
Proof.
  intros F A u v H.
  destruct (height_walk d N v) as (l & Hl & <-).
  assert (W : walk d u (v :: l)) by now constructor.
  pose proof (walk_length N d u _ F A W) as L.
  pose proof (walk_height d N u _ W L) as L'. cbn [length] in L'. lia.
Qed.

(** Conversely, in a ranked graph nothing more is needed for finiteness. *)
Lemma before_app_l l l' a b : before l a b -> before (l ++ l') a b.
Proof.
  intros (l1 & l2 & l3 & ->). exists l1, l2, (l3 ++ l').
  now rewrite <- app_assoc, app_comm_cons, <- app_assoc.
Qed.

Lemma before_snoc l a b : In a l -> before (l ++ [b]) a b.
Proof.
  intros H. apply in_split in H. destruct H as (l1 & l2 & ->).
  exists l1, l2, []. now rewrite <- app_assoc.
Qed.

Lemma before_rev l a b : before l a b -> before (rev l) b a.
Proof.
  intros (l1 & l2 & l3 & ->). exists (rev l3), (rev l2), (rev l1).
  rewrite rev_app_distr. cbn [rev]. rewrite rev_app_distr. cbn [rev].
  rewrite <- !app_assoc. reflexivity.
Qed.

Lemma before_in l a b : before l a b -> In a l /\ In b l.
Proof.
  intros (l1 & l2 & l3 & ->). split; apply in_or_app; right; [now left|].
  right. apply in_or_app. right. now left.
Qed.

Lemma nodup_middle (l1 l1' l2 l2' : list nat) x :
  NoDup (l1 ++ x :: l2) -> l1 ++ x :: l2 = l1' ++ x :: l2' -> l1 = l1' /\ l2 = l2'.
Proof.
  revert l1'. induction l1 as [|y l1 IH]; intros [|z l1'] H E; cbn [app] in *.
  - injection E as <-. auto.
  - injection E as <- E. exfalso. apply NoDup_cons_iff in H. apply (proj1 H). rewrite E.
    apply in_or_app. right. now left.
  - injection E as -> E. exfalso. apply NoDup_cons_iff in H. apply (proj1 H).
    apply in_or_app. right. now left.
  - injection E as <- E. apply NoDup_cons_iff in H.
    destruct (IH l1' (proj2 H) E) as [-> ->]. auto.
Qed.

Lemma before_trans l a b c : NoDup l -> before l a b -> before l b c -> before l a c.
Proof.
  intros N (l1 & l2 & l3 & E1) (m1 & m2 & m3 & E2). subst l.
  assert (E : (l1 ++ a :: l2) ++ b :: l3 = m1 ++ b :: (m2 ++ c :: m3))
    by (rewrite <- E2, <- app_assoc; reflexivity).
  assert (N' : NoDup ((l1 ++ a :: l2) ++ b :: l3)).
  { rewrite <- app_assoc. exact N. }
  destruct (nodup_middle _ _ _ _ _ N' E) as [E3 E4]. subst m1.
  exists l1, (l2 ++ b :: m2), m3. rewrite E4.
  rewrite <- !app_assoc. reflexivity.
Qed.

Lemma before_irrefl l a : NoDup l -> ~ before l a a.
Proof.
  intros N (l1 & l2 & l3 & ->). apply NoDup_remove_2 in N. apply N.
  apply in_or_app. right. apply in_or_app. right. now left.
Qed.
