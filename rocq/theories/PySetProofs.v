(** [list(set(l))] for integers below 8: ascending listing. *)
From Coq Require Import Sorted.
From Verif Require Import PyBase PySet.

(** The listing is strictly ascending and has the same elements. *)
Definition ascending_listing (l' l : list nat) : Prop :=
  StronglySorted lt l' /\ forall x, In x l' <-> In x l.

(** [iset] lists sets of integers below [B] in ascending order. *)
Definition iset_ok (iset : list nat -> list nat) (B : nat) : Prop :=
  forall l, (forall x, In x l -> x < B) -> ascending_listing (iset l) l.

Fixpoint all_bools (n : nat) : list (list bool) :=
  match n with
  | 0 => [[]]
  | S m => flat_map (fun b => [true :: b; false :: b]) (all_bools m)
  end.

Lemma all_bools_in : forall b, In b (all_bools (length b)).
Proof.
  induction b as [|x b IH]; simpl; [now left|].
  apply in_flat_map. exists b. split; [assumption|]. destruct x; simpl; auto.
Qed.

Fixpoint count_true (b : list bool) : nat :=
  match b with [] => 0 | true :: r => S (count_true r) | false :: r => count_true r end.

(** Table holding the set [b] of integers below 8. *)
Definition canon (b : list bool) : table :=
  map (fun i => if nth i b false then Some i else None) (seq 0 8)
  ++ (if Nat.ltb (count_true b) 5 then [] else repeat None 24).

Definition set_bit (b : list bool) (k : nat) : list bool :=
  map (fun i => if Nat.eqb i k then true else nth i b false) (seq 0 8).

Definition slots_eqb (t1 t2 : table) : bool :=
  if list_eq_dec (fun a b : option nat => ltac:(decide equality; apply Nat.eq_dec)) t1 t2
  then true else false.

Lemma canon_add_all :
  forallb (fun b => forallb (fun k => slots_eqb (set_add (canon b) k) (canon (set_bit b k)))
                            (seq 0 8)) (all_bools 8) = true.
Proof. vm_compute. reflexivity. Qed.

Lemma canon_add b k : length b = 8 -> k < 8 -> set_add (canon b) k = canon (set_bit b k).
Proof.
  intros Hb Hk.
  pose proof canon_add_all as H. rewrite forallb_forall in H.
  specialize (H b). rewrite <- Hb in H. specialize (H (all_bools_in b)).
  rewrite Hb in H. rewrite forallb_forall in H.
  specialize (H k ltac:(apply in_seq; lia)).
  unfold slots_eqb in H. destruct (list_eq_dec _ _ _) as [E|]; [exact E|discriminate].
Qed.

Lemma set_bit_length b k : length (set_bit b k) = 8.
Proof. reflexivity. Qed.

Lemma set_bit_nth b k i : i < 8 -> nth i (set_bit b k) false = if Nat.eqb i k then true else nth i b false.
Proof.
  intros H. unfold set_bit. do 8 (destruct i as [|i]; [reflexivity|]). lia.
Qed.

Lemma canon_elements b : elements (canon b) = filter (fun i => nth i b false) (seq 0 8).
Proof.
  unfold canon. generalize (seq 0 8) as l. induction l as [|i l IH].
  - simpl. destruct (count_true b <? 5); reflexivity.
  - cbn [map app elements filter]. destruct (nth i b false); cbn [elements]; now rewrite IH.
Qed.

Lemma fold_canon : forall l b, length b = 8 -> (forall x, In x l -> x < 8) ->
  exists b', length b' = 8 /\ fold_left set_add l (canon b) = canon b'
    /\ forall i, i < 8 -> (nth i b' false = true <-> nth i b false = true \/ In i l).
Proof.
  induction l as [|k l IH]; intros b Hb Hl; simpl.
  - exists b. repeat split; auto. tauto.
  - assert (k < 8) by (apply Hl; now left).
    rewrite canon_add by assumption.
    destruct (IH (set_bit b k) (set_bit_length b k)) as (b' & L & E & S).
    { intros x Hx. apply Hl. now right. }
    exists b'. repeat split; auto.
    + intros Hi. apply S in Hi; [|assumption]. rewrite set_bit_nth in Hi by assumption.
      destruct (Nat.eqb_spec i k); subst; intuition.
    + intros Hi. apply S; [assumption|]. rewrite set_bit_nth by assumption.
      destruct (Nat.eqb_spec i k); subst; intuition.
Qed.

Lemma filter_sorted (p : nat -> bool) l : StronglySorted lt l -> StronglySorted lt (filter p l).
Proof.
  induction 1 as [|x l H IH F]; simpl; [constructor|].
  destruct (p x); [|assumption]. constructor; [assumption|].
  rewrite Forall_forall in *. intros y Hy. apply filter_In in Hy. now apply F.
Qed.

Lemma seq_sorted n a : StronglySorted lt (seq a n).
Proof.
  revert a. induction n as [|n IH]; intros a; simpl; constructor; auto.
  apply Forall_forall. intros x Hx. apply in_seq in Hx. lia.
Qed.

Theorem set_list_ok : iset_ok set_list 8.
Proof.
  intros l Hl. unfold set_list.
  change (repeat None 8) with (canon (repeat false 8)).
  destruct (fold_canon l (repeat false 8) eq_refl Hl) as (b' & L & -> & S).
  rewrite canon_elements. split.
  - apply filter_sorted, seq_sorted.
  - intros x. rewrite filter_In, in_seq. split.
    + intros [H1 H2]. apply S in H2; [|lia]. destruct H2 as [H2|]; [|assumption].
      exfalso. do 8 (destruct x as [|x]; [discriminate|]). lia.
    + intros H. split; [specialize (Hl x H); lia|]. apply S; auto.
Qed.

(** Nine elements are enough to break it. *)
Lemma set_list_not_ok : ~ iset_ok set_list 9.
Proof.
  intros H. destruct (H [1; 8]) as [S _].
  - simpl. intros x [<-|[<-|[]]]; lia.
  - vm_compute in S. inversion S as [|a l S1 F]. subst. inversion F. lia.
Qed.
