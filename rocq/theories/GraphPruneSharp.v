(** remove_indirect_dependencies is exact only when the positions to remove are
    listed in ascending order. *)
From Coq Require Import Sorted.
From Verif Require Import PyBase PySet PySetProofs PySetWide SpecGraph GraphLemmas Graph GraphPrune.

(** * Removing positions one after the other *)
Definition rm {A} (i : nat) (l : list A) : list A := firstn i l ++ skipn (S i) l.

Lemma rm_map {A B} (f : A -> B) i l : rm i (map f l) = map f (rm i l).
Proof. unfold rm. now rewrite map_app, firstn_map, skipn_map. Qed.

Lemma rm_out {A} i (l : list A) : length l <= i -> rm i l = l.
Proof.
  intros H. unfold rm. rewrite firstn_all2 by assumption. rewrite skipn_all2 by lia. apply app_nil_r.
Qed.

Lemma rm_length {A} i (l : list A) : length (rm i l) = if Nat.ltb i (length l) then length l - 1 else length l.
Proof.
  unfold rm. rewrite app_length, firstn_length, skipn_length.
  destruct (Nat.ltb_spec i (length l)); lia.
Qed.

Lemma rm_nth {A} i (l : list A) j : nth_error (rm i l) j = nth_error l (if Nat.ltb j i then j else S j).
Proof.
  unfold rm. destruct (Nat.ltb_spec j i) as [L|L].
  - destruct (Nat.ltb_spec j (length l)) as [K|K].
    + rewrite nth_error_app1 by (rewrite firstn_length; lia).
      revert i j L K. induction l as [|x l IH]; intros [|i] [|j] L K; simpl in *; try lia; try reflexivity.
      apply IH; lia.
    + rewrite (proj2 (nth_error_None l j)) by assumption. apply nth_error_None.
      rewrite app_length, firstn_length, skipn_length. lia.
  - destruct (Nat.ltb_spec i (length l)) as [K|K].
    + rewrite nth_error_app2 by (rewrite firstn_length; lia). rewrite firstn_length.
      replace (Nat.min i (length l)) with i by lia.
      replace (S j) with (S i + (j - i)) by lia. generalize (j - i). clear.
      intros k. revert l. induction (S i) as [|m IH]; intros l; [reflexivity|].
      destruct l as [|x l]; [now destruct k|]. simpl. apply IH.
    + rewrite firstn_all2, skipn_all2, app_nil_r by lia.
      rewrite !(proj2 (nth_error_None _ _)) by lia. reflexivity.
Qed.

Lemma rm_nodup {A} i (l : list A) : NoDup l -> NoDup (rm i l).
Proof.
  rewrite !NoDup_nth_error. intros N a b La E.
  destruct (Nat.ltb_spec i (length l)) as [K|K]; [|rewrite rm_out in * by assumption; now apply N].
  rewrite rm_length in La. rewrite !rm_nth in E. destruct (Nat.ltb_spec i (length l)); [|lia].
  apply N in E; [|destruct (Nat.ltb_spec a i); lia].
  destruct (Nat.ltb_spec a i), (Nat.ltb_spec b i); lia.
Qed.

Lemma remove_is_rm l i : NoDup l -> remove_dependency_by_index l i = rm i l.
Proof.
  intros N. unfold remove_dependency_by_index. destruct (nth_error l i) as [x|] eqn:E.
  - revert i E. induction N as [|y l Hy N IH]; intros [|i] E; simpl in *; try discriminate.
    + injection E as ->. now rewrite Nat.eqb_refl.
    + destruct (Nat.eqb_spec y x) as [->|NE].
      * exfalso. apply Hy. now apply nth_error_In with i.
      * unfold rm in *. simpl. f_equal. now apply IH.
  - apply nth_error_None in E. now rewrite rm_out.
Qed.

Definition rms {A} (ps : list nat) (l : list A) : list A := fold_left (fun l i => rm i l) ps l.

Lemma removes_rms ps : forall l, NoDup l -> fold_left remove_dependency_by_index ps l = rms ps l.
Proof.
  induction ps as [|p ps IH]; intros l N; [reflexivity|]. cbn [fold_left]. unfold rms. cbn [fold_left].
  rewrite remove_is_rm by assumption. apply IH. now apply rm_nodup.
Qed.

Lemma rms_map {A B} (f : A -> B) ps : forall l, rms ps (map f l) = map f (rms ps l).
Proof.
  unfold rms. induction ps as [|p ps IH]; intros l; [reflexivity|]. cbn [fold_left]. now rewrite rm_map, IH.
Qed.

Lemma rms_nodup {A} ps : forall l : list A, NoDup l -> NoDup (rms ps l).
Proof.
  unfold rms. induction ps as [|p ps IH]; intros l N; [assumption|]. cbn [fold_left]. now apply IH, rm_nodup.
Qed.

Lemma rms_length {A} ps : forall l : list A, length l <= length (rms ps l) + length ps.
Proof.
  unfold rms. induction ps as [|p ps IH]; intros l; cbn [fold_left length]; [lia|].
  specialize (IH (rm p l)). rewrite rm_length in IH. destruct (Nat.ltb p (length l)); lia.
Qed.

(** * Sums *)
Fixpoint total (l : list nat) : nat := match l with [] => 0 | x :: r => x + total r end.

Lemma total_app a b : total (a ++ b) = total a + total b.
Proof. induction a as [|x a IH]; simpl; lia. Qed.

Lemma total_perm a b : Permutation a b -> total a = total b.
Proof. induction 1; simpl; lia. Qed.

Lemma total_rm l p x : nth_error l p = Some x -> total l = x + total (rm p l).
Proof.
  unfold rm. revert p. induction l as [|y l IH]; intros [|p] E; simpl in *; try discriminate.
  - now injection E as ->.
  - specialize (IH p E). rewrite IH. destruct l; simpl in *; lia.
Qed.

(** entries do not lie below their positions, and increase *)
Definition rising (l : list nat) : Prop :=
  (forall i x, nth_error l i = Some x -> i <= x) /\
  forall i j x y, i < j -> nth_error l i = Some x -> nth_error l j = Some y -> x < y.

Lemma rising_seq n : rising (seq 0 n).
Proof.
  assert (E : forall i x, nth_error (seq 0 n) i = Some x -> x = i).
  { intros i x H. assert (L : i < length (seq 0 n)) by (apply nth_error_Some; congruence).
    rewrite seq_length in L. apply nth_error_nth with (d := 0) in H. rewrite seq_nth in H; lia. }
  split; [intros i x H; rewrite (E i x H); lia|].
  intros i j x y L H1 H2. now rewrite (E i x H1), (E j y H2).
Qed.

Lemma rising_rm p l : rising l -> rising (rm p l).
Proof.
  intros [H1 H2]. split.
  - intros i x E. rewrite rm_nth in E. apply H1 in E. destruct (Nat.ltb i p); lia.
  - intros i j x y L E1 E2. rewrite rm_nth in E1, E2. refine (H2 _ _ x y _ E1 E2).
    destruct (Nat.ltb_spec i p), (Nat.ltb_spec j p); lia.
Qed.

Lemma rising_total ps : forall l, rising l -> length (rms ps l) + length ps = length l ->
  total (rms ps l) + total ps <= total l /\
  (total (rms ps l) + total ps = total l ->
   StronglySorted (fun a b => b < a) ps /\ forall q, In q ps -> nth_error l q = Some q).
Proof.
  induction ps as [|p ps IH]; intros l R L.
  - unfold rms. cbn. split; [lia|]. split; [constructor|contradiction].
  - change (rms (p :: ps) l) with (rms ps (rm p l)) in *. cbn [length total] in *.
    pose proof (rms_length ps (rm p l)) as G. rewrite rm_length in G.
    destruct (Nat.ltb_spec p (length l)) as [K|K]; [|lia].
    destruct (nth_error l p) as [x|] eqn:E; [|apply nth_error_None in E; lia].
    pose proof (total_rm l p x E) as T. pose proof (proj1 R _ _ E) as X.
    destruct (IH (rm p l) (rising_rm p l R)) as [I1 I2].
    { rewrite rm_length. destruct (Nat.ltb_spec p (length l)); lia. }
    split; [lia|]. intros Q. destruct I2 as [S F]; [lia|].
    assert (Ex : x = p) by lia. subst x.
    assert (B : forall q, In q ps -> q < p /\ nth_error l q = Some q).
    { intros q Hq. specialize (F q Hq). rewrite rm_nth in F.
      destruct (Nat.ltb_spec q p); [auto|]. apply (proj1 R) in F. lia. }
    split.
    + constructor; [assumption|]. apply Forall_forall. intros q Hq. now apply B.
    + intros q [<-|Hq]; [assumption|now apply B].
Qed.

Lemma nodup_app {A} (a b : list A) : NoDup a -> NoDup b -> (forall x, In x a -> ~ In x b) -> NoDup (a ++ b).
Proof.
  induction a as [|x a IH]; intros Na Nb D; simpl; [assumption|].
  apply NoDup_cons_iff in Na. destruct Na as [Hx Na]. constructor.
  - rewrite in_app_iff. intros [H|H]; [tauto|]. now apply (D x (or_introl eq_refl)).
  - apply IH; auto. intros y Hy. apply D. now right.
Qed.

(** * Exact removal forces descending positions *)
Lemma exact_descending (l : list nat) ps : NoDup l -> NoDup ps -> (forall p, In p ps -> p < length l) ->
  (forall x, In x (fold_left remove_dependency_by_index ps l) <->
             In x l /\ forall p, In p ps -> nth_error l p <> Some x) ->
  StronglySorted (fun a b => b < a) ps.
Proof.
  intros N P B E. rewrite removes_rms in E by assumption.
  assert (Em : map (fun k => nth k l 0) (seq 0 (length l)) = l).
  { apply nth_ext with (d := 0) (d' := 0); [now rewrite map_length, seq_length|].
    intros i Hi. rewrite map_length, seq_length in Hi.
    rewrite nth_indep with (d' := nth 0 l 0) by (rewrite map_length, seq_length; assumption).
    rewrite (map_nth (fun k => nth k l 0)), seq_nth by assumption. reflexivity. }
  set (n := length l) in *. set (r := rms ps (seq 0 n)).
  assert (Er : rms ps l = map (fun k => nth k l 0) r).
  { rewrite <- Em at 1. apply rms_map. }
  assert (Rs : forall k, In k r -> k < n).
  { intros k Hk. assert (H : incl r (seq 0 n)).
    { unfold r. generalize (seq 0 n). clear. intros l. revert l.
      induction ps as [|p ps IH]; intros l x Hx; [assumption|].
      change (rms (p :: ps) l) with (rms ps (rm p l)) in Hx. apply IH in Hx. apply In_nth_error in Hx.
      destruct Hx as [j Hj]. rewrite rm_nth in Hj. now apply nth_error_In in Hj. }
    apply H, in_seq in Hk. lia. }
  assert (Nl : forall k, k < n -> nth_error l k = Some (nth k l 0)).
  { intros k Hk. apply nth_error_nth'. exact Hk. }
  assert (Inj : forall k k', k < n -> k' < n -> nth k l 0 = nth k' l 0 -> k = k').
  { intros k k' Hk Hk' H. apply (proj1 (NoDup_nth l 0) N); assumption. }
  assert (Hr : forall k, k < n -> (In k r <-> ~ In k ps)).
  { intros k Hk. split.
    - intros H Hp. assert (X : In (nth k l 0) (rms ps l)).
      { rewrite Er. now apply (in_map (fun k => nth k l 0)). }
      apply E in X. destruct X as [_ X]. now apply (X k Hp), Nl.
    - intros H. assert (X : In (nth k l 0) (rms ps l)).
      { apply E. split; [now apply nth_In|]. intros p Hp C. specialize (B p Hp).
        rewrite (Nl p B) in C. injection C as C. apply Inj in C; auto. now subst. }
      rewrite Er in X. apply in_map_iff in X. destruct X as (k' & X1 & X2).
      apply Inj in X1; auto. now subst. }
  assert (PM : Permutation (r ++ ps) (seq 0 n)).
  { apply NoDup_Permutation.
    - apply nodup_app.
      + apply rms_nodup, seq_NoDup.
      + assumption.
      + intros k Hk Hp. now apply (proj1 (Hr k (Rs k Hk)) Hk).
    - apply seq_NoDup.
    - intros k. rewrite in_app_iff, in_seq. split.
      + intros [H|H]; [apply Rs in H|apply B in H]; lia.
      + intros [_ H]. destruct (in_dec Nat.eq_dec k ps); [now right|left]. now apply Hr. }
  destruct (rising_total ps (seq 0 n) (rising_seq n)) as [_ H].
  - fold r. apply Permutation_length in PM. now rewrite app_length in PM.
  - fold r in H. apply H. apply total_perm in PM. now rewrite total_app in PM.
Qed.

(** * The listing of the positions to remove *)
Lemma set_list_lists l : (forall x, In x l -> x < 128) -> NoDup (set_list l) /\ forall x, In x (set_list l) <-> In x l.
Proof.
  intros B.
  assert (H : holds 128 (fold_left set_add l (repeat None 8)) ([] ++ l)).
  { apply fold_holds; auto. constructor; try rewrite empty_elements.
    - simpl. tauto.
    - constructor.
    - left. rewrite repeat_length. simpl. lia.
    - rewrite repeat_length. right. split; [lia|apply empty_found]. }
  destruct H as [I N _ _]. split; assumption.
Qed.

Theorem prune_exact_iff : forall n s,
  (exists N, finite_graph N (deps s)) -> acyclic (deps s) -> simple_graph (deps s) ->
  length (deps s n) <= 128 ->
  ((forall v, In v (deps (remove_indirect_dependencies set_list s n) n) <->
              In v (deps s n) /\ ~ (exists c, In c (deps s n) /\ In v (deps s c)))
   <-> StronglySorted lt (set_list (indirect_indices (deps s) n))).
Proof.
  intros n s F A SG W. pose proof (SG n) as N.
  assert (B : forall i, In i (indirect_indices (deps s) n) -> i < length (deps s n)).
  { intros i Hi. apply indirect_indices_spec in Hi; [|assumption]. destruct Hi as (x & c & E & _).
    apply nth_error_Some. congruence. }
  destruct (set_list_lists (indirect_indices (deps s) n)) as [Nr Ir].
  { intros x Hx. apply B in Hx. lia. }
  destruct F as [M FM]. pose proof (finite_acyclic_ranked M _ FM A) as R.
  split.
  - intros E. set (rem := set_list (indirect_indices (deps s) n)) in *.
    destruct (Nat.eqb (length rem) (length (deps s n))) eqn:EL.
    + (* then every dependency would be below another one *)
      apply Nat.eqb_eq in EL. destruct (deps s n) as [|x0 r0] eqn:Ed.
      { destruct rem; [constructor|discriminate]. }
      exfalso. rewrite <- Ed in *. destruct (max_rank_elem (height (deps s) M) (deps s n)) as (x & Hx & Hm); [congruence|].
      apply In_nth_error in Hx. destruct Hx as [i Hi].
      assert (I : incl (seq 0 (length (deps s n))) rem).
      { apply NoDup_length_incl; [assumption|rewrite seq_length; lia|].
        intros k Hk. apply in_seq. apply Ir, B in Hk. lia. }
      assert (Hir : In i rem).
      { apply I, in_seq. assert (i < length (deps s n)) by (apply nth_error_Some; congruence). lia. }
      apply Ir, indirect_indices_spec in Hir; [|assumption]. destruct Hir as (y & c & Hy & Hc & Hyc).
      assert (y = x) by congruence. subst y. apply R in Hyc. specialize (Hm c Hc). lia.
    + assert (D : StronglySorted (fun a b => b < a) (rev rem)).
      { apply (exact_descending (deps s n)); [assumption|now apply NoDup_rev| |].
        - intros p Hp. apply in_rev in Hp. now apply B, Ir.
        - intros x. specialize (E x). unfold remove_indirect_dependencies in E. cbn [set_deps deps] in E.
          rewrite upd_same in E. fold rem in E. rewrite EL in E. cbn [Nat.leb] in E. rewrite E. clear E.
          split; intros [H1 H2]; split; auto.
          + intros p Hp C. apply H2. apply in_rev, Ir, indirect_indices_spec in Hp; [|assumption].
            destruct Hp as (y & c & Hy & Hc & Hyc). exists c. split; [assumption|]. congruence.
          + intros (c & Hc & Hxc). apply In_nth_error in H1. destruct H1 as [i Hi].
            apply (H2 i); [|assumption]. apply in_rev. rewrite rev_involutive. apply Ir, indirect_indices_spec; [assumption|].
            now exists x, c. }
      rewrite <- (rev_involutive rem). revert D. generalize (rev rem). clear. intros l D.
      induction D as [|a l D IH F]; [constructor|]. cbn [rev]. rewrite Forall_forall in F.
      assert (G : forall m b, StronglySorted lt m -> (forall x, In x m -> x < b) -> StronglySorted lt (m ++ [b])).
      { clear. induction m as [|y m IH]; intros b S H; [repeat constructor|]. inversion S as [|? ? S' F]; subst.
        cbn [app]. constructor.
        - apply IH; [assumption|]. intros x Hx. apply H. now right.
        - rewrite Forall_forall in F |- *. intros x Hx. apply in_app_iff in Hx.
          destruct Hx as [Hx|[<-|[]]]; [now apply F|]. apply H. now left. }
      apply G; [assumption|]. intros x Hx. apply F. now apply in_rev.
  - intros S v.
    rewrite (remove_indirect_acyclic set_list s n _ R N (conj S Ir)).
    rewrite filter_In, negb_true_iff, <- grandchild_spec.
    destruct (grandchild (deps s) n v); intuition congruence.
Qed.
