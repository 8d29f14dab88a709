(** The inner product along axes. *)
From Coq Require Import Reals Lra Lia Arith List Bool ZArith Permutation.
From Verif Require Import PyBase RSum NdArray NdEinsum Component CompReorder CompReduce CompProduct CompEinsum
  CompTensor JacSpec ProductProofs SpecReduce SpecNorm SpecTensor ReduceProofs ReorderProofs ExpandEinsum EinsumCalc.
Import ListNotations.
Local Open Scope nat_scope.

(** ---- indices ---- *)

Lemma free_In : forall r axes p, In p (free_axes r axes) <-> p < r /\ ~ In p axes.
Proof.
  intros r axes p. unfold free_axes. rewrite delete_drop. unfold drop_axes. rewrite in_map_iff, seq_length. split.
  - intros (i & <- & Hi). apply filter_In in Hi. destruct Hi as [Hi E]. apply in_seq in Hi.
    rewrite seq_nth by lia. split; [lia|]. apply negb_true_iff in E.
    fold (mem i axes) in E. apply mem_not_In in E. exact E.
  - intros [Hp Hn]. exists p. split; [now rewrite seq_nth|]. apply filter_In. split; [apply in_seq; lia|].
    apply negb_true_iff. fold (mem p axes). now apply mem_not_In.
Qed.

Lemma free_NoDup : forall r axes, NoDup (free_axes r axes).
Proof.
  intros r axes. unfold free_axes. rewrite delete_drop. unfold drop_axes. rewrite seq_length.
  rewrite map_ext_in with (g := fun i => i).
  - rewrite map_id. apply NoDup_filter, seq_NoDup.
  - intros i Hi. apply filter_In in Hi. destruct Hi as [Hi _]. apply in_seq in Hi. rewrite seq_nth by lia. lia.
Qed.

Lemma delete_free : forall axes l, delete axes l = map (fun i => nth i l 0) (free_axes (length l) axes).
Proof. intros axes l. apply delete_as_map. Qed.

Lemma merge_length : forall r axes ks rest, length (merge r axes ks rest) = r.
Proof. intros. unfold merge. now rewrite map_length, seq_length. Qed.

Lemma merge_nth : forall r axes ks rest p, p < r ->
  nth p (merge r axes ks rest) 0 =
  if mem p axes then nth (find_pos axes p) ks 0 else nth (find_pos (free_axes r axes) p) rest 0.
Proof.
  intros r axes ks rest p Hp. unfold merge.
  set (f := fun p => if mem p axes then nth (find_pos axes p) ks 0 else nth (find_pos (free_axes r axes) p) rest 0).
  rewrite nth_indep with (d' := f 0) by now rewrite map_length, seq_length.
  rewrite (map_nth f), seq_nth by assumption. reflexivity.
Qed.

Definition below (r : nat) (axes : list nat) : Prop := forall a, In a axes -> a < r.

Lemma on_merge : forall r axes ks rest, NoDup axes -> below r axes -> length ks = length axes ->
  on_axes axes (merge r axes ks rest) = ks.
Proof.
  intros r axes ks rest Hn Hb Hl. unfold on_axes.
  transitivity (map (env_of axes ks) axes); [|now apply map_env_of].
  apply map_ext_in. intros a Ha. rewrite merge_nth by auto.
  rewrite (proj2 (mem_In a axes) Ha). reflexivity.
Qed.

Lemma delete_merge : forall r axes ks rest, length rest = length (free_axes r axes) ->
  delete axes (merge r axes ks rest) = rest.
Proof.
  intros r axes ks rest Hl. rewrite delete_free, merge_length.
  transitivity (map (env_of (free_axes r axes) rest) (free_axes r axes));
    [|apply map_env_of; [apply free_NoDup|assumption]].
  apply map_ext_in. intros p Hp. pose proof (proj1 (free_In r axes p) Hp) as [H1 H2].
  rewrite merge_nth by assumption. now rewrite (proj2 (mem_not_In p axes) H2).
Qed.

Lemma merge_back : forall axes x, below (length x) axes ->
  merge (length x) axes (on_axes axes x) (delete axes x) = x.
Proof.
  intros axes x Hb. apply nth_ext with (d := 0) (d' := 0); [apply merge_length|].
  intros p Hp. rewrite merge_length in Hp. rewrite merge_nth by assumption.
  destruct (mem p axes) eqn:E.
  - apply mem_In in E. unfold on_axes.
    rewrite nth_indep with (d' := (fun a => nth a x 0) 0) by (rewrite map_length; now apply find_pos_lt).
    rewrite (map_nth (fun a => nth a x 0)). now rewrite nth_find_pos.
  - apply mem_not_In in E. rewrite delete_free.
    assert (Hf : In p (free_axes (length x) axes)) by now apply free_In.
    rewrite nth_indep with (d' := (fun a => nth a x 0) 0) by (rewrite map_length; now apply find_pos_lt).
    rewrite (map_nth (fun a => nth a x 0)). now rewrite nth_find_pos.
Qed.

Lemma merge_inb : forall s axes ks rest, below (length s) axes ->
  inb (extents s axes) ks -> inb (delete axes s) rest -> inb s (merge (length s) axes ks rest).
Proof.
  intros s axes ks rest Hb Hk Hr. apply inb_nth. split; [apply merge_length|].
  intros p Hp. rewrite merge_nth by assumption.
  apply inb_nth in Hk. destruct Hk as [Hkl Hk]. apply inb_nth in Hr. destruct Hr as [Hrl Hr].
  unfold extents in Hk, Hkl. rewrite map_length in Hkl, Hk.
  rewrite delete_free, map_length in Hrl. rewrite delete_free, map_length in Hr.
  destruct (mem p axes) eqn:E.
  - apply mem_In in E. pose proof (find_pos_lt axes p E) as Hlt.
    specialize (Hk (find_pos axes p) Hlt).
    rewrite nth_indep with (n := find_pos axes p) (l := map (fun a => nth a s 0) axes) (d' := (fun a => nth a s 0) 0) in Hk by now rewrite map_length.
    rewrite (map_nth (fun a => nth a s 0)), nth_find_pos in Hk by assumption. exact Hk.
  - apply mem_not_In in E. assert (Hf : In p (free_axes (length s) axes)) by now apply free_In.
    pose proof (find_pos_lt _ p Hf) as Hlt. specialize (Hr (find_pos (free_axes (length s) axes) p) Hlt).
    rewrite nth_indep with (n := find_pos (free_axes (length s) axes) p) (l := map (fun a => nth a s 0) (free_axes (length s) axes)) (d' := (fun a => nth a s 0) 0) in Hr by now rewrite map_length.
    rewrite (map_nth (fun a => nth a s 0)), nth_find_pos in Hr by assumption. exact Hr.
Qed.

Lemma on_inb : forall s axes x, below (length s) axes -> inb s x -> inb (extents s axes) (on_axes axes x).
Proof.
  intros s axes x Hb Hx. apply inb_nth in Hx. destruct Hx as [Hl Hx].
  unfold extents, on_axes. apply (inb_map_ext (fun a => nth a s 0) (fun a => nth a x 0)).
  intros a Ha. apply Hx. auto.
Qed.

(** the identity tensor: the first copy is merged, the second appended *)
Lemma free_double : forall r axes, below r axes -> free_axes (r + r) axes = free_axes r axes ++ seq r r.
Proof.
  intros r axes Hb. unfold free_axes. rewrite !delete_drop. unfold drop_axes. rewrite !seq_length.
  rewrite seq_app, filter_app, map_app. cbn [plus]. f_equal.
  - apply map_ext_in. intros i Hi. apply filter_In in Hi. destruct Hi as [Hi _]. apply in_seq in Hi.
    rewrite app_nth1 by (rewrite seq_length; lia). reflexivity.
  - rewrite filter_all.
    + rewrite map_ext_in with (g := fun i => i); [apply map_id|].
      intros i Hi. apply in_seq in Hi. rewrite app_nth2 by (rewrite seq_length; lia).
      rewrite seq_length, seq_nth by lia. lia.
    + intros i Hi. apply in_seq in Hi. apply negb_true_iff. fold (mem i axes). apply mem_not_In.
      intros H. apply Hb in H. lia.
Qed.

Lemma merge_double : forall r axes ks rest c, below r axes ->
  length rest = length (free_axes r axes) -> length c = r ->
  merge (r + r) axes ks (rest ++ c) = merge r axes ks rest ++ c.
Proof.
  intros r axes ks rest c Hb Hr Hc. apply nth_ext with (d := 0) (d' := 0).
  { rewrite merge_length, app_length, merge_length. lia. }
  intros p Hp. rewrite merge_length in Hp. rewrite merge_nth, free_double by assumption.
  destruct (Nat.lt_ge_cases p r) as [Hlt|Hge].
  - rewrite (app_nth1 (merge r axes ks rest)) by now rewrite merge_length. rewrite merge_nth by assumption.
    destruct (mem p axes) eqn:E; [reflexivity|]. apply mem_not_In in E.
    assert (Hf : In p (free_axes r axes)) by now apply free_In.
    rewrite find_pos_app_l by assumption. apply app_nth1. rewrite Hr. now apply find_pos_lt.
  - rewrite (app_nth2 (merge r axes ks rest)) by (rewrite merge_length; lia). rewrite merge_length.
    assert (E : mem p axes = false) by (apply mem_not_In; intros H; apply Hb in H; lia). rewrite E.
    assert (Hf : ~ In p (free_axes r axes)) by (rewrite free_In; lia).
    rewrite find_pos_app_r by assumption. rewrite app_nth2 by lia. f_equal. rewrite Hr.
    assert (Ep : find_pos (seq r r) p = p - r).
    { pose proof (find_pos_nth (seq r r) (p - r) 0 (seq_NoDup r r)) as H. rewrite seq_length, seq_nth in H by lia.
      replace (r + (p - r)) with p in H by lia. apply H. lia. }
    rewrite Ep. lia.
Qed.

Lemma delete_double : forall (s : list nat) axes, below (length s) axes -> delete axes (s ++ s) = delete axes s ++ s.
Proof.
  intros s axes Hb. rewrite !delete_free, app_length, free_double, map_app by assumption. f_equal.
  - apply map_ext_in. intros i Hi. apply free_In in Hi. apply app_nth1. lia.
  - apply nth_ext with (d := nth 0 (s ++ s) 0) (d' := 0); [now rewrite map_length, seq_length|].
    intros i Hi. rewrite map_length, seq_length in Hi.
    rewrite (map_nth (fun i => nth i (s ++ s) 0)), seq_nth by assumption.
    rewrite app_nth2 by lia. f_equal. lia.
Qed.

Lemma extents_double : forall (s : list nat) axes, below (length s) axes -> extents (s ++ s) axes = extents s axes.
Proof. intros s axes Hb. apply map_ext_in. intros a Ha. apply app_nth1. auto. Qed.

(** ---- the contraction ---- *)

Section Contraction.
Variables (s0 s1 : shape) (a0 a1 : list nat).
Hypothesis Hb0 : below (length s0) a0.
Hypothesis Hb1 : below (length s1) a1.
Hypothesis Hn0 : NoDup a0.
Hypothesis Hn1 : NoDup a1.
Hypothesis Hx : extents s0 a0 = extents s1 a1.

Let cd := extents s0 a0.
Let out := delete a0 s0 ++ delete a1 s1.
Let m := length (delete a0 s0).

Definition left_pos (idx : list nat) (k : nat) : nat :=
  ravel s0 (merge (length s0) a0 (unravel cd k) (firstn m idx)).
Definition right_pos (idx : list nat) (k : nat) : nat :=
  ravel s1 (merge (length s1) a1 (unravel cd k) (skipn m idx)).

Lemma split_idx : forall idx, inb out idx ->
  inb (delete a0 s0) (firstn m idx) /\ inb (delete a1 s1) (skipn m idx) /\
  length (firstn m idx) = m.
Proof.
  intros idx Hi.
  assert (Hl : length (firstn m idx) = m).
  { apply inb_length in Hi. unfold out in Hi. rewrite app_length in Hi. rewrite firstn_length. unfold m. lia. }
  rewrite <- (firstn_skipn m idx) in Hi. unfold out in Hi. apply inb_app in Hi; [|exact Hl].
  tauto.
Qed.

Lemma left_inb : forall idx k, inb out idx -> k < size cd ->
  inb s0 (merge (length s0) a0 (unravel cd k) (firstn m idx)).
Proof.
  intros idx k Hi Hk. apply merge_inb; [assumption|now apply unravel_inb|apply (split_idx idx Hi)].
Qed.

Lemma right_inb : forall idx k, inb out idx -> k < size cd ->
  inb s1 (merge (length s1) a1 (unravel cd k) (skipn m idx)).
Proof.
  intros idx k Hi Hk. apply merge_inb; [assumption| |apply (split_idx idx Hi)].
  rewrite <- Hx. now apply unravel_inb.
Qed.

Lemma same_true : forall l l', same l l' = true <-> l = l'.
Proof. intros l l'. unfold same. destruct (list_eq_dec Nat.eq_dec l l'); split; congruence. Qed.

Lemma free_length : forall (s : list nat) a, length (delete a s) = length (free_axes (length s) a).
Proof. intros s a. rewrite delete_free. apply map_length. Qed.

(** the pairs of elements that belong together are numbered by [k] *)
Lemma pair_count : forall idx p q, inb out idx -> p < size s0 -> q < size s1 ->
  same (on_axes a0 (unravel s0 p)) (on_axes a1 (unravel s1 q)) &&
  same (drop_axes a0 (unravel s0 p) ++ drop_axes a1 (unravel s1 q)) idx = true <->
  exists k, k < size cd /\ p = left_pos idx k /\ q = right_pos idx k.
Proof.
  intros idx p q Hi Hp Hq. rewrite andb_true_iff, !same_true, <- !delete_drop.
  destruct (split_idx idx Hi) as (Hf & Hs & Hlen).
  pose proof (unravel_inb _ _ Hp) as Ip. pose proof (unravel_inb _ _ Hq) as Iq.
  split.
  - intros [E1 E2].
    assert (Hl : length (delete a0 (unravel s0 p)) = m).
    { unfold m. rewrite !free_length. now rewrite (inb_length _ _ Ip). }
    exists (ravel cd (on_axes a0 (unravel s0 p))).
    assert (Ik : inb cd (on_axes a0 (unravel s0 p))) by now apply on_inb.
    splits.
    + now apply ravel_lt.
    + unfold left_pos. rewrite unravel_ravel by assumption. rewrite <- E2.
      rewrite <- Hl, firstn_app, Nat.sub_diag, firstn_all, firstn_O, app_nil_r.
      rewrite <- (inb_length _ _ Ip), merge_back by (rewrite (inb_length _ _ Ip); assumption).
      symmetry. now apply ravel_unravel.
    + unfold right_pos. rewrite unravel_ravel by assumption. rewrite <- E2.
      rewrite <- Hl, skipn_app, Nat.sub_diag, skipn_all, skipn_O, app_nil_l. rewrite E1.
      rewrite <- (inb_length _ _ Iq), merge_back by (rewrite (inb_length _ _ Iq); assumption).
      symmetry. now apply ravel_unravel.
  - intros (k & Hk & -> & ->). unfold left_pos, right_pos.
    rewrite !unravel_ravel by (try apply left_inb; try apply right_inb; assumption).
    assert (Lk : length (unravel cd k) = length a0).
    { rewrite unravel_length. unfold cd, extents. apply map_length. }
    assert (Lk1 : length (unravel cd k) = length a1).
    { rewrite unravel_length. unfold cd. rewrite Hx. unfold extents. apply map_length. }
    rewrite !on_merge by assumption. split; [reflexivity|].
    rewrite !delete_merge.
    + apply firstn_skipn.
    + rewrite (inb_length _ _ Hs). apply free_length.
    + rewrite Hlen. apply free_length.
Qed.

Lemma left_inj : forall idx k k', inb out idx -> k < size cd -> k' < size cd ->
  left_pos idx k = left_pos idx k' -> k = k'.
Proof.
  intros idx k k' Hi Hk Hk' E. apply ravel_inj in E; try now apply left_inb.
  apply (f_equal (on_axes a0)) in E.
  assert (Lk : forall q, length (unravel cd q) = length a0).
  { intros q. rewrite unravel_length. unfold cd, extents. apply map_length. }
  rewrite !on_merge in E by auto. rewrite <- (ravel_unravel _ _ Hk), <- (ravel_unravel _ _ Hk'). now rewrite E.
Qed.

Local Open Scope R_scope.

Lemma contraction_meaning : forall x0 x1 idx, inb out idx ->
  rsum (size s0) (fun p => rsum (size s1) (fun q =>
    if same (on_axes a0 (unravel s0 p)) (on_axes a1 (unravel s1 q)) &&
       same (drop_axes a0 (unravel s0 p) ++ drop_axes a1 (unravel s1 q)) idx
    then x0 p * x1 q else 0)) =
  rsum (size cd) (fun k => x0 (left_pos idx k) * x1 (right_pos idx k)).
Proof.
  intros x0 x1 idx Hi.
  transitivity (rsum (size s0) (fun p => rsum (size s1) (fun q => rsum (size cd) (fun k =>
    if Nat.eqb (left_pos idx k) p && Nat.eqb (right_pos idx k) q then x0 p * x1 q else 0)))).
  - apply rsum_ext. intros p Hp. apply rsum_ext. intros q Hq.
    pose proof (pair_count idx p q Hi Hp Hq) as H.
    destruct (same (on_axes a0 (unravel s0 p)) (on_axes a1 (unravel s1 q)) &&
              same (drop_axes a0 (unravel s0 p) ++ drop_axes a1 (unravel s1 q)) idx).
    + destruct (proj1 H eq_refl) as (k & Hk & Ep & Eq). symmetry. subst p q.
      rewrite rsum_single with (j := k); [now rewrite !Nat.eqb_refl|assumption|].
      intros k' Hk' Hne. destruct (Nat.eqb_spec (left_pos idx k') (left_pos idx k)) as [E|E]; [|reflexivity].
      apply left_inj in E; try assumption. congruence.
    + symmetry. apply rsum_zero. intros k Hk.
      destruct (Nat.eqb_spec (left_pos idx k) p) as [E1|]; [|reflexivity].
      destruct (Nat.eqb_spec (right_pos idx k) q) as [E2|]; [|reflexivity].
      exfalso. assert (false = true); [|discriminate]. apply H. exists k. auto.
  - transitivity (rsum (size cd) (fun k => rsum (size s0) (fun p => rsum (size s1) (fun q =>
      if Nat.eqb (left_pos idx k) p && Nat.eqb (right_pos idx k) q then x0 p * x1 q else 0)))).
    + transitivity (rsum (size s0) (fun p => rsum (size cd) (fun k => rsum (size s1) (fun q =>
        if Nat.eqb (left_pos idx k) p && Nat.eqb (right_pos idx k) q then x0 p * x1 q else 0)))).
      * apply rsum_ext. intros p _. apply rsum_swap.
      * apply rsum_swap.
    + apply rsum_ext. intros k Hk.
      rewrite rsum_single with (j := left_pos idx k).
      * rewrite rsum_single with (j := right_pos idx k).
        -- now rewrite !Nat.eqb_refl.
        -- apply ravel_lt, right_inb; assumption.
        -- intros q Hq Hne. rewrite Nat.eqb_refl. cbn [andb].
           apply not_eq_sym, Nat.eqb_neq in Hne. now rewrite Hne.
      * apply ravel_lt, left_inb; assumption.
      * intros p Hp Hne. apply not_eq_sym, Nat.eqb_neq in Hne. rewrite Hne. cbn [andb].
        apply rsum_zero. reflexivity.
Qed.

Lemma core_shape : forall x0 x1, shp (tensordot_core (Nd s0 x0) (Nd s1 x1) a0 a1) = out.
Proof. reflexivity. Qed.

Lemma core_get : forall x0 x1 idx, inb out idx ->
  get (tensordot_core (Nd s0 x0) (Nd s1 x1) a0 a1) idx =
  rsum (size cd) (fun k => x0 (left_pos idx k) * x1 (right_pos idx k)).
Proof.
  intros x0 x1 idx Hi. unfold tensordot_core. cbn [shp]. fold cd. fold out. rewrite get_of_fun by assumption.
  reflexivity.
Qed.

(** both derivative tensors *)
Definition d_left (x1 : nat -> R) (idx c : list nat) : R :=
  rsum (size cd) (fun k => (if Nat.eqb (left_pos idx k) (ravel s0 c) then 1 else 0) * x1 (right_pos idx k)).
Definition d_right (x0 : nat -> R) (idx c : list nat) : R :=
  rsum (size cd) (fun k => x0 (left_pos idx k) * (if Nat.eqb (right_pos idx k) (ravel s1 c) then 1 else 0)).

Lemma left_tensor_shape : forall x1,
  shp (tensordot_core (identity_tensor s0) (Nd s1 x1) a0 a1) = delete a0 s0 ++ s0 ++ delete a1 s1.
Proof.
  intros x1. unfold tensordot_core, identity_tensor. cbn [shp of_fun].
  now rewrite delete_double, <- app_assoc.
Qed.

Lemma left_tensor : forall x1 i c j,
  inb (delete a0 s0) i -> inb s0 c -> inb (delete a1 s1) j ->
  get (tensordot_core (identity_tensor s0) (Nd s1 x1) a0 a1) (i ++ c ++ j) = d_left x1 (i ++ j) c.
Proof.
  intros x1 i c j Hi Hc Hj.
  assert (Ho : inb out (i ++ j)) by (apply inb_app; [now apply inb_length|tauto]).
  assert (Ei : firstn m (i ++ j) = i).
  { unfold m. rewrite <- (inb_length _ _ Hi), firstn_app, Nat.sub_diag, firstn_all, firstn_O. apply app_nil_r. }
  assert (Ej : skipn m (i ++ j) = j).
  { unfold m. rewrite <- (inb_length _ _ Hi), skipn_app, Nat.sub_diag, skipn_all, skipn_O. reflexivity. }
  unfold tensordot_core. cbn [identity_tensor of_fun shp].
  rewrite delete_double, extents_double by assumption. fold cd.
  rewrite get_of_fun.
  2:{ rewrite <- app_assoc. apply inb_app; [now apply inb_length|]. split; [assumption|].
      apply inb_app; [now apply inb_length|tauto]. }
  unfold d_left. apply rsum_ext. intros k Hk.
  assert (El : length (delete a0 s0 ++ s0) = length (i ++ c))
    by (rewrite !app_length, (inb_length _ _ Hi), (inb_length _ _ Hc); reflexivity).
  rewrite El, app_assoc, firstn_app, skipn_app, Nat.sub_diag, firstn_all, skipn_all, firstn_O, skipn_O, app_nil_r, app_nil_l.
  f_equal.
  - fold (identity_tensor s0). rewrite app_length, merge_double.
    + rewrite identity_entry.
      * unfold left_pos. now rewrite Ei.
      * rewrite <- Ei. now apply left_inb.
      * assumption.
    + assumption.
    + rewrite (inb_length _ _ Hi). apply free_length.
    + now apply inb_length.
  - unfold right_pos. rewrite Ej. reflexivity.
Qed.

Lemma right_tensor_shape : forall x0,
  shp (tensordot_core (Nd s0 x0) (identity_tensor s1) a0 a1) = out ++ s1.
Proof.
  intros x0. unfold tensordot_core, identity_tensor. cbn [shp of_fun].
  rewrite delete_double by assumption. unfold out. now rewrite app_assoc.
Qed.

Lemma right_tensor : forall x0 idx c, inb out idx -> inb s1 c ->
  get (tensordot_core (Nd s0 x0) (identity_tensor s1) a0 a1) (idx ++ c) = d_right x0 idx c.
Proof.
  intros x0 idx c Ho Hc. destruct (split_idx idx Ho) as (Hf & Hs & Hl).
  unfold tensordot_core. cbn [identity_tensor of_fun shp].
  rewrite delete_double by assumption. fold cd. fold m.
  rewrite get_of_fun.
  2:{ rewrite app_assoc. fold out. apply inb_app; [now apply inb_length|tauto]. }
  unfold d_right. apply rsum_ext. intros k Hk.
  assert (Em : (m - length idx = 0)%nat).
  { pose proof (f_equal (@length nat) (firstn_skipn m idx)) as E. rewrite app_length in E. lia. }
  rewrite firstn_app, skipn_app, Em, firstn_O, skipn_O, app_nil_r.
  f_equal. fold (identity_tensor s1). rewrite app_length, merge_double.
  - rewrite identity_entry; [reflexivity|now apply right_inb|assumption].
  - assumption.
  - rewrite (inb_length _ _ Hs). apply free_length.
  - now apply inb_length.
Qed.

Lemma d_left_ok : forall x0 x1 idx c, (c < size s0)%nat ->
  partial_at (fun x => rsum (size cd) (fun k => x (left_pos idx k) * x1 (right_pos idx k))) x0 c
             (d_left x1 idx (unravel s0 c)).
Proof.
  intros x0 x1 idx c Hc. unfold partial_at, d_left. apply derivable_pt_lim_rsum.
  intros k _. rewrite ravel_unravel by assumption.
  eapply derivable_pt_lim_eq; [|apply derivable_pt_lim_mult; [apply partial_upd|apply derivable_pt_lim_const]].
  cbv beta. ring.
Qed.

Lemma d_right_ok : forall x0 x1 idx c, (c < size s1)%nat ->
  partial_at (fun x => rsum (size cd) (fun k => x0 (left_pos idx k) * x (right_pos idx k))) x1 c
             (d_right x0 idx (unravel s1 c)).
Proof.
  intros x0 x1 idx c Hc. unfold partial_at, d_right. apply derivable_pt_lim_rsum.
  intros k _. rewrite ravel_unravel by assumption.
  eapply derivable_pt_lim_eq; [|apply derivable_pt_lim_mult; [apply derivable_pt_lim_const|apply partial_upd]].
  cbv beta. ring.
Qed.

End Contraction.

(** ---- moving the axes of the derivative ---- *)

Lemma seq_find : forall a n q, a <= q < a + n -> find_pos (seq a n) q = q - a.
Proof.
  intros a n q Hq. pose proof (find_pos_nth (seq a n) (q - a) 0 (seq_NoDup n a)) as H.
  rewrite seq_length, seq_nth in H by lia. replace (a + (q - a)) with q in H by lia. apply H. lia.
Qed.

Definition moved (a b c : nat) : list nat := seq 0 a ++ seq (a + b) c ++ seq a b.

Lemma moved_ok : forall a b c, axes_ok (a + (b + c)) (moved a b c) = true.
Proof.
  intros a b c. unfold axes_ok, moved. rewrite !andb_true_iff. splits.
  - apply Nat.eqb_eq. rewrite !app_length, !seq_length. lia.
  - apply forallb_forall. intros q Hq. apply Nat.ltb_lt. rewrite !in_app_iff, !in_seq in Hq. lia.
  - apply nodupb_true. apply NoDup_app_intro; [apply seq_NoDup| |].
    + apply NoDup_app_intro; try apply seq_NoDup. intros q. rewrite !in_seq. lia.
    + intros q. rewrite in_app_iff, !in_seq. lia.
Qed.

Lemma moved_shape : forall (u v w : list nat),
  map (fun j => nth j (u ++ v ++ w) 0) (moved (length u) (length v) (length w)) = u ++ w ++ v.
Proof.
  intros u v w. unfold moved. rewrite !map_app. f_equal; [|f_equal].
  - transitivity (map (fun j => nth j u 0) (seq 0 (length u))); [|apply map_nth_seq].
    apply map_ext_in. intros q Hq. apply in_seq in Hq. apply app_nth1. lia.
  - apply nth_ext with (d := nth 0 (u ++ v ++ w) 0) (d' := 0); rewrite map_length, seq_length; [reflexivity|].
    intros q Hq. rewrite (map_nth (fun j => nth j (u ++ v ++ w) 0)), seq_nth by assumption.
    rewrite app_nth2 by lia. rewrite app_nth2 by lia. f_equal. lia.
  - apply nth_ext with (d := nth 0 (u ++ v ++ w) 0) (d' := 0); rewrite map_length, seq_length; [reflexivity|].
    intros q Hq. rewrite (map_nth (fun j => nth j (u ++ v ++ w) 0)), seq_nth by assumption.
    rewrite app_nth2 by lia. rewrite app_nth1 by lia. f_equal. lia.
Qed.

Lemma moved_index : forall (u v w : list nat),
  map (fun q => nth (find_pos (moved (length u) (length v) (length w)) q) (u ++ w ++ v) 0)
      (seq 0 (length (u ++ v ++ w))) = u ++ v ++ w.
Proof.
  intros u v w. apply nth_ext with (d := nth (find_pos (moved (length u) (length v) (length w)) 0) (u ++ w ++ v) 0) (d' := 0).
  { now rewrite map_length, seq_length. }
  intros q Hq. rewrite map_length, seq_length in Hq.
  rewrite (map_nth (fun q => nth (find_pos (moved (length u) (length v) (length w)) q) (u ++ w ++ v) 0)), seq_nth by assumption.
  cbn [plus]. rewrite !app_length in Hq. unfold moved.
  destruct (Nat.lt_ge_cases q (length u)) as [H1|H1].
  - rewrite find_pos_app_l by (apply in_seq; lia). rewrite seq_find by lia.
    rewrite !app_nth1 by lia. f_equal. lia.
  - rewrite find_pos_app_r by (rewrite in_seq; lia). rewrite seq_length.
    rewrite (app_nth2 u (v ++ w)) by assumption.
    rewrite (app_nth2 u (w ++ v)) by lia.
    destruct (Nat.lt_ge_cases q (length u + length v)) as [H2|H2].
    + rewrite find_pos_app_r by (rewrite in_seq; lia). rewrite seq_length, seq_find by lia.
      rewrite (app_nth1 v w) by lia. rewrite (app_nth2 w v) by lia. f_equal. lia.
    + rewrite find_pos_app_l by (rewrite in_seq; lia). rewrite seq_find by lia.
      rewrite (app_nth2 v w) by lia. rewrite (app_nth1 w v) by lia. f_equal. lia.
Qed.

Lemma move_axes : forall (t : nd R) (u v w : list nat), shp t = u ++ v ++ w ->
  exists t', transpose_by t (moved (length u) (length v) (length w)) = Some t' /\
    shp t' = u ++ w ++ v /\
    forall i c j, inb u i -> inb v c -> inb w j -> get t' (i ++ j ++ c) = get t (i ++ c ++ j).
Proof.
  intros t u v w Hs. unfold transpose_by. rewrite Hs, !app_length, moved_ok.
  eexists. split; [reflexivity|].
  assert (E : shp (np_transpose_axes t (moved (length u) (length v) (length w))) = u ++ w ++ v).
  { unfold np_transpose_axes, of_fun. cbn [shp]. rewrite Hs. apply moved_shape. }
  split; [exact E|]. intros i c j Hi Hc Hj.
  unfold np_transpose_axes. rewrite get_of_fun.
  - f_equal. rewrite Hs. rewrite <- (inb_length _ _ Hi), <- (inb_length _ _ Hc), <- (inb_length _ _ Hj).
    replace (length (u ++ v ++ w)) with (length (i ++ c ++ j))
      by (rewrite !app_length, (inb_length _ _ Hi), (inb_length _ _ Hc), (inb_length _ _ Hj); reflexivity).
    apply moved_index.
  - rewrite Hs, moved_shape. apply inb_app; [now apply inb_length|]. split; [assumption|].
    apply inb_app; [now apply inb_length|tauto].
Qed.

(** ---- the component ---- *)

Lemma named_below : forall r zs l, Forall2 (axis_named r) zs l -> below r l.
Proof.
  intros r zs l H. induction H as [|z a zs l [Ha _] H IH]; intros x Hx; [destruct Hx|].
  destruct Hx as [<-|Hx]; auto.
Qed.

Lemma named_double : forall r zs l, Forall (fun z => 0 <= z)%Z zs ->
  Forall2 (axis_named r) zs l -> Forall2 (axis_named (r + r)) zs l.
Proof.
  intros r zs l Hp H. induction H as [|z a zs l [Ha Hz] H IH]; constructor.
  - inversion_clear Hp. split; [lia|]. left. lia.
  - apply IH. now inversion_clear Hp.
Qed.

Lemma tensordot_named : forall a b za zb ax bx,
  Forall2 (axis_named (length (shp a))) za ax -> Forall2 (axis_named (length (shp b))) zb bx ->
  NoDup ax -> NoDup bx -> extents (shp a) ax = extents (shp b) bx ->
  np_tensordot a b za zb = Some (tensordot_core a b ax bx).
Proof.
  intros a b za zb ax bx H0 H1 N0 N1 E. unfold np_tensordot.
  rewrite (norm_axes_named _ _ _ H0), (norm_axes_named _ _ _ H1), !nodupb_true by assumption.
  destruct (list_eq_dec _ _ _) as [_|n]; [reflexivity|]. now elim n.
Qed.

Lemma free_count : forall r axes, NoDup axes -> below r axes ->
  length axes + length (free_axes r axes) = r.
Proof.
  intros r axes Hn Hb. rewrite <- app_length. rewrite <- (seq_length r 0) at 2.
  apply Permutation_length, NoDup_Permutation.
  - apply NoDup_app_intro; [assumption|apply free_NoDup|]. intros x Hx Hf. apply free_In in Hf. tauto.
  - apply seq_NoDup.
  - intros x. rewrite in_app_iff, free_In, in_seq. specialize (Hb x).
    destruct (in_dec Nat.eq_dec x axes); intuition lia.
Qed.

(** the value, whatever the signs of the axes *)
Lemma tensor_value : forall s0 s1 z0 z1 a0 a1, paired s0 s1 z0 z1 a0 a1 ->
  exists c, tensor_inner_comp s0 s1 z0 z1 = Some c /\ c_ins c = [s0; s1] /\
    c_out c = drop_axes a0 s0 ++ drop_axes a1 s1 /\
    forall v, exists y, c_compute c (inputs_of (c_ins c) v) = Some y /\ shp y = c_out c /\
      inner_meaning a0 a1 (inputs_of (c_ins c) v) y /\
      forall o, o < size (c_out c) -> dat y o =
        (fun x0 x1 o => rsum (size (extents s0 a0)) (fun k =>
           x0 (left_pos s0 a0 (unravel (delete a0 s0 ++ delete a1 s1) o) k) *
           x1 (right_pos s0 s1 a0 a1 (unravel (delete a0 s0 ++ delete a1 s1) o) k))%R) (v 0) (v 1) o.
Proof.
  intros s0 s1 z0 z1 a0 a1 (F0 & F1 & N0 & N1 & E). unfold tensor_inner_comp.
  pose proof (named_below _ _ _ F0) as B0. pose proof (named_below _ _ _ F1) as B1.
  rewrite (norm_axes_named _ _ _ F0), (norm_axes_named _ _ _ F1).
  eexists. split; [reflexivity|]. split; [reflexivity|].
  split; [cbn [comp2 c_out]; now rewrite <- !delete_drop|].
  intros v. cbn [comp2 c_compute c_ins c_out inputs_of length seq map nth].
  rewrite tensordot_named with (ax := a0) (bx := a1) by assumption.
  unfold assign_output. rewrite core_shape, Nat.eqb_refl.
  eexists. split; [reflexivity|]. split; [reflexivity|]. split.
  - exists (Nd s0 (v 0)), (Nd s1 (v 1)). cbn [shp dat]. splits; try reflexivity; try assumption.
    + cbn [np_reshape shp]. now rewrite <- !delete_drop.
    + intros idx Hi. cbn [np_reshape shp] in Hi.
      rewrite contraction_meaning by assumption. rewrite <- core_get by assumption. reflexivity.
  - intros o Ho. cbn [np_reshape dat]. rewrite <- core_get by (try assumption; now apply unravel_inb).
    unfold get. rewrite core_shape. now rewrite ravel_unravel.
Qed.

Lemma tensor_inner_correct : forall s0 s1 z0 z1 a0 a1, paired s0 s1 z0 z1 a0 a1 ->
  Forall (fun z => 0 <= z)%Z z0 -> Forall (fun z => 0 <= z)%Z z1 ->
  exists c, tensor_inner_comp s0 s1 z0 z1 = Some c /\ c_ins c = [s0; s1] /\
    c_out c = drop_axes a0 s0 ++ drop_axes a1 s1 /\ correct c (inner_meaning a0 a1).
Proof.
  intros s0 s1 z0 z1 a0 a1 Hp P0 P1.
  destruct (tensor_value _ _ _ _ _ _ Hp) as (c & Ec & Ei & Eo & Hv).
  exists c. splits; try assumption.
  destruct Hp as (F0 & F1 & N0 & N1 & E).
  pose proof (named_below _ _ _ F0) as B0. pose proof (named_below _ _ _ F1) as B1.
  unfold tensor_inner_comp in Ec. rewrite (norm_axes_named _ _ _ F0), (norm_axes_named _ _ _ F1) in Ec.
  injection Ec as <-.
  apply correct2 with (F := fun x0 x1 o => rsum (size (extents s0 a0)) (fun k =>
           x0 (left_pos s0 a0 (unravel (delete a0 s0 ++ delete a1 s1) o) k) *
           x1 (right_pos s0 s1 a0 a1 (unravel (delete a0 s0 ++ delete a1 s1) o) k))%R).
  - intros x0 x1. destruct (Hv (fun p => if Nat.eqb p 0 then x0 else x1)) as (y & E1 & E2 & E3 & E4).
    exists y. cbn [comp2 c_ins c_compute c_out inputs_of length seq map nth Nat.eqb] in *.
    splits; assumption.
  - intros x0 x1.
    rewrite tensordot_named with (ax := a0) (bx := a1); try assumption.
    2:{ cbn [identity_tensor of_fun shp]. rewrite app_length. now apply named_double. }
    2:{ cbn [identity_tensor of_fun shp]. now rewrite extents_double. }
    assert (El : new_axes_locations (length (delete a0 s0)) (length s0) (length s1) =
                 moved (length (delete a0 s0)) (length s0) (length (delete a1 s1))).
    { unfold new_axes_locations, moved. f_equal. f_equal. f_equal.
      rewrite !free_length. pose proof (free_count _ _ N0 B0). pose proof (free_count _ _ N1 B1).
      assert (length a0 = length a1) by (apply (f_equal (@length nat)) in E; unfold on_axes in E; now rewrite !map_length in E).
      f_equal. lia. }
    rewrite El.
    destruct (move_axes _ _ _ _ (left_tensor_shape s0 s1 a0 a1 B0 x1)) as (t' & Et & Es & Hg).
    rewrite Et. cbn [option_map]. eexists. split; [reflexivity|]. cbn [exact_jac]. split.
    + rewrite Es, app_assoc, size_app. reflexivity.
    + intros o c Ho Hc. unfold dense_entry.
      assert (Eq : dat t' (o * size s0 + c) = d_left s0 s1 a0 a1 x1 (unravel (delete a0 s0 ++ delete a1 s1) o) (unravel s0 c)).
      { pose proof (unravel_inb _ _ Ho) as Io. pose proof (unravel_inb _ _ Hc) as Ic.
        set (idx := unravel (delete a0 s0 ++ delete a1 s1) o) in *.
        destruct (split_idx s0 s1 a0 a1 idx Io) as (Hf & Hs & Hl).
        pose proof (Hg _ _ _ Hf Ic Hs) as H. rewrite left_tensor in H by assumption.
        rewrite firstn_skipn in H. rewrite <- H. rewrite app_assoc, firstn_skipn.
        unfold get. f_equal. rewrite Es, app_assoc, ravel_app by now apply inb_length.
        unfold idx. now rewrite !ravel_unravel. }
      rewrite Eq. now apply d_left_ok.
  - intros x0 x1.
    rewrite tensordot_named with (ax := a0) (bx := a1); try assumption.
    2:{ cbn [identity_tensor of_fun shp]. rewrite app_length. now apply named_double. }
    2:{ cbn [identity_tensor of_fun shp]. now rewrite extents_double. }
    cbn [option_map]. eexists. split; [reflexivity|]. cbn [exact_jac]. split.
    + rewrite right_tensor_shape, size_app by assumption. reflexivity.
    + intros o c Ho Hc. unfold dense_entry.
      pose proof (unravel_inb _ _ Ho) as Io. pose proof (unravel_inb _ _ Hc) as Ic.
      set (t := tensordot_core (Nd s0 x0) (identity_tensor s1) a0 a1).
      assert (Eq : dat t (o * size s1 + c) = d_right s0 s1 a0 a1 x0 (unravel (delete a0 s0 ++ delete a1 s1) o) (unravel s1 c)).
      { rewrite <- right_tensor by assumption. unfold get. f_equal.
        rewrite right_tensor_shape by assumption. rewrite ravel_app by now apply inb_length.
        now rewrite !ravel_unravel. }
      rewrite Eq. now apply d_right_ok.
Qed.

(** ---- negative axes: right value, wrong derivative ---- *)

Local Open Scope R_scope.

Lemma negative_axis_value : paired [2; 2]%nat [2; 2]%nat [-1]%Z [0]%Z [1]%nat [0]%nat.
Proof.
  unfold paired. split; [|split; [|split; [|split]]]; [| | | |reflexivity].
  - constructor; [|constructor]. split; [cbn; lia|]. right. cbn. lia.
  - constructor; [|constructor]. split; [cbn; lia|]. left. reflexivity.
  - repeat constructor. intros [].
  - repeat constructor. intros [].
Qed.

(** b with a single 1 at row 1, column 0 *)
Definition low (p k : nat) : R := if Nat.eqb p 1 && Nat.eqb k 2 then 1 else 0.

Lemma negative_axis_wrong : forall c, tensor_inner_comp [2; 2]%nat [2; 2]%nat [-1]%Z [0]%Z = Some c ->
  ~ correct c (inner_meaning [1]%nat [0]%nat).
Proof.
  intros c Ec [F [HF HJ]].
  unfold tensor_inner_comp in Ec. cbn [norm_axes norm_axis Z.leb Z.ltb Z.compare andb length Z.of_nat Pos.of_succ_nat Pos.succ Z.opp Pos.compare Pos.compare_cont Z.add Z.pos_sub Pos.pred_double Pos.to_nat Z.to_nat Pos.iter_op Init.Nat.add] in Ec.
  injection Ec as <-.
  destruct (HJ low 0%nat I) as (j & Ej & Hj); [cbn; lia|].
  cbn [comp2 c_partials c_ins c_out inputs_of length seq map nth] in Ej, Hj.
  remember (identity_tensor [2; 2]%nat) as I0 eqn:EI.
  assert (Et : np_tensordot I0 (Nd [2; 2]%nat (low 1%nat)) [-1]%Z [0]%Z =
               Some (tensordot_core I0 (Nd [2; 2]%nat (low 1%nat)) [3]%nat [0]%nat)) by (subst I0; reflexivity).
  rewrite Et in Ej. unfold transpose_by in Ej.
  replace (axes_ok _ _) with true in Ej by (subst I0; reflexivity).
  cbn [option_map] in Ej. injection Ej as <-. subst I0.
  cbn [exact_jac] in Hj. destruct Hj as [_ Hj]. specialize (Hj 0%nat 2%nat ltac:(cbn; lia) ltac:(cbn; lia)).
  assert (H0 : partial_at (fun x' => F (set_op low 0 x') 0%nat) (low 0%nat) 2%nat 0).
  { unfold partial_at. apply derivable_pt_lim_ext with (f := fun _ => 0); [|apply derivable_pt_lim_const].
    intros t. destruct (HF (set_op low 0 (upd (low 0%nat) 2 t))) as [E _].
    cbn in E. injection E as E. apply (f_equal (fun f => f 0%nat)) in E. rewrite <- E. cbn.
    unfold set_op, upd, low; cbn. ring. }
  pose proof (uniqueness_limite _ _ _ _ Hj H0) as E. clear - E. vm_compute in E. lra.
Qed.

(** ---- the call ---- *)

Lemma inner_tensor : forall s0 s1 z0 z1, not_both_vectors s0 s1 ->
  inner s0 s1 (Some (z0, z1)) = option_map (fun c => (c_out c, c)) (tensor_inner_comp s0 s1 z0 z1).
Proof.
  intros s0 s1 z0 z1 H. unfold not_both_vectors in H. unfold inner.
  destruct s0 as [|n [|n' s0]]; [reflexivity| |reflexivity].
  destruct s1 as [|q [|q' s1]]; [reflexivity| |reflexivity].
  elim H. split; reflexivity.
Qed.

Theorem inner_exact : forall s0 s1 z0 z1 a0 a1, not_both_vectors s0 s1 ->
  paired s0 s1 z0 z1 a0 a1 ->
  Forall (fun z => 0 <= z)%Z z0 -> Forall (fun z => 0 <= z)%Z z1 ->
  exists c, inner s0 s1 (Some (z0, z1)) = Some (c_out c, c) /\ c_ins c = [s0; s1] /\
    c_out c = drop_axes a0 s0 ++ drop_axes a1 s1 /\ correct c (inner_meaning a0 a1).
Proof.
  intros s0 s1 z0 z1 a0 a1 Hr Hp P0 P1.
  destruct (tensor_inner_correct _ _ _ _ _ _ Hp P0 P1) as (c & E & H).
  exists c. rewrite inner_tensor, E by assumption. split; [reflexivity|exact H].
Qed.

Theorem inner_value : forall s0 s1 z0 z1 a0 a1, not_both_vectors s0 s1 ->
  paired s0 s1 z0 z1 a0 a1 ->
  exists c, inner s0 s1 (Some (z0, z1)) = Some (c_out c, c) /\ c_ins c = [s0; s1] /\
    c_out c = drop_axes a0 s0 ++ drop_axes a1 s1 /\ computes c (inner_meaning a0 a1).
Proof.
  intros s0 s1 z0 z1 a0 a1 Hr Hp.
  destruct (tensor_value _ _ _ _ _ _ Hp) as (c & E & Ei & Eo & Hv).
  exists c. rewrite inner_tensor, E by assumption. splits; try reflexivity; try assumption.
  intros v. destruct (Hv v) as (y & H1 & H2 & H3 & _). exists y. auto.
Qed.

Theorem inner_negative_refuted :
  ~ (forall s0 s1 z0 z1 a0 a1, not_both_vectors s0 s1 -> paired s0 s1 z0 z1 a0 a1 ->
     exists c, inner s0 s1 (Some (z0, z1)) = Some (c_out c, c) /\ correct c (inner_meaning a0 a1)).
Proof.
  intros H. destruct (H [2; 2]%nat [2; 2]%nat [-1]%Z [0]%Z [1]%nat [0]%nat) as (c & E & Hc).
  - intros [E _]. discriminate E.
  - exact negative_axis_value.
  - rewrite inner_tensor in E by (intros [E' _]; discriminate E').
    destruct (tensor_inner_comp [2; 2]%nat [2; 2]%nat [-1]%Z [0]%Z) as [c'|] eqn:Ec; [|discriminate].
    cbn [option_map] in E. injection E as _ <-. exact (negative_axis_wrong c' Ec Hc).
Qed.

Theorem inner_vectors : forall n axes, inner [n] [n] axes = Some ([1]%nat, vector_inner_comp n).
Proof. reflexivity. Qed.

Theorem inner_needs_axes : forall s0 s1, not_both_vectors s0 s1 -> inner s0 s1 None = None.
Proof.
  intros s0 s1 H. unfold not_both_vectors in H. unfold inner.
  destruct s0 as [|n [|n' s0]]; [reflexivity| |reflexivity].
  destruct s1 as [|q [|q' s1]]; [reflexivity| |reflexivity].
  elim H. split; reflexivity.
Qed.

(** a 2x3 matrix and a 4x3x5 array paired along their axes of extent 3; two
    matrices contracted over both axes *)
Example inner_instance :
  paired [2; 3]%nat [4; 3; 5]%nat [1]%Z [1]%Z [1]%nat [1]%nat /\
  drop_axes [1]%nat [2; 3]%nat ++ drop_axes [1]%nat [4; 3; 5]%nat = [2; 4; 5]%nat /\
  paired [2; 3]%nat [3; 2]%nat [0; 1]%Z [1; 0]%Z [0; 1]%nat [1; 0]%nat.
Proof.
  split; [|split; [reflexivity|]]; unfold paired;
    (split; [|split; [|split; [|split]]]); try reflexivity;
    repeat (apply Forall2_cons || apply Forall2_nil || (split; [cbn; lia|left; reflexivity]) ||
            apply NoDup_cons || apply NoDup_nil); cbn; lia.
Qed.
