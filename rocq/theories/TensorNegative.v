(** The inner product along axes when the axes of an operand are negative: where
    the derivative entries end up and when they are still in the right places. *)
From Coq Require Import Reals Lra Lia Arith List Bool ZArith Permutation.
From Verif Require Import PyBase RSum NdArray NdEinsum Component CompReorder CompReduce CompProduct CompEinsum
  CompTensor JacSpec ProductProofs SpecReduce SpecNorm SpecTensor ReduceProofs ReorderProofs ExpandEinsum EinsumCalc
  TensorProofs.
Import ListNotations.
Local Open Scope nat_scope.

(** ---- dropping axes, flat ---- *)

Definition row_from (i : nat) (axes s : list nat) (k : nat) : nat :=
  ravel (delete_from i axes s) (delete_from i axes (unravel s k)).

Lemma row_from_cons : forall i axes n s k,
  row_from i axes (n :: s) k =
  if existsb (Nat.eqb i) axes then row_from (S i) axes s (k mod size s)
  else (k / size s) * size (delete_from (S i) axes s) + row_from (S i) axes s (k mod size s).
Proof.
  intros i axes n s k. unfold row_from. cbn [unravel delete_from].
  destruct (existsb (Nat.eqb i) axes); reflexivity.
Qed.

Lemma delete_from_size : forall axes s i, 0 < size s ->
  0 < size (delete_from i axes s) /\ size (delete_from i axes s) <= size s.
Proof.
  intros axes s. induction s as [|n s IH]; intros i H; [cbn; lia|].
  cbn [size] in H. cbn [delete_from]. destruct (IH (S i)) as [H1 H2]; [nia|].
  assert (0 < n) by nia.
  destruct (existsb (Nat.eqb i) axes); cbn [size]; nia.
Qed.

Lemma delete_from_divides : forall axes s i, exists e, size s = e * size (delete_from i axes s).
Proof.
  intros axes s. induction s as [|n s IH]; intros i; [now exists 1|].
  cbn [size delete_from]. destruct (IH (S i)) as [e E].
  destruct (existsb (Nat.eqb i) axes); cbn [size].
  - exists (n * e). rewrite E. lia.
  - exists e. rewrite E. lia.
Qed.

(** nothing but axes of extent one dropped *)
Lemma row_from_id : forall axes s i k, k < size s -> size (delete_from i axes s) = size s -> row_from i axes s k = k.
Proof.
  intros axes s. induction s as [|n s IH]; intros i k Hk E; [cbn in *; lia|].
  rewrite row_from_cons. cbn [size] in *. cbn [delete_from] in E.
  assert (Hs : 0 < size s) by nia.
  destruct (delete_from_size axes s (S i) Hs) as [H1 H2].
  pose proof (Nat.mod_upper_bound k (size s) ltac:(lia)) as Hm.
  pose proof (Nat.div_mod k (size s) ltac:(lia)) as Hd.
  destruct (existsb (Nat.eqb i) axes); cbn [size] in E.
  - assert (n = 1) by nia. subst n. rewrite IH by nia. apply Nat.mod_small. lia.
  - assert (size (delete_from (S i) axes s) = size s) as E' by nia. rewrite E', IH by assumption. nia.
Qed.

(** otherwise some later element has the same remaining index as the first, and
    it comes early: before as many elements as remain, or exactly there when all
    dropped axes lead *)
Lemma row_from_lead : forall axes s i, 0 < size s -> size (delete_from i axes s) <> size s ->
  exists q, 0 < q < size s /\ row_from i axes s q = 0 /\
    (q < size (delete_from i axes s) \/
     q = size (delete_from i axes s) /\
     forall k, k < size s -> row_from i axes s k = k mod size (delete_from i axes s)).
Proof.
  intros axes s. induction s as [|n s IH]; intros i Hp Hne; [cbn in *; lia|].
  cbn [size] in *. assert (Hs : 0 < size s) by nia. assert (Hn : 0 < n) by nia.
  destruct (delete_from_size axes s (S i) Hs) as [H1 H2].
  destruct (Nat.eq_dec (size (delete_from (S i) axes s)) (size s)) as [E|E].
  - cbn [delete_from] in *. destruct (existsb (Nat.eqb i) axes) eqn:Ei; cbn [size] in *; [|nia].
    exists (size s). rewrite row_from_cons, Ei, Nat.mod_same by lia. splits.
    + nia.
    + nia.
    + apply row_from_id; lia.
    + right. split; [lia|]. intros k Hk. rewrite row_from_cons, Ei, E. apply row_from_id; [|exact E].
      apply Nat.mod_upper_bound. lia.
  - destruct (IH (S i) Hs E) as (q & Hq & Hr & Hc). exists q.
    assert (Eq : row_from i axes (n :: s) q = 0).
    { rewrite row_from_cons, (Nat.mod_small q), (Nat.div_small q), Hr by lia.
      destruct (existsb (Nat.eqb i) axes); lia. }
    splits; [lia|nia|exact Eq|].
    cbn [delete_from] in *. destruct (existsb (Nat.eqb i) axes) eqn:Ei; cbn [size] in *.
    + destruct Hc as [Hc|[Hc Hm]]; [now left|]. right. split; [exact Hc|].
      intros k Hk. rewrite row_from_cons, Ei, Hm by (apply Nat.mod_upper_bound; lia).
      set (m := size (delete_from (S i) axes s)) in *.
      pose proof (delete_from_divides axes s (S i)) as Hd. fold m in Hd.
      destruct Hd as [e He]. rewrite He.
      pose proof (Nat.div_mod k (e * m) ltac:(nia)) as Hk'.
      rewrite Hk' at 2. replace (e * m * (k / (e * m)) + k mod (e * m)) with (k mod (e * m) + (e * (k / (e * m))) * m) by nia.
      now rewrite Nat.mod_add by lia.
    + destruct (Nat.eq_dec n 1) as [->|Hn1].
      * rewrite Nat.mul_1_l. destruct Hc as [Hc|[Hc Hm]]; [now left|]. right. split; [exact Hc|].
        intros k Hk. rewrite row_from_cons, Ei. rewrite Nat.mul_1_l in Hk. rewrite Nat.div_small, Nat.mod_small by assumption.
        now rewrite Hm.
      * left. nia.
Qed.

Lemma delete_extents_size : forall s axes, NoDup axes -> below (length s) axes ->
  size (delete axes s) * size (extents s axes) = size s.
Proof.
  intros s axes Hn Hb. rewrite <- size_app. apply size_perm.
  rewrite delete_free. unfold extents. rewrite <- map_app. rewrite <- (map_nth_seq s) at 2.
  apply Permutation_map, NoDup_Permutation.
  - apply NoDup_app_intro; [apply free_NoDup|assumption|]. intros x Hx. apply free_In in Hx. tauto.
  - apply seq_NoDup.
  - intros x. rewrite in_app_iff, free_In, in_seq. specialize (Hb x).
    destruct (in_dec Nat.eq_dec x axes); intuition lia.
Qed.

Lemma unravel_pair : forall s t a b, a < size s -> b < size t ->
  unravel (s ++ t) (a * size t + b) = unravel s a ++ unravel t b.
Proof.
  intros s t a b Ha Hb. apply ravel_inj with (s := s ++ t).
  - apply unravel_inb. rewrite size_app. nia.
  - apply inb_app; [apply unravel_length|]. split; now apply unravel_inb.
  - rewrite ravel_unravel by (rewrite size_app; nia).
    rewrite ravel_app by apply unravel_length. now rewrite !ravel_unravel.
Qed.

Lemma get_triple : forall (A : Type) (t : nd A) u v w a b c, shp t = u ++ v ++ w ->
  a < size u -> b < size v -> c < size w ->
  get t (unravel u a ++ unravel v b ++ unravel w c) = dat t ((a * size v + b) * size w + c).
Proof.
  intros A t u v w a b c E Ha Hb Hc. unfold get. f_equal. rewrite E.
  rewrite ravel_app by apply unravel_length. rewrite ravel_app by apply unravel_length.
  rewrite !ravel_unravel by assumption. rewrite size_app. nia.
Qed.

(** ---- the identity tensor contracted along its second copy ---- *)

Definition shift (r : nat) (axes : list nat) : list nat := map (fun a => r + a) axes.

Lemma shift_In : forall r axes p, In p (shift r axes) <-> r <= p /\ In (p - r) axes.
Proof.
  intros r axes p. unfold shift. rewrite in_map_iff. split.
  - intros (a & <- & Ha). split; [lia|]. now replace (r + a - r) with a by lia.
  - intros [Hp Hi]. exists (p - r). split; [lia|assumption].
Qed.

Lemma shift_NoDup : forall r axes, NoDup axes -> NoDup (shift r axes).
Proof.
  intros r axes H. unfold shift. apply FinFun.Injective_map_NoDup; [|assumption].
  intros a b E. lia.
Qed.

Lemma named_shift : forall r zs l, Forall (fun z => z < 0)%Z zs ->
  Forall2 (axis_named r) zs l -> Forall2 (axis_named (r + r)) zs (shift r l).
Proof.
  intros r zs l Hp H. induction H as [|z a zs l [Ha Hz] H IH]; constructor.
  - inversion_clear Hp. split; [lia|]. right. lia.
  - apply IH. now inversion_clear Hp.
Qed.

Lemma delete_from_app : forall (axes : list nat) (l m : list nat) i,
  delete_from i axes (l ++ m) = delete_from i axes l ++ delete_from (i + length l) axes m.
Proof.
  intros axes l m. induction l as [|x l IH]; intros i; cbn [app delete_from length].
  - now rewrite Nat.add_0_r.
  - rewrite IH, <- plus_n_Sm. destruct (existsb (Nat.eqb i) axes); reflexivity.
Qed.

Lemma delete_from_low : forall (l : list nat) r axes i, i + length l <= r ->
  delete_from i (shift r axes) l = l.
Proof.
  induction l as [|x l IH]; intros r axes i H; [reflexivity|]. cbn [length] in H.
  cbn [delete_from]. rewrite IH by lia.
  destruct (existsb (Nat.eqb i) (shift r axes)) eqn:E; [|reflexivity].
  apply mem_In, shift_In in E. lia.
Qed.

Lemma delete_from_high : forall (l : list nat) r axes i,
  delete_from (r + i) (shift r axes) l = delete_from i axes l.
Proof.
  induction l as [|x l IH]; intros r axes i; [reflexivity|]. cbn [delete_from].
  rewrite plus_n_Sm, IH.
  assert (E : existsb (Nat.eqb (r + i)) (shift r axes) = existsb (Nat.eqb i) axes).
  { apply eq_true_iff_eq. rewrite (mem_In (r + i) (shift r axes) : existsb _ _ = true <-> _).
    rewrite (mem_In i axes : existsb _ _ = true <-> _).
    rewrite shift_In. replace (r + i - r) with i by lia. intuition lia. }
  now rewrite E.
Qed.

Lemma delete_shift : forall (l m : list nat) r axes, length l = r ->
  delete (shift r axes) (l ++ m) = l ++ delete axes m.
Proof.
  intros l m r axes H. unfold delete. rewrite delete_from_app, delete_from_low by lia. f_equal.
  rewrite H. replace (0 + r) with (r + 0) by lia. apply delete_from_high.
Qed.

Lemma extents_shift : forall (s : list nat) axes, extents (s ++ s) (shift (length s) axes) = extents s axes.
Proof.
  intros s axes. unfold extents, shift. rewrite map_map. apply map_ext. intros a.
  rewrite app_nth2 by lia. f_equal. lia.
Qed.

Lemma merge_shift : forall r axes ks rest c, NoDup axes -> below r axes ->
  length ks = length axes -> length rest = length (free_axes r axes) -> length c = r ->
  merge (r + r) (shift r axes) ks (c ++ rest) = c ++ merge r axes ks rest.
Proof.
  intros r axes ks rest c Hn Hb Hk Hr Hc.
  set (x := c ++ merge r axes ks rest).
  assert (Hx : length x = r + r) by (unfold x; rewrite app_length, merge_length; lia).
  assert (E1 : on_axes (shift r axes) x = ks).
  { transitivity (on_axes axes (merge r axes ks rest)); [|now apply on_merge].
    unfold on_axes, shift. rewrite map_map. apply map_ext_in. intros a Ha. unfold x.
    rewrite app_nth2 by lia. f_equal. lia. }
  assert (E2 : delete (shift r axes) x = c ++ rest).
  { unfold x. rewrite delete_shift by assumption. now rewrite delete_merge. }
  rewrite <- E1, <- E2, <- Hx. apply merge_back.
  intros a Ha. apply shift_In in Ha. destruct Ha as [Ha Hi]. apply Hb in Hi. lia.
Qed.

Section Negative.
Variables (s0 s1 : shape) (a0 a1 : list nat).
Hypothesis Hb0 : below (length s0) a0.
Hypothesis Hb1 : below (length s1) a1.
Hypothesis Hn0 : NoDup a0.
Hypothesis Hn1 : NoDup a1.
Hypothesis Hx : extents s0 a0 = extents s1 a1.

Let cd := extents s0 a0.
Let out := delete a0 s0 ++ delete a1 s1.
Let m := length (delete a0 s0).

Lemma neg_right_shape : forall x0,
  shp (tensordot_core (Nd s0 x0) (identity_tensor s1) a0 (shift (length s1) a1)) = delete a0 s0 ++ s1 ++ delete a1 s1.
Proof.
  intros x0. unfold tensordot_core, identity_tensor. cbn [shp of_fun]. now rewrite delete_shift.
Qed.

Lemma neg_right : forall x0 i c j, inb (delete a0 s0) i -> inb s1 c -> inb (delete a1 s1) j ->
  get (tensordot_core (Nd s0 x0) (identity_tensor s1) a0 (shift (length s1) a1)) (i ++ c ++ j) =
  d_right s0 s1 a0 a1 x0 (i ++ j) c.
Proof.
  intros x0 i c j Hi Hc Hj.
  assert (Ho : inb out (i ++ j)) by (apply inb_app; [now apply inb_length|tauto]).
  unfold tensordot_core. cbn [identity_tensor of_fun shp].
  rewrite delete_shift by reflexivity. fold cd. fold m.
  rewrite get_of_fun.
  2:{ apply inb_app; [now apply inb_length|]. split; [assumption|]. apply inb_app; [now apply inb_length|tauto]. }
  unfold d_right. apply rsum_ext. intros k Hk.
  assert (Ei : forall l, firstn m (i ++ l) = i).
  { intros l. unfold m. rewrite <- (inb_length _ _ Hi), firstn_app, Nat.sub_diag, firstn_all, firstn_O. apply app_nil_r. }
  assert (Ej : forall l, skipn m (i ++ l) = l).
  { intros l. unfold m. rewrite <- (inb_length _ _ Hi), skipn_app, Nat.sub_diag, skipn_all, skipn_O. reflexivity. }
  unfold left_pos, right_pos. fold m. rewrite !Ei, !Ej. f_equal.
  fold (identity_tensor s1). rewrite app_length, merge_shift; try assumption.
  - rewrite identity_entry; [|assumption|].
    + fold cd. rewrite (Nat.eqb_sym (ravel s1 c)). reflexivity.
    + apply merge_inb; [assumption| |assumption]. rewrite <- Hx. now apply unravel_inb.
  - rewrite unravel_length. unfold cd. rewrite Hx. apply map_length.
  - rewrite (inb_length _ _ Hj). apply free_length.
  - now apply inb_length.
Qed.

Lemma neg_left_shape : forall x1,
  shp (tensordot_core (identity_tensor s0) (Nd s1 x1) (shift (length s0) a0) a1) = s0 ++ delete a0 s0 ++ delete a1 s1.
Proof.
  intros x1. unfold tensordot_core, identity_tensor. cbn [shp of_fun]. now rewrite delete_shift, <- app_assoc.
Qed.

Lemma neg_left : forall x1 i c j, inb (delete a0 s0) i -> inb s0 c -> inb (delete a1 s1) j ->
  get (tensordot_core (identity_tensor s0) (Nd s1 x1) (shift (length s0) a0) a1) (c ++ i ++ j) =
  d_left s0 s1 a0 a1 x1 (i ++ j) c.
Proof.
  intros x1 i c j Hi Hc Hj.
  assert (Ho : inb out (i ++ j)) by (apply inb_app; [now apply inb_length|tauto]).
  unfold tensordot_core. cbn [identity_tensor of_fun shp].
  rewrite delete_shift by reflexivity. rewrite extents_shift. fold cd.
  rewrite get_of_fun.
  2:{ rewrite <- app_assoc. apply inb_app; [now apply inb_length|]. split; [assumption|]. apply inb_app; [now apply inb_length|tauto]. }
  unfold d_left. apply rsum_ext. intros k Hk.
  assert (El : length (s0 ++ delete a0 s0) = length (c ++ i))
    by (rewrite !app_length, (inb_length _ _ Hi), (inb_length _ _ Hc); reflexivity).
  rewrite El, app_assoc, firstn_app, skipn_app, Nat.sub_diag, firstn_all, skipn_all, firstn_O, skipn_O, app_nil_r, app_nil_l.
  assert (Ei : firstn m (i ++ j) = i).
  { unfold m. rewrite <- (inb_length _ _ Hi), firstn_app, Nat.sub_diag, firstn_all, firstn_O. apply app_nil_r. }
  assert (Ej : skipn m (i ++ j) = j).
  { unfold m. rewrite <- (inb_length _ _ Hi), skipn_app, Nat.sub_diag, skipn_all, skipn_O. reflexivity. }
  unfold left_pos, right_pos. fold m. rewrite Ei, Ej. f_equal.
  fold (identity_tensor s0). rewrite app_length, merge_shift; try assumption.
  - rewrite identity_entry; [|assumption|].
    + fold cd. rewrite (Nat.eqb_sym (ravel s0 c)). reflexivity.
    + apply merge_inb; [assumption|now apply unravel_inb|assumption].
  - rewrite unravel_length. apply map_length.
  - rewrite (inb_length _ _ Hi). apply free_length.
  - now apply inb_length.
Qed.

End Negative.

(** ---- the entries of the derivative ---- *)

Lemma merge_hits : forall s axes k j c, NoDup axes -> below (length s) axes ->
  k < size (extents s axes) -> inb (delete axes s) j -> inb s c ->
  (ravel s (merge (length s) axes (unravel (extents s axes) k) j) = ravel s c <->
   ravel (delete axes s) (delete axes c) = ravel (delete axes s) j /\ k = ravel (extents s axes) (on_axes axes c)).
Proof.
  intros s axes k j c Hn Hb Hk Hj Hc.
  assert (Hi : inb s (merge (length s) axes (unravel (extents s axes) k) j))
    by (apply merge_inb; [assumption|now apply unravel_inb|assumption]).
  split.
  - intros E. apply ravel_inj in E; try assumption. rewrite <- E.
    rewrite delete_merge by (rewrite (inb_length _ _ Hj); apply free_length).
    rewrite on_merge by (try assumption; rewrite unravel_length; apply map_length).
    split; [reflexivity|]. now rewrite ravel_unravel.
  - intros [E1 E2]. apply ravel_inj in E1; [|apply delete_inb; assumption|assumption]. subst j.
    rewrite E2, unravel_ravel by now apply on_inb. f_equal.
    rewrite <- (inb_length _ _ Hc). apply merge_back. now rewrite (inb_length _ _ Hc).
Qed.

(** the number of element [c] along the dropped axes *)
Definition col_of (s axes : list nat) (c : nat) : nat := ravel (extents s axes) (on_axes axes (unravel s c)).

(** the element with numbers [k] along the dropped axes and [j] along the others *)
Definition elem (s axes : list nat) (k j : nat) : nat :=
  ravel s (merge (length s) axes (unravel (extents s axes) k) (unravel (delete axes s) j)).

Lemma col_lt : forall s axes c, below (length s) axes -> c < size s -> col_of s axes c < size (extents s axes).
Proof. intros s axes c Hb Hc. apply ravel_lt, on_inb; [assumption|]. now apply unravel_inb. Qed.

Section Entries.
Variables (s0 s1 : shape) (a0 a1 : list nat).
Hypothesis Hb0 : below (length s0) a0.
Hypothesis Hb1 : below (length s1) a1.
Hypothesis Hn0 : NoDup a0.
Hypothesis Hn1 : NoDup a1.
Hypothesis Hx : extents s0 a0 = extents s1 a1.

Let out := delete a0 s0 ++ delete a1 s1.
Let m0 := size (delete a0 s0).
Let m1 := size (delete a1 s1).

Lemma pos_split : forall i j k, i < m0 -> j < m1 ->
  left_pos s0 a0 (unravel out (i * m1 + j)) k = elem s0 a0 k i /\
  right_pos s0 s1 a0 a1 (unravel out (i * m1 + j)) k = elem s1 a1 k j.
Proof.
  intros i j k Hi Hj. unfold out, m1. rewrite unravel_pair by assumption.
  unfold left_pos, right_pos, elem. rewrite <- Hx.
  rewrite <- (unravel_length (delete a0 s0) i) at 1 2.
  rewrite firstn_app, skipn_app, Nat.sub_diag, firstn_all, skipn_all, firstn_O, skipn_O, app_nil_r.
  split; reflexivity.
Qed.

Local Open Scope R_scope.

Lemma d_left_entry : forall x1 i j c, (i < m0)%nat -> (j < m1)%nat -> (c < size s0)%nat ->
  d_left s0 s1 a0 a1 x1 (unravel out (i * m1 + j)) (unravel s0 c) =
  if Nat.eqb (row_of s0 a0 c) i then x1 (elem s1 a1 (col_of s0 a0 c) j) else 0.
Proof.
  intros x1 i j c Hi Hj Hc. unfold d_left.
  assert (H : forall k, (k < size (extents s0 a0))%nat ->
    (Nat.eqb (left_pos s0 a0 (unravel out (i * m1 + j)) k) (ravel s0 (unravel s0 c)) = true <->
     row_of s0 a0 c = i /\ k = col_of s0 a0 c)).
  { intros k Hk. destruct (pos_split i j k Hi Hj) as [-> _]. rewrite Nat.eqb_eq. unfold elem.
    rewrite merge_hits by (try assumption; now apply unravel_inb).
    rewrite (ravel_unravel (delete a0 s0) i) by assumption. reflexivity. }
  destruct (Nat.eqb_spec (row_of s0 a0 c) i) as [E|E].
  - rewrite rsum_single with (j := col_of s0 a0 c).
    + rewrite (proj2 (H _ (col_lt _ _ _ Hb0 Hc))) by auto.
      destruct (pos_split i j (col_of s0 a0 c) Hi Hj) as [_ ->]. ring.
    + now apply col_lt.
    + intros k Hk Hne. destruct (Nat.eqb _ _) eqn:Ek; [|ring]. apply H in Ek; [|assumption]. tauto.
  - apply rsum_zero. intros k Hk. destruct (Nat.eqb (left_pos _ _ _ _) _) eqn:Ek; [|ring].
    apply H in Ek; [|assumption]. tauto.
Qed.

Lemma d_right_entry : forall x0 i j c, (i < m0)%nat -> (j < m1)%nat -> (c < size s1)%nat ->
  d_right s0 s1 a0 a1 x0 (unravel out (i * m1 + j)) (unravel s1 c) =
  if Nat.eqb (row_of s1 a1 c) j then x0 (elem s0 a0 (col_of s1 a1 c) i) else 0.
Proof.
  intros x0 i j c Hi Hj Hc. unfold d_right. rewrite Hx.
  assert (H : forall k, (k < size (extents s1 a1))%nat ->
    (Nat.eqb (right_pos s0 s1 a0 a1 (unravel out (i * m1 + j)) k) (ravel s1 (unravel s1 c)) = true <->
     row_of s1 a1 c = j /\ k = col_of s1 a1 c)).
  { intros k Hk. destruct (pos_split i j k Hi Hj) as [_ ->]. rewrite Nat.eqb_eq. unfold elem.
    rewrite merge_hits by (try assumption; now apply unravel_inb).
    rewrite (ravel_unravel (delete a1 s1) j) by assumption. reflexivity. }
  destruct (Nat.eqb_spec (row_of s1 a1 c) j) as [E|E].
  - rewrite rsum_single with (j := col_of s1 a1 c).
    + rewrite (proj2 (H _ (col_lt _ _ _ Hb1 Hc))) by auto.
      destruct (pos_split i j (col_of s1 a1 c) Hi Hj) as [-> _]. ring.
    + now apply col_lt.
    + intros k Hk Hne. destruct (Nat.eqb _ _) eqn:Ek; [|ring]. apply H in Ek; [|assumption]. tauto.
  - apply rsum_zero. intros k Hk. destruct (Nat.eqb (right_pos _ _ _ _ _ _) _) eqn:Ek; [|ring].
    apply H in Ek; [|assumption]. tauto.
Qed.

End Entries.

Lemma row_of_from : forall s axes k, row_of s axes k = row_from 0 axes s k.
Proof. reflexivity. Qed.

Lemma row_zero : forall axes s i, row_from i axes s 0 = 0.
Proof.
  intros axes s. induction s as [|n s IH]; intros i; [reflexivity|].
  rewrite row_from_cons.
  assert (E : 0 mod size s = 0) by (destruct (size s); [reflexivity|apply Nat.mod_0_l; lia]).
  assert (E' : 0 / size s = 0) by (destruct (size s); [reflexivity|apply Nat.div_0_l; lia]).
  rewrite E, E', IH. now destruct (existsb (Nat.eqb i) axes).
Qed.

Lemma elem_inj : forall s axes k k' j j', NoDup axes -> below (length s) axes ->
  k < size (extents s axes) -> k' < size (extents s axes) ->
  j < size (delete axes s) -> j' < size (delete axes s) -> elem s axes k j = elem s axes k' j' -> j = j'.
Proof.
  intros s axes k k' j j' Hn Hb Hk Hk' Hj Hj' E. unfold elem in E.
  apply merge_hits in E; try assumption.
  - destruct E as [E _].
    rewrite delete_merge in E by (rewrite unravel_length; apply free_length).
    rewrite !ravel_unravel in E by assumption. congruence.
  - now apply unravel_inb.
  - apply merge_inb; [assumption|now apply unravel_inb|now apply unravel_inb].
Qed.

(** ---- when the entries are in the right places ---- *)

Section Places.
Variables (s axes : list nat).
Hypothesis Hb : below (length s) axes.
Hypothesis Hn : NoDup axes.
Let m := size (delete axes s).
Let n := size (extents s axes).
Let row := row_of s axes.
Let col := col_of s axes.

Lemma mn_size : m * n = size s.
Proof. now apply delete_extents_size. Qed.

Lemma row_small : forall c, c < size s -> row c < m.
Proof. intros c Hc. now apply row_of_lt. Qed.

Lemma row_id : n = 1 -> forall c, c < size s -> row c = c.
Proof. intros H c Hc. apply row_from_id; [assumption|]. pose proof mn_size. fold (delete axes s). fold m. nia. Qed.

Lemma row_lead : 2 <= m -> 2 <= n -> exists q, 0 < q < size s /\ row q = 0 /\
  (q < m \/ q = m /\ forall c, c < size s -> row c = c mod m).
Proof.
  intros Hm Hn'. apply (row_from_lead axes s 0); pose proof mn_size; [nia|].
  fold (delete axes s). fold m. nia.
Qed.

Local Open Scope R_scope.

(** the second operand *)
Lemma second_right : forall K (t : nat -> R) (v : nat -> nat -> R),
  (forall i j c, (i < K)%nat -> (j < m)%nat -> (c < size s)%nat ->
     t ((i * size s + c) * m + j)%nat = if Nat.eqb (row c) j then v i (col c) else 0) ->
  m = 1%nat \/ n = 1%nat ->
  forall i j c, (i < K)%nat -> (j < m)%nat -> (c < size s)%nat ->
     t ((i * m + j) * size s + c)%nat = if Nat.eqb (row c) j then v i (col c) else 0.
Proof.
  intros K t v Ht Hmn i j c Hi Hj Hc. destruct Hmn as [E|E].
  - rewrite <- Ht by assumption. f_equal. rewrite E in *. nia.
  - pose proof mn_size as H. assert (Es : size s = m) by nia.
    rewrite Es in Hc. rewrite Es. replace ((i * m + j) * m + c)%nat with ((i * size s + j) * m + c)%nat by (rewrite Es; lia).
    rewrite Ht by (rewrite ?Es; assumption). rewrite !row_id by (rewrite ?Es; assumption).
    destruct (Nat.eqb_spec j c) as [->|Hne]; [now rewrite Nat.eqb_refl|].
    destruct (Nat.eqb_spec c j); [congruence|reflexivity].
Qed.

Lemma second_wrong : forall K (t : nat -> R), (0 < K)%nat -> (2 <= m)%nat -> (2 <= n)%nat ->
  (forall i j c, (i < K)%nat -> (j < m)%nat -> (c < size s)%nat ->
     t ((i * size s + c) * m + j)%nat = if Nat.eqb (row c) j then 1 else 0) ->
  ~ (forall i j c, (i < K)%nat -> (j < m)%nat -> (c < size s)%nat ->
     t ((i * m + j) * size s + c)%nat = if Nat.eqb (row c) j then 1 else 0).
Proof.
  intros K t HK Hm Hn' Ht H. pose proof mn_size as Hs.
  destruct (row_lead Hm Hn') as (q & Hq & Hr & Hc).
  pose proof (H 0 0 q ltac:(lia) ltac:(lia) ltac:(lia))%nat as H1. rewrite Hr in H1. cbn [Nat.eqb] in H1.
  cbn [Nat.mul Nat.add] in H1.
  destruct Hc as [Hc|[Hc Hall]].
  - pose proof (Ht 0 q 0 ltac:(lia) ltac:(lia) ltac:(lia))%nat as H2. cbn [Nat.mul Nat.add] in H2.
    rewrite H1 in H2. unfold row in H2. rewrite row_of_from, row_zero in H2.
    destruct q; [lia|]. cbn [Nat.eqb] in H2. lra.
  - pose proof (Ht 0 0 1 ltac:(lia) ltac:(lia) ltac:(nia))%nat as H2. cbn [Nat.mul Nat.add] in H2.
    rewrite Nat.add_0_r, Nat.add_0_r, <- Hc, H1, Hall in H2 by nia. rewrite ?Hc, Nat.mod_1_l in H2 by lia.
    cbn [Nat.eqb] in H2. lra.
Qed.

(** the first operand: [J] entries of the other operand remain; the derivative is
    cut after [U] blocks *)
Lemma first_right : forall J U V (t : nat -> R) (v : nat -> nat -> R), (U * V = size s * m)%nat ->
  (forall p q j i c, (p < U)%nat -> (q < V)%nat -> (j < J)%nat -> (i < m)%nat -> (c < size s)%nat ->
     (p * V + q = c * m + i)%nat ->
     t ((p * J + j) * V + q)%nat = if Nat.eqb (row c) i then v j (col c) else 0) ->
  (m = 1 \/ n = 1)%nat -> (J = 1 \/ U = m)%nat ->
  forall i j c, (i < m)%nat -> (j < J)%nat -> (c < size s)%nat ->
     t ((i * J + j) * size s + c)%nat = if Nat.eqb (row c) i then v j (col c) else 0.
Proof.
  intros J U V t v HUV Ht Hmn HJ i j c Hi Hj Hc. pose proof mn_size as Hs.
  assert (Hal : forall i' c', (i' < m)%nat -> (c' < size s)%nat -> (c' * m + i' = i * size s + c)%nat ->
            t ((i * J + j) * size s + c)%nat = if Nat.eqb (row c') i' then v j (col c') else 0).
  { intros i' c' Hi' Hc' E. destruct HJ as [HJ|HJ].
    - assert (j = 0)%nat by lia. subst j J.
      assert (HV : (V <> 0)%nat) by nia.
      pose proof (Nat.div_mod (i * size s + c) V HV) as Hd.
      pose proof (Nat.mod_upper_bound (i * size s + c) V HV) as Hb'.
      rewrite <- (Ht ((i * size s + c) / V) ((i * size s + c) mod V) 0 i' c')%nat; try assumption; try lia.
      + f_equal. lia.
      + apply Nat.div_lt_upper_bound; [assumption|]. nia.
    - assert (V = size s) by nia. subst V.
      rewrite <- (Ht i c j i' c') by (assumption || lia). reflexivity. }
  destruct Hmn as [E|E].
  - rewrite (Hal i c) by (assumption || nia). reflexivity.
  - assert (Es : size s = m) by nia. rewrite (Hal c i) by (rewrite ?Es; rewrite ?Es in Hc; assumption || lia).
    rewrite !row_id by (rewrite ?Es; rewrite ?Es in Hc; assumption).
    destruct (Nat.eqb_spec i c) as [->|Hne]; [now rewrite Nat.eqb_refl|].
    destruct (Nat.eqb_spec c i); [congruence|reflexivity].
Qed.

Lemma first_wrong : forall J U V e (t : nat -> R), (U * V = size s * m)%nat -> (V = e * m)%nat ->
  (0 < J)%nat -> (2 <= m)%nat -> (2 <= n)%nat ->
  (forall p q j i c, (p < U)%nat -> (q < V)%nat -> (j < J)%nat -> (i < m)%nat -> (c < size s)%nat ->
     (p * V + q = c * m + i)%nat ->
     t ((p * J + j) * V + q)%nat = if Nat.eqb (row c) i then 1 else 0) ->
  ~ (forall i j c, (i < m)%nat -> (j < J)%nat -> (c < size s)%nat ->
     t ((i * J + j) * size s + c)%nat = if Nat.eqb (row c) i then 1 else 0).
Proof.
  intros J U V e t HUV HV HJ Hm Hn' Ht H. pose proof mn_size as Hs.
  assert (Hss : (4 <= size s)%nat) by nia.
  assert (He : (0 < e)%nat) by nia. assert (HU : (0 < U)%nat) by nia.
  destruct (row_lead Hm Hn') as (q & Hq & Hr & Hc).
  pose proof (H 0 0 q ltac:(lia) ltac:(lia) ltac:(lia))%nat as H1. rewrite Hr in H1. cbn [Nat.eqb] in H1.
  cbn [Nat.mul Nat.add] in H1.
  destruct Hc as [Hc|[Hc Hall]].
  - pose proof (Ht 0 q 0 q 0 ltac:(lia) ltac:(nia) ltac:(lia) ltac:(lia) ltac:(lia) ltac:(lia))%nat as H2.
    cbn [Nat.mul Nat.add] in H2.
    rewrite H1 in H2. unfold row in H2. rewrite row_of_from, row_zero in H2.
    destruct q; [lia|]. cbn [Nat.eqb] in H2. lra.
  - destruct (Nat.eq_dec e 1) as [->|He1].
    + assert (EV : V = m) by lia. assert (EU : U = size s) by nia. clear H1.
      pose proof (Ht 1 0 0 0 1 ltac:(lia) ltac:(lia) ltac:(lia) ltac:(lia) ltac:(lia) ltac:(lia))%nat as H2.
      rewrite Hall, Nat.mod_1_l in H2 by lia. cbn [Nat.eqb] in H2.
      pose proof (Nat.div_mod J n ltac:(lia)) as HJd. pose proof (Nat.mod_upper_bound J n ltac:(lia)) as HJm.
      pose proof (H 0 (J / n) (J mod n * m) ltac:(lia) ltac:(apply Nat.div_lt; lia) ltac:(nia))%nat as H3.
      rewrite Hall in H3 by nia. rewrite Nat.mod_mul in H3 by lia. cbn [Nat.eqb] in H3.
      replace ((0 * J + J / n) * size s + J mod n * m)%nat with ((1 * J + 0) * V + 0)%nat in H3 by nia.
      lra.
    + pose proof (Ht 0 m 0 0 1 ltac:(lia) ltac:(nia) ltac:(lia) ltac:(lia) ltac:(lia) ltac:(lia))%nat as H2.
      cbn [Nat.mul Nat.add] in H2. rewrite <- Hc, H1, Hall in H2 by lia. rewrite ?Hc, Nat.mod_1_l in H2 by lia.
      cbn [Nat.eqb] in H2. lra.
Qed.

(** the remaining axes have a single index, the other operand leaves several *)
Lemma first_wrong_one : forall J U V (t : nat -> R) (v : nat -> nat -> R), (U * V = size s * m)%nat ->
  (0 < size s)%nat -> (2 <= J)%nat -> m = 1%nat -> U <> 1%nat ->
  (forall p q j i c, (p < U)%nat -> (q < V)%nat -> (j < J)%nat -> (i < m)%nat -> (c < size s)%nat ->
     (p * V + q = c * m + i)%nat ->
     t ((p * J + j) * V + q)%nat = if Nat.eqb (row c) i then v j (col c) else 0) ->
  (forall i j c, (i < m)%nat -> (j < J)%nat -> (c < size s)%nat ->
     t ((i * J + j) * size s + c)%nat = if Nat.eqb (row c) i then v j (col c) else 0) ->
  v 1%nat (col 0%nat) = v 0%nat (col V).
Proof.
  intros J U V t v HUV Hp HJ Hm HU Ht H.
  assert (HV : (0 < V)%nat) by nia. assert (HVs : (V < size s)%nat) by nia.
  pose proof (Ht 0 0 1 0 0 ltac:(nia) ltac:(lia) ltac:(lia) ltac:(lia) ltac:(lia) ltac:(lia))%nat as H1.
  pose proof (H 0 0 V ltac:(lia) ltac:(lia) ltac:(lia))%nat as H2.
  pose proof (row_small 0 Hp) as R0. pose proof (row_small V HVs) as R1.
  replace (row 0%nat) with 0%nat in H1 by lia. replace (row V) with 0%nat in H2 by lia. cbn [Nat.eqb] in H1, H2.
  replace ((0 * J + 1) * V + 0)%nat with ((0 * J + 0) * size s + V)%nat in H1 by lia. congruence.
Qed.

(** the summed axes have a single index, the other operand leaves several *)
Lemma first_wrong_sum : forall J U V e (t : nat -> R), (U * V = size s * m)%nat -> (size s = e * U)%nat ->
  (0 < size s)%nat -> (2 <= J)%nat -> n = 1%nat -> U <> m ->
  (forall p q j i c, (p < U)%nat -> (q < V)%nat -> (j < J)%nat -> (i < m)%nat -> (c < size s)%nat ->
     (p * V + q = c * m + i)%nat ->
     t ((p * J + j) * V + q)%nat = if Nat.eqb (row c) i then 1 else 0) ->
  ~ (forall i j c, (i < m)%nat -> (j < J)%nat -> (c < size s)%nat ->
     t ((i * J + j) * size s + c)%nat = if Nat.eqb (row c) i then 1 else 0).
Proof.
  intros J U V e t HUV He Hp HJ Hn' HU Ht H. pose proof mn_size as Hs.
  assert (Es : size s = m) by nia.
  assert (e <> 1)%nat by (intros ->; lia). assert (2 <= e)%nat by nia.
  assert (HU0 : (0 < U)%nat) by nia. assert (2 <= size s)%nat by nia.
  assert (HV : (V = e * size s)%nat) by nia.
  pose proof (Ht 0 (size s + 1) 0 1 1 ltac:(lia) ltac:(nia) ltac:(lia) ltac:(lia) ltac:(lia) ltac:(lia))%nat as G1.
  pose proof (H 0 1 1 ltac:(lia) ltac:(lia) ltac:(lia))%nat as G2.
  rewrite row_id in G1, G2 by (assumption || lia). cbn [Nat.eqb] in G1, G2.
  replace ((0 * J + 0) * V + (size s + 1))%nat with ((0 * J + 1) * size s + 1)%nat in G1 by lia. lra.
Qed.

End Places.

(** ---- the component ---- *)

Section Component.
Variables (s0 s1 : shape) (z0 z1 : list Z) (a0 a1 : list nat).
Hypothesis Hp : paired s0 s1 z0 z1 a0 a1.

Let out := delete a0 s0 ++ delete a1 s1.
Let N0 := size s0.
Let N1 := size s1.
Let m0 := size (delete a0 s0).
Let m1 := size (delete a1 s1).

Local Open Scope R_scope.

Definition partial_first (b : nd R) : option jac :=
  match np_tensordot (identity_tensor s0) b z0 z1 with
  | Some t => option_map Dense (transpose_by t (new_axes_locations (length (delete a0 s0)) (length s0) (length s1)))
  | None => None
  end.
Definition partial_second (a : nd R) : option jac :=
  option_map Dense (np_tensordot a (identity_tensor s1) z0 z1).

Lemma new_axes_moved :
  new_axes_locations (length (delete a0 s0)) (length s0) (length s1) =
  moved (length (delete a0 s0)) (length s0) (length (delete a1 s1)).
Proof.
  destruct Hp as (F0 & F1 & D0 & D1 & E).
  pose proof (named_below _ _ _ F0) as B0. pose proof (named_below _ _ _ F1) as B1.
  unfold new_axes_locations, moved. f_equal. f_equal. f_equal.
  rewrite !free_length. pose proof (free_count _ _ D0 B0). pose proof (free_count _ _ D1 B1).
  assert (length a0 = length a1) by (apply (f_equal (@length nat)) in E; unfold on_axes in E; now rewrite !map_length in E).
  f_equal. lia.
Qed.

Lemma first_nonneg : forall x1, Forall (fun z => 0 <= z)%Z z0 ->
  exists t, partial_first (Nd s1 x1) = Some (Dense t) /\ size (shp t) = (size out * N0)%nat /\
    forall o c, (o < size out)%nat -> (c < N0)%nat ->
      dat t (o * N0 + c)%nat = d_left s0 s1 a0 a1 x1 (unravel out o) (unravel s0 c).
Proof.
  intros x1 P0. pose proof new_axes_moved as El. destruct Hp as (F0 & F1 & D0 & D1 & E).
  pose proof (named_below _ _ _ F0) as B0. pose proof (named_below _ _ _ F1) as B1.
  unfold partial_first.
  rewrite tensordot_named with (ax := a0) (bx := a1); try assumption.
  2:{ cbn [identity_tensor of_fun shp]. rewrite app_length. now apply named_double. }
  2:{ cbn [identity_tensor of_fun shp]. now rewrite extents_double. }
  rewrite El.
  destruct (move_axes _ _ _ _ (left_tensor_shape s0 s1 a0 a1 B0 x1)) as (t' & Et & Es & Hg).
  rewrite Et. cbn [option_map]. exists t'. split; [reflexivity|]. split.
  { rewrite Es, app_assoc, size_app. reflexivity. }
  intros o c Ho Hc.
  pose proof (unravel_inb _ _ Ho) as Io. pose proof (unravel_inb _ _ Hc) as Ic.
  set (idx := unravel out o) in *.
  destruct (split_idx s0 s1 a0 a1 idx Io) as (Hf & Hs & Hl).
  pose proof (Hg _ _ _ Hf Ic Hs) as H. rewrite left_tensor in H by assumption.
  rewrite firstn_skipn in H. rewrite <- H. rewrite app_assoc, firstn_skipn.
  unfold get. f_equal. rewrite Es, app_assoc, ravel_app by now apply inb_length.
  unfold idx. now rewrite !ravel_unravel.
Qed.

Lemma second_nonneg : forall x0, Forall (fun z => 0 <= z)%Z z1 ->
  exists t, partial_second (Nd s0 x0) = Some (Dense t) /\ size (shp t) = (size out * N1)%nat /\
    forall o c, (o < size out)%nat -> (c < N1)%nat ->
      dat t (o * N1 + c)%nat = d_right s0 s1 a0 a1 x0 (unravel out o) (unravel s1 c).
Proof.
  intros x0 P1. destruct Hp as (F0 & F1 & D0 & D1 & E).
  pose proof (named_below _ _ _ F0) as B0. pose proof (named_below _ _ _ F1) as B1.
  unfold partial_second.
  rewrite tensordot_named with (ax := a0) (bx := a1); try assumption.
  2:{ cbn [identity_tensor of_fun shp]. rewrite app_length. now apply named_double. }
  2:{ cbn [identity_tensor of_fun shp]. now rewrite extents_double. }
  cbn [option_map]. eexists. split; [reflexivity|]. split.
  { rewrite right_tensor_shape, size_app by assumption. reflexivity. }
  intros o c Ho Hc.
  pose proof (unravel_inb _ _ Ho) as Io. pose proof (unravel_inb _ _ Hc) as Ic.
  rewrite <- right_tensor by assumption. unfold get. f_equal.
  rewrite right_tensor_shape by assumption. rewrite ravel_app by now apply inb_length.
  now rewrite !ravel_unravel.
Qed.

Let U := size (firstn (length (delete a0 s0)) s0).
Let e0 := size (skipn (length (delete a0 s0)) s0).
Let V := (e0 * m0)%nat.

Lemma UV : (U * V = N0 * m0)%nat /\ (N0 = e0 * U)%nat.
Proof.
  assert (H : (U * e0 = N0)%nat).
  { unfold U, e0. rewrite <- size_app, firstn_skipn. reflexivity. }
  split; [unfold V|]; nia.
Qed.

Lemma first_negative : forall x1, Forall (fun z => z < 0)%Z z0 ->
  exists t, partial_first (Nd s1 x1) = Some (Dense t) /\ size (shp t) = (size out * N0)%nat /\
    forall p q j i c, (p < U)%nat -> (q < V)%nat -> (j < m1)%nat -> (i < m0)%nat -> (c < N0)%nat ->
      (p * V + q = c * m0 + i)%nat ->
      dat t ((p * m1 + j) * V + q)%nat =
      if Nat.eqb (row_of s0 a0 c) i then x1 (elem s1 a1 (col_of s0 a0 c) j) else 0.
Proof.
  intros x1 P0. pose proof new_axes_moved as El. destruct Hp as (F0 & F1 & D0 & D1 & E).
  pose proof (named_below _ _ _ F0) as B0. pose proof (named_below _ _ _ F1) as B1.
  unfold partial_first.
  rewrite tensordot_named with (ax := shift (length s0) a0) (bx := a1); try assumption.
  2:{ cbn [identity_tensor of_fun shp]. rewrite app_length. now apply named_shift. }
  2:{ now apply shift_NoDup. }
  2:{ cbn [identity_tensor of_fun shp]. now rewrite extents_shift. }
  rewrite El. set (T := tensordot_core (identity_tensor s0) (Nd s1 x1) (shift (length s0) a0) a1).
  pose proof (neg_left_shape s0 s1 a0 a1 x1) as ET. fold T in ET.
  set (u := firstn (length (delete a0 s0)) s0) in *.
  set (v := skipn (length (delete a0 s0)) s0 ++ delete a0 s0).
  assert (Hle : (length (delete a0 s0) <= length s0)%nat).
  { rewrite free_length. pose proof (free_count _ _ D0 B0). lia. }
  assert (Lu : length u = length (delete a0 s0)) by (unfold u; rewrite firstn_length; lia).
  assert (Lv : length v = length s0) by (unfold v; rewrite app_length, skipn_length; lia).
  assert (Sv : size v = V) by (unfold v, V, e0, m0; apply size_app).
  assert (ET' : shp T = u ++ v ++ delete a1 s1).
  { rewrite ET. unfold u, v. rewrite <- app_assoc, (app_assoc (firstn _ _)), firstn_skipn. reflexivity. }
  destruct (move_axes _ _ _ _ ET') as (t' & Et & Es & Hg). rewrite Lu, Lv in Et.
  rewrite Et. cbn [option_map]. exists t'. split; [reflexivity|]. split.
  { rewrite Es, !size_app, Sv. unfold out. rewrite size_app. fold m0 m1. destruct UV as [HUV _]. fold u. fold U.
    replace (size u) with U by reflexivity. nia. }
  intros p q j i c Hp' Hq Hj Hi Hc Epq.
  assert (H : get t' (unravel u p ++ unravel (delete a1 s1) j ++ unravel v q) = dat t' ((p * m1 + j) * V + q)%nat).
  { rewrite <- Sv. apply (get_triple R t' u (delete a1 s1) v); [exact Es|exact Hp'|exact Hj|]. now rewrite Sv. }
  rewrite <- H, Hg by (apply unravel_inb; rewrite ?Sv; assumption).
  rewrite (get_triple R T u v (delete a1 s1)) by (try exact ET'; rewrite ?Sv; assumption).
  rewrite Sv. rewrite Epq. unfold m0 at 1.
  rewrite <- (get_triple R T s0 (delete a0 s0) (delete a1 s1)) by (try exact ET; assumption).
  unfold T. rewrite neg_left by (try assumption; now apply unravel_inb).
  rewrite <- unravel_pair by assumption. now apply d_left_entry.
Qed.

Lemma second_negative : forall x0, Forall (fun z => z < 0)%Z z1 ->
  exists t, partial_second (Nd s0 x0) = Some (Dense t) /\ size (shp t) = (size out * N1)%nat /\
    forall i j c, (i < m0)%nat -> (j < m1)%nat -> (c < N1)%nat ->
      dat t ((i * N1 + c) * m1 + j)%nat =
      if Nat.eqb (row_of s1 a1 c) j then x0 (elem s0 a0 (col_of s1 a1 c) i) else 0.
Proof.
  intros x0 P1. destruct Hp as (F0 & F1 & D0 & D1 & E).
  pose proof (named_below _ _ _ F0) as B0. pose proof (named_below _ _ _ F1) as B1.
  unfold partial_second.
  rewrite tensordot_named with (ax := a0) (bx := shift (length s1) a1); try assumption.
  2:{ cbn [identity_tensor of_fun shp]. rewrite app_length. now apply named_shift. }
  2:{ now apply shift_NoDup. }
  2:{ cbn [identity_tensor of_fun shp]. now rewrite extents_shift. }
  cbn [option_map]. eexists. split; [reflexivity|]. split.
  { rewrite neg_right_shape, !size_app. unfold out. rewrite size_app. fold N1. nia. }
  intros i j c Hi Hj Hc.
  rewrite <- (get_triple R _ (delete a0 s0) s1 (delete a1 s1)) by (try apply neg_right_shape; assumption).
  rewrite neg_right by (try assumption; now apply unravel_inb).
  rewrite <- unravel_pair by assumption. now apply d_right_entry.
Qed.

(** right for the first operand: whatever the values *)
Definition first_ok : Prop := forall x1, exists t, partial_first (Nd s1 x1) = Some (Dense t) /\
  size (shp t) = (size out * N0)%nat /\
  forall o c, (o < size out)%nat -> (c < N0)%nat ->
    dat t (o * N0 + c)%nat = d_left s0 s1 a0 a1 x1 (unravel out o) (unravel s0 c).
Definition second_ok : Prop := forall x0, exists t, partial_second (Nd s0 x0) = Some (Dense t) /\
  size (shp t) = (size out * N1)%nat /\
  forall o c, (o < size out)%nat -> (c < N1)%nat ->
    dat t (o * N1 + c)%nat = d_right s0 s1 a0 a1 x0 (unravel out o) (unravel s1 c).

Lemma second_iff : Forall (fun z => z < 0)%Z z1 -> (second_ok <-> second_harmless s0 s1 a0 a1).
Proof.
  intros P1. unfold second_harmless. rewrite <- !delete_drop. fold N1 m0 m1.
  change (on_axes a1 s1) with (extents s1 a1). destruct Hp as (F0 & F1 & D0 & D1 & E).
  pose proof (named_below _ _ _ F0) as B0. pose proof (named_below _ _ _ F1) as B1.
  pose proof (mn_size s1 a1 B1 D1) as Hs. fold m1 N1 in Hs.
  assert (So : size out = (m0 * m1)%nat) by apply size_app.
  split.
  - intros H.
    destruct (Nat.eq_dec N1 0) as [|H1]; [now left|].
    destruct (Nat.eq_dec m0 0) as [|H2]; [right; now left|].
    destruct (Nat.eq_dec m1 1) as [|H3]; [right; right; now left|].
    destruct (Nat.eq_dec (size (extents s1 a1)) 1) as [|H4]; [right; right; now right|].
    exfalso. destruct (second_negative (fun _ => 1) P1) as (t & Et & _ & Ht).
    destruct (H (fun _ => 1)) as (t' & Et' & _ & Ht'). rewrite Et in Et'. injection Et' as <-.
    apply (second_wrong s1 a1 B1 D1 m0 (dat t)); fold m1; try (nia || lia).
    + exact Ht.
    + intros i j c Hi Hj Hc.
      rewrite <- (d_right_entry s0 s1 a0 a1 B1 D1 E (fun _ => 1) i j c Hi Hj Hc). apply Ht'; [|assumption].
      rewrite So. nia.
  - intros Hh x0. destruct (second_negative x0 P1) as (t & Et & Es & Ht). exists t. splits; try assumption.
    intros o c Ho Hc. rewrite So in Ho.
    destruct Hh as [Hh|[Hh|Hh]]; [lia|rewrite Hh in Ho; cbn in Ho; lia|].
    assert (Hm : (m1 <> 0)%nat) by nia.
    pose proof (Nat.div_mod o m1 Hm) as Hd. pose proof (Nat.mod_upper_bound o m1 Hm) as Hb'.
    assert (Hq : (o / m1 < m0)%nat) by (apply Nat.div_lt_upper_bound; lia).
    set (i := (o / m1)%nat) in *. set (j := (o mod m1)%nat) in *.
    replace o with (i * m1 + j)%nat by lia.
    etransitivity; [|symmetry; exact (d_right_entry s0 s1 a0 a1 B1 D1 E x0 i j c Hq Hb' Hc)].
    apply (second_right s1 a1 B1 D1 m0 (dat t) (fun i k => x0 (elem s0 a0 k i))); try assumption.
Qed.

Lemma first_iff : Forall (fun z => z < 0)%Z z0 -> (first_ok <-> first_harmless s0 s1 a0 a1).
Proof.
  intros P0. unfold first_harmless. rewrite <- !delete_drop. fold N0 m0 m1 U.
  change (on_axes a0 s0) with (extents s0 a0). destruct Hp as (F0 & F1 & D0 & D1 & E).
  pose proof (named_below _ _ _ F0) as B0. pose proof (named_below _ _ _ F1) as B1.
  pose proof (mn_size s0 a0 B0 D0) as Hs. fold m0 N0 in Hs.
  destruct UV as [HUV HeU].
  assert (So : size out = (m0 * m1)%nat) by apply size_app.
  split.
  - intros H.
    destruct (Nat.eq_dec N0 0) as [|H1]; [now left|].
    destruct (Nat.eq_dec m1 0) as [|H2]; [right; now left|]. right. right.
    assert (Hwrong : forall x1, exists t,
      (forall p q j i c, (p < U)%nat -> (q < V)%nat -> (j < m1)%nat -> (i < m0)%nat -> (c < N0)%nat ->
        (p * V + q = c * m0 + i)%nat ->
        dat t ((p * m1 + j) * V + q)%nat =
        if Nat.eqb (row_of s0 a0 c) i then x1 (elem s1 a1 (col_of s0 a0 c) j) else 0) /\
      (forall i j c, (i < m0)%nat -> (j < m1)%nat -> (c < N0)%nat ->
        dat t ((i * m1 + j) * N0 + c)%nat =
        if Nat.eqb (row_of s0 a0 c) i then x1 (elem s1 a1 (col_of s0 a0 c) j) else 0)).
    { intros x1. destruct (first_negative x1 P0) as (t & Et & _ & Ht). exists t. split; [exact Ht|].
      destruct (H x1) as (t' & Et' & _ & Ht'). rewrite Et in Et'. injection Et' as <-.
      intros i j c Hi Hj Hc. rewrite <- (d_left_entry s0 s1 a0 a1 B0 D0 E x1 i j c Hi Hj Hc).
      apply Ht'; [|assumption]. rewrite So. fold m1. nia. }
    destruct (Nat.eq_dec m0 1) as [Em|Em].
    + split; [now left|]. destruct (Nat.eq_dec m1 1) as [|Ej]; [now left|right].
      destruct (Nat.eq_dec U m0) as [|EU]; [assumption|exfalso].
      assert (HV : (V < N0)%nat) by nia. assert (HV0 : (0 < V)%nat) by nia.
      destruct (Hwrong (fun k => if Nat.eqb k (elem s1 a1 (col_of s0 a0 0) 1) then 1 else 0)) as (t & Ht & Ht').
      pose proof (first_wrong_one s0 a0 m1 U V (dat t)
        (fun j k => if Nat.eqb (elem s1 a1 k j) (elem s1 a1 (col_of s0 a0 0) 1) then 1 else 0) HUV ltac:(fold N0; lia) ltac:(lia) Em ltac:(lia) Ht Ht') as W.
      cbv beta in W. rewrite Nat.eqb_refl in W.
      destruct (Nat.eqb_spec (elem s1 a1 (col_of s0 a0 V) 0) (elem s1 a1 (col_of s0 a0 0) 1)) as [W'|_]; [|lra].
      assert (HE : extents s0 a0 = extents s1 a1) by exact E.
      apply elem_inj in W'; [discriminate|assumption|assumption| | | |]; rewrite <- ?HE; fold m1; try lia;
        (apply col_lt; [assumption|fold N0; lia]).
    + destruct (Nat.eq_dec (size (extents s0 a0)) 1) as [En|En].
      * split; [now right|]. destruct (Nat.eq_dec m1 1) as [|Ej]; [now left|right].
        destruct (Nat.eq_dec U m0) as [|EU]; [assumption|exfalso].
        destruct (Hwrong (fun _ => 1)) as (t & Ht & Ht').
        apply (first_wrong_sum s0 a0 B0 D0 m1 U V e0 (dat t)); try assumption; lia.
      * exfalso. destruct (Hwrong (fun _ => 1)) as (t & Ht & Ht').
        apply (first_wrong s0 a0 B0 D0 m1 U V e0 (dat t)); try assumption; try reflexivity; fold m0; try lia; nia.
  - intros Hh x1. destruct (first_negative x1 P0) as (t & Et & Es & Ht). exists t. splits; try assumption.
    intros o c Ho Hc. rewrite So in Ho.
    destruct Hh as [Hh|[Hh|[Hh Hj']]]; [lia|rewrite Hh in Ho; lia|].
    assert (Hm : (m1 <> 0)%nat) by nia.
    pose proof (Nat.div_mod o m1 Hm) as Hd. pose proof (Nat.mod_upper_bound o m1 Hm) as Hb'.
    assert (Hq : (o / m1 < m0)%nat) by (apply Nat.div_lt_upper_bound; lia).
    set (i := (o / m1)%nat) in *. set (j := (o mod m1)%nat) in *.
    replace o with (i * m1 + j)%nat by lia.
    etransitivity; [|symmetry; exact (d_left_entry s0 s1 a0 a1 B0 D0 E x1 i j c Hq Hb' Hc)].
    apply (first_right s0 a0 B0 D0 m1 U V (dat t) (fun j k => x1 (elem s1 a1 k j))); try assumption.
Qed.

End Component.

Local Open Scope R_scope.

(** a component is right exactly when its two derivative arrays are *)
Lemma correct2_iff : forall s0 s1 s' f d0 d1 (meaning : list (nd R) -> nd R -> Prop)
    (F : (nat -> R) -> (nat -> R) -> nat -> R) D0 D1,
  (forall x0 x1, exists y, f (Nd s0 x0) (Nd s1 x1) = Some y /\ shp y = s' /\
     meaning [Nd s0 x0; Nd s1 x1] y /\ forall o, (o < size s')%nat -> dat y o = F x0 x1 o) ->
  (forall x0 x1 o c, (o < size s')%nat -> (c < size s0)%nat -> partial_at (fun x => F x x1 o) x0 c (D0 x1 o c)) ->
  (forall x0 x1 o c, (o < size s')%nat -> (c < size s1)%nat -> partial_at (fun x => F x0 x o) x1 c (D1 x0 o c)) ->
  (forall x0 x1, exists t, d0 (Nd s0 x0) (Nd s1 x1) = Some (Dense t)) ->
  (forall x0 x1, exists t, d1 (Nd s0 x0) (Nd s1 x1) = Some (Dense t)) ->
  (correct (comp2 s0 s1 s' f d0 d1) meaning <->
   (forall x0 x1, exists t, d0 (Nd s0 x0) (Nd s1 x1) = Some (Dense t) /\ size (shp t) = (size s' * size s0)%nat /\
      forall o c, (o < size s')%nat -> (c < size s0)%nat -> dat t (o * size s0 + c)%nat = D0 x1 o c) /\
   (forall x0 x1, exists t, d1 (Nd s0 x0) (Nd s1 x1) = Some (Dense t) /\ size (shp t) = (size s' * size s1)%nat /\
      forall o c, (o < size s')%nat -> (c < size s1)%nat -> dat t (o * size s1 + c)%nat = D1 x0 o c)).
Proof.
  intros s0 s1 s' f d0 d1 meaning F D0 D1 Hf HD0 HD1 Ht0 Ht1. split.
  - intros [G [HG HJ]].
    assert (EG : forall v o, (o < size s')%nat -> G v o = F (v 0%nat) (v 1%nat) o).
    { intros v o Ho. destruct (HG v) as [E _].
      cbn [comp2 c_compute c_ins c_out inputs_of length seq map nth] in E.
      destruct (Hf (v 0%nat) (v 1%nat)) as (y & Ey & _ & _ & Hy). rewrite E in Ey. injection Ey as <-.
      cbn [dat] in Hy. now apply Hy. }
    split; intros x0 x1; set (v := fun p => match p with O => x0 | _ => x1 end).
    + destruct (Ht0 x0 x1) as (t & Et). exists t. split; [exact Et|].
      destruct (HJ v 0%nat I ltac:(cbn; lia)) as (j & Ej & Hj).
      cbn [comp2 c_partials c_ins c_out inputs_of length seq map nth] in Ej, Hj. cbn [v] in Ej, Hj.
      rewrite Et in Ej. injection Ej as <-. destruct Hj as [Hsz Hj]. split; [exact Hsz|].
      intros o c Ho Hc. specialize (Hj o c Ho Hc).
      eapply uniqueness_limite; [exact Hj|]. eapply partial_ext; [|reflexivity|exact (HD0 x0 x1 o c Ho Hc)].
      intros r. cbv beta. rewrite EG by assumption. reflexivity.
    + destruct (Ht1 x0 x1) as (t & Et). exists t. split; [exact Et|].
      destruct (HJ v 1%nat I ltac:(cbn; lia)) as (j & Ej & Hj).
      cbn [comp2 c_partials c_ins c_out inputs_of length seq map nth] in Ej, Hj. cbn [v] in Ej, Hj.
      rewrite Et in Ej. injection Ej as <-. destruct Hj as [Hsz Hj]. split; [exact Hsz|].
      intros o c Ho Hc. specialize (Hj o c Ho Hc).
      eapply uniqueness_limite; [exact Hj|]. eapply partial_ext; [|reflexivity|exact (HD1 x0 x1 o c Ho Hc)].
      intros r. cbv beta. rewrite EG by assumption. reflexivity.
  - intros [H0 H1]. apply correct2 with (F := F); [exact Hf| |].
    + intros x0 x1. destruct (H0 x0 x1) as (t & Et & Es & Hd). exists (Dense t). split; [exact Et|].
      split; [exact Es|]. intros o c Ho Hc. unfold dense_entry. rewrite Hd by assumption. now apply HD0.
    + intros x0 x1. destruct (H1 x0 x1) as (t & Et & Es & Hd). exists (Dense t). split; [exact Et|].
      split; [exact Es|]. intros o c Ho Hc. unfold dense_entry. rewrite Hd by assumption. now apply HD1.
Qed.

Theorem inner_signs : forall s0 s1 z0 z1 a0 a1, not_both_vectors s0 s1 ->
  paired s0 s1 z0 z1 a0 a1 -> one_signed z0 -> one_signed z1 ->
  exists c, inner s0 s1 (Some (z0, z1)) = Some (c_out c, c) /\
    (correct c (inner_meaning a0 a1) <->
     (Forall (fun z => 0 <= z)%Z z0 \/ first_harmless s0 s1 a0 a1) /\
     (Forall (fun z => 0 <= z)%Z z1 \/ second_harmless s0 s1 a0 a1)).
Proof.
  intros s0 s1 z0 z1 a0 a1 Hr Hp S0 S1.
  destruct (tensor_value _ _ _ _ _ _ Hp) as (c & Ec & Ei & Eo & Hv).
  exists c. rewrite inner_tensor, Ec by assumption. split; [reflexivity|].
  assert (H0 : (first_ok s0 s1 z0 z1 a0 a1 <-> Forall (fun z => 0 <= z)%Z z0 \/ first_harmless s0 s1 a0 a1) /\
               forall x1, exists t, partial_first s0 s1 z0 z1 a0 (Nd s1 x1) = Some (Dense t)).
  { destruct S0 as [P|P].
    - pose proof (fun x1 => first_nonneg s0 s1 z0 z1 a0 a1 Hp x1 P) as H. split; [split; [now left|intros _; exact H]|].
      intros x1. destruct (H x1) as (t & Et & _). now exists t.
    - pose proof (fun x1 => first_negative s0 s1 z0 z1 a0 a1 Hp x1 P) as H. split.
      + rewrite (first_iff s0 s1 z0 z1 a0 a1 Hp P). split; [now right|]. intros [Q|Q]; [|exact Q].
        destruct z0 as [|z z0]; [|inversion_clear Q; inversion_clear P; lia].
        apply (first_iff s0 s1 [] z1 a0 a1 Hp P). intros x1. now apply first_nonneg.
      + intros x1. destruct (H x1) as (t & Et & _). now exists t. }
  assert (H1 : (second_ok s0 s1 z0 z1 a0 a1 <-> Forall (fun z => 0 <= z)%Z z1 \/ second_harmless s0 s1 a0 a1) /\
               forall x0, exists t, partial_second s1 z0 z1 (Nd s0 x0) = Some (Dense t)).
  { destruct S1 as [P|P].
    - pose proof (fun x0 => second_nonneg s0 s1 z0 z1 a0 a1 Hp x0 P) as H. split; [split; [now left|intros _; exact H]|].
      intros x0. destruct (H x0) as (t & Et & _). now exists t.
    - pose proof (fun x0 => second_negative s0 s1 z0 z1 a0 a1 Hp x0 P) as H. split.
      + rewrite (second_iff s0 s1 z0 z1 a0 a1 Hp P). split; [now right|]. intros [Q|Q]; [|exact Q].
        destruct z1 as [|z z1]; [|inversion_clear Q; inversion_clear P; lia].
        apply (second_iff s0 s1 z0 [] a0 a1 Hp P). intros x0. now apply second_nonneg.
      + intros x0. destruct (H x0) as (t & Et & _). now exists t. }
  destruct H0 as [H0 T0]. destruct H1 as [H1 T1]. rewrite <- H0, <- H1.
  destruct Hp as (F0 & F1 & N0 & N1 & E).
  unfold tensor_inner_comp in Ec. rewrite (norm_axes_named _ _ _ F0), (norm_axes_named _ _ _ F1) in Ec.
  injection Ec as <-.
  rewrite correct2_iff with (F := fun x0 x1 o => rsum (size (extents s0 a0)) (fun k =>
           x0 (left_pos s0 a0 (unravel (delete a0 s0 ++ delete a1 s1) o) k) *
           x1 (right_pos s0 s1 a0 a1 (unravel (delete a0 s0 ++ delete a1 s1) o) k))%R)
    (D0 := fun x1 o c => d_left s0 s1 a0 a1 x1 (unravel (delete a0 s0 ++ delete a1 s1) o) (unravel s0 c))
    (D1 := fun x0 o c => d_right s0 s1 a0 a1 x0 (unravel (delete a0 s0 ++ delete a1 s1) o) (unravel s1 c)).
  - split; intros [G0 G1]; split.
    + intros x1. exact (G0 (fun _ => 0) x1).
    + intros x0. exact (G1 x0 (fun _ => 0)).
    + intros x0 x1. exact (G0 x1).
    + intros x0 x1. exact (G1 x0).
  - intros x0 x1. destruct (Hv (fun p => if Nat.eqb p 0 then x0 else x1)) as (y & E1 & E2 & E3 & E4).
    exists y. cbn [comp2 c_ins c_compute c_out inputs_of length seq map nth Nat.eqb] in *.
    splits; assumption.
  - intros x0 x1 o k Ho Hk. now apply d_left_ok.
  - intros x0 x1 o k Ho Hk. now apply d_right_ok.
  - intros x0 x1. exact (T0 x1).
  - intros x0 x1. exact (T1 x0).
Qed.

(** negative axes that do no harm (a matrix contracted completely; a matrix and a
    vector, the vector's axis negative) and that do (a 2x2 matrix) *)
Example harmless_instance :
  second_harmless [4; 2; 3]%nat [2; 3]%nat [1; 2]%nat [0; 1]%nat /\
  second_harmless [4; 3]%nat [3]%nat [1]%nat [0]%nat /\
  ~ second_harmless [2; 2]%nat [2; 2]%nat [0]%nat [1]%nat /\
  first_harmless [2; 3]%nat [2; 3]%nat [0; 1]%nat [0; 1]%nat /\
  first_harmless [3]%nat [3; 4]%nat [0]%nat [0]%nat /\
  ~ first_harmless [2; 2]%nat [2; 2]%nat [1]%nat [0]%nat /\
  ~ first_harmless [3; 1]%nat [3; 2]%nat [0]%nat [0]%nat.
Proof. unfold second_harmless, first_harmless. cbn. lia. Qed.
