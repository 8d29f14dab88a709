(** Proofs about sum and average. *)
From Coq Require Import Reals Lra Lia Arith List Bool ZArith.
From Verif Require Import PyBase RSum NdArray Component JacSpec CompReorder ReorderProofs
  CompReduce SpecReduce.
Import ListNotations.
Local Open Scope R_scope.

(** ---- deleting axes ---- *)

Lemma delete_from_seq : forall axes l i,
  delete_from i axes l =
  map (fun j => nth (j - i) l 0%nat)
      (filter (fun j => negb (existsb (Nat.eqb j) axes)) (seq i (length l))).
Proof.
  induction l as [|x l IH]; intros i; [reflexivity|].
  cbn [delete_from length seq filter].
  assert (E : map (fun j => nth (j - S i) l 0%nat)
                  (filter (fun j => negb (existsb (Nat.eqb j) axes)) (seq (S i) (length l))) =
              map (fun j => nth (j - i) (x :: l) 0%nat)
                  (filter (fun j => negb (existsb (Nat.eqb j) axes)) (seq (S i) (length l)))).
  { apply map_ext_in. intros j Hj. apply filter_In in Hj. destruct Hj as [Hj _].
    apply in_seq in Hj. replace (j - i)%nat with (S (j - S i)) by lia. reflexivity. }
  destruct (existsb (Nat.eqb i) axes) eqn:Ei; cbn [negb].
  - rewrite IH. exact E.
  - cbn [map]. rewrite Nat.sub_diag. cbn [nth]. f_equal. rewrite IH. exact E.
Qed.

Lemma delete_drop : forall axes l, delete axes l = drop_axes axes l.
Proof.
  intros axes l. unfold delete, drop_axes. rewrite delete_from_seq.
  apply map_ext. intros j. now rewrite Nat.sub_0_r.
Qed.

(** What is left after deleting: at least the axes not listed, and nothing when
    every axis is listed. *)
Lemma delete_length : forall axes (s : list nat), (length s <= length (delete axes s) + length axes)%nat.
Proof.
  intros axes s. rewrite delete_drop. unfold drop_axes. rewrite map_length.
  assert (E : forall (p : nat -> bool) l,
    length l = (length (filter (fun j => negb (p j)) l) + length (filter p l))%nat).
  { intros p l. induction l as [|x l IH]; cbn; [reflexivity|]. destruct (p x); cbn; lia. }
  pose proof (E (fun j => existsb (Nat.eqb j) axes) (seq 0 (length s))) as Hs.
  rewrite seq_length in Hs.
  assert (H : (length (filter (fun j => existsb (Nat.eqb j) axes) (seq 0 (length s))) <= length axes)%nat).
  { apply NoDup_incl_length; [apply NoDup_filter, seq_NoDup|].
    intros j Hj. apply filter_In in Hj. destruct Hj as [_ Hj]. apply existsb_exists in Hj.
    destruct Hj as (x & Hx & Ex). apply Nat.eqb_eq in Ex. now subst x. }
  rewrite Hs at 1. lia.
Qed.

Lemma axis_left_some : forall s axes, (length axes < length s)%nat -> axis_left s axes = true.
Proof.
  intros s axes H. unfold axis_left. apply Nat.ltb_lt. pose proof (delete_length axes s). lia.
Qed.

Lemma axis_left_none : forall s axes, (forall i, (i < length s)%nat -> In i axes) -> axis_left s axes = false.
Proof.
  intros s axes H. unfold axis_left. rewrite delete_drop. unfold drop_axes. rewrite map_length.
  apply Nat.ltb_ge.
  assert (E : filter (fun j => negb (existsb (Nat.eqb j) axes)) (seq 0 (length s)) = []).
  { destruct (filter (fun j => negb (existsb (Nat.eqb j) axes)) (seq 0 (length s))) as [|x l] eqn:E; [reflexivity|].
    assert (Hx : In x (x :: l)) by now left. rewrite <- E in Hx. apply filter_In in Hx. destruct Hx as [Hx Hn].
    apply in_seq in Hx. apply negb_true_iff in Hn. exfalso.
    assert (T : existsb (Nat.eqb x) axes = true); [|congruence].
    apply existsb_exists. exists x. split; [apply H; lia|apply Nat.eqb_refl]. }
  rewrite E. cbn. lia.
Qed.

Lemma delete_inb : forall axes s idx i,
  inb s idx -> inb (delete_from i axes s) (delete_from i axes idx).
Proof.
  induction s as [|n s IH]; intros [|x idx] i H; cbn in *; try tauto.
  destruct H as [H1 H2].
  destruct (existsb (Nat.eqb i) axes); cbn; [now apply IH|]. split; [assumption|now apply IH].
Qed.

(** The nested loops of np.sum add up the elements that belong there. *)
Lemma axis_sum_spec : forall axes s i f idx,
  inb (delete_from i axes s) idx ->
  axis_sum i axes s f idx =
  rsum (size s) (fun k => if list_eq_dec Nat.eq_dec (delete_from i axes (unravel s k)) idx
                          then f (unravel s k) else 0).
Proof.
  induction s as [|n s IH]; intros i f idx H.
  - cbn in H. destruct idx; [|tauto]. cbn [axis_sum size rsum unravel delete_from].
    destruct (list_eq_dec Nat.eq_dec [] []); [lra|congruence].
  - cbn [size]. rewrite rsum_mul.
    cbn [delete_from] in H. cbn [axis_sum].
    assert (Hk : forall a j, (a < n)%nat -> (j < size s)%nat ->
              unravel (n :: s) (a * size s + j) = a :: unravel s j).
    { intros a j Ha Hj. cbn [unravel]. f_equal.
      - rewrite Nat.div_add_l by lia. rewrite Nat.div_small; lia.
      - f_equal. rewrite Nat.add_comm, Nat.mod_add by lia. apply Nat.mod_small. exact Hj. }
    destruct (existsb (Nat.eqb i) axes) eqn:Ei.
    + apply rsum_ext. intros a Ha. rewrite IH by assumption.
      apply rsum_ext. intros j Hj. rewrite Hk by assumption.
      cbn [delete_from]. rewrite Ei. reflexivity.
    + destruct idx as [|h t]; [cbn in H; tauto|]. cbn [inb] in H. destruct H as [Hh Ht].
      cbn [hd tl]. rewrite IH by assumption.
      rewrite (rsum_single n _ h Hh).
      * apply rsum_ext. intros j Hj. rewrite Hk by assumption.
        cbn [delete_from]. rewrite Ei.
        destruct (list_eq_dec Nat.eq_dec (delete_from (S i) axes (unravel s j)) t) as [E|E];
        destruct (list_eq_dec Nat.eq_dec (h :: delete_from (S i) axes (unravel s j)) (h :: t)) as [E'|E'];
          congruence.
      * intros a Ha Hne. apply rsum_zero. intros j Hj. rewrite Hk by assumption.
        cbn [delete_from]. rewrite Ei.
        destruct (list_eq_dec Nat.eq_dec (a :: delete_from (S i) axes (unravel s j)) (h :: t)) as [E'|E'];
          congruence.
Qed.

(** The row the pattern assigns to element [k]. *)
Definition row_of (s : list nat) (axes : list nat) (k : nat) : nat :=
  ravel (delete axes s) (delete axes (unravel s k)).

Lemma row_of_lt : forall s axes k, (k < size s)%nat ->
  (row_of s axes k < size (delete axes s))%nat.
Proof.
  intros s axes k H. unfold row_of, delete. apply ravel_lt, delete_inb, unravel_inb, H.
Qed.

Lemma row_of_belongs : forall s axes k idx,
  (k < size s)%nat -> inb (delete axes s) idx ->
  (row_of s axes k = ravel (delete axes s) idx <-> delete axes (unravel s k) = idx).
Proof.
  intros s axes k idx H Hi. unfold row_of. split.
  - intros E. apply (ravel_inj _ _ _) in E; try assumption.
    unfold delete. apply delete_inb, unravel_inb, H.
  - intros <-. reflexivity.
Qed.

(** np.sum on the flattened data *)
Lemma np_sum_axes_dat : forall s x axes o, (o < size (delete axes s))%nat ->
  dat (np_sum_axes (Nd s x) axes) o =
  rsum (size s) (fun k => if Nat.eqb (row_of s axes k) o then x k else 0).
Proof.
  intros s x axes o Ho. cbn [np_sum_axes of_fun dat shp].
  pose proof (unravel_inb _ _ Ho) as Hi.
  rewrite axis_sum_spec by exact Hi.
  apply rsum_ext. intros k Hk.
  fold (delete axes (unravel s k)).
  pose proof (row_of_belongs s axes k _ Hk Hi) as Hb.
  rewrite ravel_unravel in Hb by assumption.
  destruct (Nat.eqb_spec (row_of s axes k) o) as [E|E];
  destruct (list_eq_dec Nat.eq_dec (delete axes (unravel s k)) (unravel (delete axes s) o)) as [E'|E'].
  - unfold get. cbn [shp dat]. now rewrite ravel_unravel.
  - tauto.
  - tauto.
  - reflexivity.
Qed.

Lemma sum_over_dat : forall s x axes idx, inb (delete axes s) idx ->
  sum_over axes (Nd s x) idx =
  rsum (size s) (fun k => if Nat.eqb (row_of s axes k) (ravel (delete axes s) idx)
                          then x k else 0).
Proof.
  intros s x axes idx Hi. unfold sum_over. cbn [shp dat]. apply rsum_ext. intros k Hk.
  unfold belongs. cbn [shp]. rewrite <- delete_drop.
  pose proof (row_of_belongs s axes k _ Hk Hi) as Hb.
  destruct (list_eq_dec Nat.eq_dec (delete axes (unravel s k)) idx) as [E|E];
  destruct (Nat.eqb_spec (row_of s axes k) (ravel (delete axes s) idx)) as [E'|E'];
    try reflexivity; tauto.
Qed.

(** How many elements belong to a position. *)
Lemma axis_sum_const : forall axes s i c idx,
  axis_sum i axes s (fun _ => c) idx =
  INR (size (map (fun j => nth (j - i) s 0%nat)
        (filter (fun j => existsb (Nat.eqb j) axes) (seq i (length s))))) * c.
Proof.
  induction s as [|n s IH]; intros i c idx.
  - cbn. lra.
  - cbn [axis_sum length seq filter].
    assert (E : map (fun j => nth (j - i) (n :: s) 0%nat)
                  (filter (fun j => existsb (Nat.eqb j) axes) (seq (S i) (length s))) =
                map (fun j => nth (j - S i) s 0%nat)
                  (filter (fun j => existsb (Nat.eqb j) axes) (seq (S i) (length s)))).
    { apply map_ext_in. intros j Hj. apply filter_In in Hj. destruct Hj as [Hj _].
      apply in_seq in Hj. replace (j - i)%nat with (S (j - S i)) by lia. reflexivity. }
    destruct (existsb (Nat.eqb i) axes) eqn:Ei.
    + cbn [map size]. rewrite E, Nat.sub_diag. cbn [nth].
      rewrite mult_INR, Rmult_assoc, <- rsum_const.
      apply rsum_ext. intros j Hj. apply IH.
    + rewrite E. apply IH.
Qed.

Lemma filter_one : forall a i n,
  (i <= a)%nat -> (a < i + n)%nat ->
  filter (fun j => existsb (Nat.eqb j) [a]) (seq i n) = [a].
Proof.
  intros a i n. revert i. induction n as [|n IH]; intros i H1 H2; [lia|].
  cbn [seq filter existsb]. rewrite orb_false_r.
  destruct (Nat.eqb_spec i a) as [->|Hne].
  - f_equal. clear IH. 
    assert (Hn : forall i, (a < i)%nat -> filter (fun j => existsb (Nat.eqb j) [a]) (seq i n) = []).
    { clear. induction n as [|n IH]; intros i H; [reflexivity|].
      cbn [seq filter existsb]. rewrite orb_false_r.
      destruct (Nat.eqb_spec i a); [lia|]. apply IH. lia. }
    apply Hn. lia.
  - apply IH; lia.
Qed.

Lemma count_over_one : forall s x a idx, (a < length s)%nat -> inb (delete [a] s) idx ->
  count_over [a] (Nd s x) idx = INR (nth a s 0%nat).
Proof.
  intros s x a idx Ha Hi. unfold count_over. cbn [shp].
  transitivity (axis_sum 0 [a] s (fun _ => 1) idx).
  - rewrite axis_sum_spec by exact Hi. apply rsum_ext. intros k Hk.
    unfold belongs. cbn [shp]. rewrite <- delete_drop. fold (delete [a] (unravel s k)).
    destruct (list_eq_dec Nat.eq_dec (delete [a] (unravel s k)) idx); reflexivity.
  - rewrite axis_sum_const, filter_one by lia. cbn [map size].
    rewrite Nat.sub_0_r, Nat.mul_1_r. lra.
Qed.

(** ---- adding up the operands ---- *)

Lemma add_all_spec : forall f g l acc,
  (forall x, In x l -> f x = Some (g x)) ->
  exists y, add_all f acc l = Some y /\ shp y = shp acc /\
    forall k, dat y k = dat acc k + rsum (length l) (fun p => dat (g (operand_at l p)) k).
Proof.
  intros f g. induction l as [|x l IH]; intros acc H.
  - exists acc. cbn. splits; auto. intros. lra.
  - cbn [add_all]. rewrite (H x) by now left.
    destruct (IH (np_map2 Rplus acc (g x))) as (y & E & Hs & Hd).
    { intros z Hz. apply H. now right. }
    exists y. splits; auto.
    intros k. rewrite Hd. cbn [np_map2 dat length]. rewrite rsum_succ_l.
    unfold operand_at. cbn [nth]. lra.
Qed.

Lemma loop_sum_spec : forall f g l,
  l <> [] -> (forall x, In x l -> f x = Some (g x)) ->
  exists y, loop_sum f l = Some y /\ shp y = shp (g (operand_at l 0)) /\
    forall k, dat y k = rsum (length l) (fun p => dat (g (operand_at l p)) k).
Proof.
  intros f g [|x l] Hne H; [congruence|].
  cbn [loop_sum]. rewrite (H x) by now left.
  destruct (add_all_spec f g l (g x)) as (y & E & Hs & Hd).
  { intros z Hz. apply H. now right. }
  exists y. splits; auto.
  intros k. rewrite Hd. cbn [length]. now rewrite rsum_succ_l.
Qed.

Lemma inputs_repeat_nth : forall s n v p, (p < n)%nat ->
  operand_at (inputs_of (repeat s n) v) p = Nd s (v p).
Proof.
  intros s n v p H. unfold operand_at.
  rewrite inputs_of_nth by now rewrite repeat_length.
  f_equal. now apply nth_repeat_lt.
Qed.

Lemma inputs_repeat_In : forall s n v x, In x (inputs_of (repeat s n) v) ->
  exists p, (p < n)%nat /\ x = Nd s (v p).
Proof.
  intros s n v x H. apply In_nth with (d := Nd [] (fun _ => 0)) in H.
  destruct H as (p & Hp & E). rewrite inputs_of_length, repeat_length in Hp.
  exists p. split; [assumption|]. rewrite <- E. now apply inputs_repeat_nth.
Qed.

(** A component adding up the same linear map of each operand. *)
Lemma correct_sum_like : forall s n s' f c meaning,
  coo_pattern_ok (size s') (size s) c ->
  (forall v, exists y,
     f (inputs_of (repeat s n) v) = Some y /\ shp y = s' /\
     meaning (inputs_of (repeat s n) v) y /\
     forall o, (o < size s')%nat ->
       dat y o = rsum n (fun p => rsum (nnz c) (fun k =>
                   if Nat.eqb (rows c k) o then vals c k * v p (cols c k) else 0))) ->
  correct (comp_n s n s' f (Some (Sparse c))) meaning.
Proof.
  intros s n s' f c meaning Hok Hf.
  apply correct_intro with (F := fun v o => rsum n (fun p => rsum (nnz c) (fun k =>
                   if Nat.eqb (rows c k) o then vals c k * v p (cols c k) else 0))).
  - intros v. cbn [comp_n c_compute c_ins c_out]. apply Hf.
  - intros v p _ Hp. cbn [comp_n c_ins] in Hp. rewrite repeat_length in Hp.
    exists (Sparse c). cbn [comp_n c_partials c_out c_ins]. split.
    + destruct (Nat.ltb_spec p n); [reflexivity|lia].
    + rewrite nth_repeat_lt by assumption. split; [assumption|].
      apply coo_affine_jacobian with
        (b := fun o => rsum n (fun q => if Nat.eqb q p then 0 else
                 rsum (nnz c) (fun k => if Nat.eqb (rows c k) o then vals c k * v q (cols c k) else 0))).
      * intros k Hk. apply Hok, Hk.
      * intros x' o Ho.
        rewrite <- (rsum_delta n (fun q => rsum (nnz c) (fun k =>
             if Nat.eqb (rows c k) o then vals c k * x' (cols c k) else 0)) p Hp).
        rewrite <- rsum_plus. apply rsum_ext. intros q Hq.
        destruct (Nat.eqb_spec q p) as [->|Hne].
        -- rewrite set_op_same. lra.
        -- rewrite set_op_other by assumption. lra.
Qed.

(** ---- patterns ---- *)

Lemma diag_partials_eq : forall s v,
  diag_partials s v = Some (Coo (size s) (fun k => k) (fun k => k) (fun _ => v)).
Proof. intros s v. unfold diag_partials. now rewrite sparse_partials_vec with (n := size s). Qed.

Lemma axis_partials_eq : forall s axes v,
  axis_partials s axes v =
  Some (Coo (size s) (row_of s axes) (fun k => k) (fun _ => v)).
Proof. intros s axes v. unfold axis_partials. now rewrite sparse_partials_vec with (n := size s). Qed.

Lemma diag_ok : forall s v,
  coo_pattern_ok (size s) (size s) (Coo (size s) (fun k => k) (fun k => k) (fun _ => v)).
Proof. intros s v. split; cbn; intros; [lia|assumption]. Qed.

Lemma axis_ok : forall s axes v,
  coo_pattern_ok (size (delete axes s)) (size s)
    (Coo (size s) (row_of s axes) (fun k => k) (fun _ => v)).
Proof. intros s axes v. split; cbn; intros; [split; [now apply row_of_lt|assumption]|assumption]. Qed.

Lemma rsum_rows_diag : forall n v x o, (o < n)%nat ->
  rsum n (fun k => if Nat.eqb k o then v * x k else 0) = v * x o.
Proof. intros n v x o H. now rewrite (rsum_delta n (fun k => v * x k)). Qed.

Lemma rsum_if_scal : forall n (b : nat -> bool) c x,
  rsum n (fun k => if b k then c * x k else 0) = c * rsum n (fun k => if b k then x k else 0).
Proof.
  intros n b c x. rewrite <- rsum_scal. apply rsum_ext. intros k _. destruct (b k); lra.
Qed.

(** ---- sum ---- *)

Lemma sum_all_lemma : forall s,
  exists c, sum_comp s 1 None = Some c /\ c_ins c = [s] /\ c_out c = [1%nat] /\
    correct c sum_all_meaning.
Proof.
  intros s. eexists. split; [reflexivity|]. split; [reflexivity|]. split; [reflexivity|].
  apply correct_intro with (F := fun v o => rsum (size s) (v 0%nat)).
  - intros v. cbn [comp_n c_compute c_ins c_out repeat inputs_of length seq map nth].
    eexists. split; [reflexivity|]. splits; try reflexivity.
    exists (Nd s (v 0%nat)). splits; reflexivity.
  - intros v p _ Hp. cbn in Hp. assert (p = 0)%nat by lia. subst p.
    eexists. split; [reflexivity|].
    cbn [comp_n c_out c_ins repeat nth exact_jac]. split.
    + cbn. lia.
    + apply dense_linear_jacobian. intros x' o Ho.
      change (set_op v 0 x' 0%nat) with x'.
      apply rsum_ext. intros k _. unfold dense_entry, np_ones, np_full1. cbn. lra.
Qed.

Lemma sum_elementwise_lemma : forall s n, (2 <= n)%nat ->
  exists c, sum_comp s n None = Some c /\ c_ins c = repeat s n /\ c_out c = s /\
    correct c sum_elementwise_meaning.
Proof.
  intros s n Hn. destruct n as [|[|n]]; try lia.
  eexists. split; [reflexivity|]. split; [reflexivity|]. split; [reflexivity|].
  rewrite diag_partials_eq. cbn [as_sparse option_map].
  apply correct_sum_like; [apply diag_ok|].
  intros v. set (n' := S (S n)) in *.
  destruct (loop_sum_spec (fun x => Some x) (fun x => x) (inputs_of (repeat s n') v))
    as (y & E & Hs & Hd).
  - intros C. apply (f_equal (@length _)) in C. rewrite inputs_of_length, repeat_length in C.
    discriminate.
  - reflexivity.
  - exists y. rewrite inputs_repeat_nth in Hs by (subst n'; lia). cbn [shp] in Hs.
    rewrite inputs_of_length, repeat_length in Hd.
    splits; auto.
    + intros idx Hi. rewrite inputs_of_length, repeat_length. unfold get. rewrite Hs, Hd.
      apply rsum_ext. intros p Hp. rewrite inputs_repeat_nth by assumption. reflexivity.
    + intros o Ho. rewrite Hd. apply rsum_ext. intros p Hp.
      rewrite inputs_repeat_nth by assumption. cbn [nnz rows cols vals].
      rewrite rsum_rows_diag by assumption. cbn. lra.
Qed.

Lemma repeat_not_nil : forall s n v, (1 <= n)%nat -> inputs_of (repeat s n) v <> [].
Proof.
  intros s n v H C. apply (f_equal (@length _)) in C.
  rewrite inputs_of_length, repeat_length in C. cbn in C. lia.
Qed.

Lemma nodupb_true : forall l, NoDup l -> nodupb l = true.
Proof.
  induction l as [|x l IH]; intros H; [reflexivity|]. inversion H; subst. cbn.
  rewrite IH by assumption.
  destruct (NdEinsum.mem x l) eqn:E; [|reflexivity].
  apply NdEinsum.mem_In in E. contradiction.
Qed.

Lemma sum_axes_lemma : forall s n zs axes,
  (1 <= n)%nat -> norm_axes (length s) zs = Some axes -> NoDup axes ->
  axis_left s axes = true ->
  exists c, sum_comp s n (Some zs) = Some c /\ c_ins c = repeat s n /\
    c_out c = drop_axes axes s /\ correct c (sum_axes_meaning axes).
Proof.
  intros s n zs axes Hn Hz Hd Hleft.
  assert (E : sum_comp s n (Some zs) =
     Some (comp_n s n (delete axes s) (loop_sum (sum_axes_opt axes))
                       (as_sparse (axis_partials s axes 1%R)))).
  { unfold sum_comp. rewrite Hz, Hleft. destruct n as [|[|n]]; [lia|reflexivity|reflexivity]. }
  rewrite E. eexists. split; [reflexivity|]. split; [reflexivity|].
  split; [apply delete_drop|].
  rewrite axis_partials_eq. cbn [as_sparse option_map].
  apply correct_sum_like; [apply axis_ok|].
  intros v.
  destruct (loop_sum_spec (sum_axes_opt axes) (fun x => np_sum_axes x axes)
              (inputs_of (repeat s n) v)) as (y & Ey & Hs & Hy).
  - now apply repeat_not_nil.
  - intros x _. unfold sum_axes_opt. now rewrite nodupb_true.
  - exists y. rewrite inputs_repeat_nth in Hs by lia. cbn [np_sum_axes of_fun shp] in Hs.
    rewrite inputs_of_length, repeat_length in Hy.
    splits; auto.
    + split.
      * intros x Hx. apply inputs_repeat_In in Hx. destruct Hx as (p & _ & ->).
        rewrite Hs. apply delete_drop.
      * intros idx Hi. rewrite Hs in Hi.
        rewrite inputs_of_length, repeat_length. unfold get. rewrite Hs, Hy.
        apply rsum_ext. intros p Hp. rewrite inputs_repeat_nth by assumption.
        rewrite np_sum_axes_dat, sum_over_dat by (try apply ravel_lt; assumption).
        reflexivity.
    + intros o Ho. rewrite Hy. apply rsum_ext. intros p Hp.
      rewrite inputs_repeat_nth by assumption. cbn [nnz rows cols vals].
      rewrite np_sum_axes_dat by assumption. apply rsum_ext. intros k Hk.
      destruct (Nat.eqb (row_of s axes k) o); lra.
Qed.

(** ---- average ---- *)

Lemma average_all_lemma : forall s,
  exists c, average_comp s 1 None = Some c /\ c_ins c = [s] /\ c_out c = [1%nat] /\
    correct c average_all_meaning.
Proof.
  intros s. eexists. split; [reflexivity|]. split; [reflexivity|]. split; [reflexivity|].
  apply correct_intro with (F := fun v o => rsum (size s) (v 0%nat) / INR (size s)).
  - intros v. cbn [comp_n c_compute c_ins c_out repeat inputs_of length seq map nth].
    eexists. split; [reflexivity|]. splits; try reflexivity.
    exists (Nd s (v 0%nat)). splits; reflexivity.
  - intros v p _ Hp. cbn in Hp. assert (p = 0)%nat by lia. subst p.
    eexists. split; [reflexivity|].
    cbn [comp_n c_out c_ins repeat nth exact_jac]. split.
    + cbn. lia.
    + apply dense_linear_jacobian. intros x' o Ho.
      change (set_op v 0 x' 0%nat) with x'. rewrite <- rsum_div.
      apply rsum_ext. intros k _. unfold dense_entry, np_full1. cbn [dat]. unfold Rdiv. lra.
Qed.

Lemma average_elementwise_lemma : forall s n, (2 <= n)%nat ->
  exists c, average_comp s n None = Some c /\ c_ins c = repeat s n /\ c_out c = s /\
    correct c average_elementwise_meaning.
Proof.
  intros s n Hn.
  assert (E : average_comp s n None =
     Some (comp_n s n s (fun ins => divide_by n (loop_sum (fun x => Some x) ins))
                   (as_sparse (diag_partials s (1 / INR n)%R)))).
  { destruct n as [|[|n]]; [lia|lia|reflexivity]. }
  rewrite E. eexists. split; [reflexivity|]. split; [reflexivity|]. split; [reflexivity|].
  rewrite diag_partials_eq. cbn [as_sparse option_map].
  apply correct_sum_like; [apply diag_ok|].
  intros v.
  destruct (loop_sum_spec (fun x => Some x) (fun x => x) (inputs_of (repeat s n) v))
    as (y & Ey & Hs & Hd).
  - apply repeat_not_nil. lia.
  - reflexivity.
  - rewrite Ey. cbn [divide_by option_map]. eexists. split; [reflexivity|].
    rewrite inputs_repeat_nth in Hs by lia. cbn [shp] in Hs.
    rewrite inputs_of_length, repeat_length in Hd.
    splits; auto.
    + intros idx Hi. rewrite inputs_of_length, repeat_length. unfold get.
      cbn [np_map dat shp]. rewrite Hs, Hd. f_equal.
      apply rsum_ext. intros p Hp. rewrite inputs_repeat_nth by assumption. reflexivity.
    + intros o Ho. cbn [np_map dat]. rewrite Hd. rewrite <- rsum_div.
      apply rsum_ext. intros p Hp.
      rewrite inputs_repeat_nth by assumption. cbn [nnz rows cols vals].
      rewrite rsum_rows_diag by assumption. cbn [dat]. unfold Rdiv. lra.
Qed.

Lemma norm_axis_lt : forall r z a, norm_axis r z = Some a -> (a < r)%nat.
Proof.
  intros r z a H. unfold norm_axis in H.
  destruct (0 <=? z)%Z eqn:E1; destruct (z <? Z.of_nat r)%Z eqn:E2;
  destruct (- Z.of_nat r <=? z)%Z eqn:E3; destruct (z <? 0)%Z eqn:E4;
    cbn [andb] in H; try discriminate; inversion H; subst; lia.
Qed.

Lemma norm_axes_one : forall r zs a, norm_axes r zs = Some [a] -> (a < r)%nat.
Proof.
  intros r [|z zs] a H; cbn in H; [discriminate|].
  destruct (norm_axis r z) eqn:E; [|discriminate].
  destruct (norm_axes r zs) eqn:E'; [|discriminate].
  inversion H; subst. eapply norm_axis_lt; eassumption.
Qed.

Lemma norm_axes_length : forall r zs axes, norm_axes r zs = Some axes ->
  length axes = length zs.
Proof.
  induction zs as [|z zs IH]; intros axes H; cbn in H.
  - inversion H. reflexivity.
  - destruct (norm_axis r z); [|discriminate].
    destruct (norm_axes r zs); [|discriminate]. inversion H. cbn. f_equal. now apply IH.
Qed.

Lemma average_axis_lemma : forall s n zs a,
  (1 <= n)%nat -> (0 < size s)%nat -> norm_axes (length s) zs = Some [a] ->
  axis_left s [a] = true ->
  exists c, average_comp s n (Some zs) = Some c /\ c_ins c = repeat s n /\
    c_out c = drop_axes [a] s /\ correct c (average_axes_meaning [a]).
Proof.
  intros s n zs a Hn Hpos Hz Hleft.
  pose proof (norm_axes_one _ _ _ Hz) as Ha.
  assert (Hm : INR (nth a s 0%nat) <> 0).
  { apply not_0_INR. intros C. clear -Ha C Hpos.
    revert a Ha C. induction s as [|x s IH]; intros a Ha C; cbn in *; [lia|].
    destruct a as [|a]; [subst; lia|]. apply (IH ltac:(nia) a); [lia|assumption]. }
  assert (Hn0 : INR n <> 0) by (apply not_0_INR; lia).
  set (w := (if Nat.eqb n 1 then 1 / INR (nth a s 0%nat)
             else 1 / (INR (nth a s 0%nat) * INR n))%R).
  assert (Hw : w = / (INR n * INR (nth a s 0%nat))).
  { unfold w. destruct (Nat.eqb_spec n 1) as [->|]; cbn [INR]; field; auto. }
  assert (E : average_comp s n (Some zs) =
     Some (comp_n s n (delete [a] s)
                      (fun ins =>
                         if Nat.eqb n 1
                         then match ins with [x] => average_axes_opt [a] x | _ => None end
                         else divide_by n (loop_sum (average_axes_opt [a]) ins))
                      (as_sparse (axis_partials s [a] w)))).
  { unfold average_comp. rewrite Hz, Hleft. destruct n as [|[|n]]; [lia|reflexivity|reflexivity]. }
  rewrite E. eexists. split; [reflexivity|]. split; [reflexivity|].
  split; [apply delete_drop|].
  rewrite axis_partials_eq. cbn [as_sparse option_map].
  apply correct_sum_like; [apply axis_ok|].
  intros v.
  assert (Hy : exists y,
     (if Nat.eqb n 1
      then match inputs_of (repeat s n) v with [x] => average_axes_opt [a] x | _ => None end
      else divide_by n (loop_sum (average_axes_opt [a]) (inputs_of (repeat s n) v))) = Some y /\
     shp y = delete [a] s /\
     forall k, (k < size (delete [a] s))%nat ->
       dat y k = w * rsum n (fun p => dat (np_sum_axes (Nd s (v p)) [a]) k)).
  { destruct (Nat.eqb_spec n 1) as [->|Hne].
    - cbn [inputs_of repeat length seq map nth]. unfold average_axes_opt.
      cbn [nodupb]. eexists. split; [reflexivity|]. split; [reflexivity|].
      intros k Hk. cbn [np_map dat shp]. rewrite Hw. unfold shape_prod. cbn [map size].
      rewrite Nat.mul_1_r. cbn [rsum INR]. field. assumption.
    - destruct (loop_sum_spec (average_axes_opt [a])
          (fun x => np_map (fun t => t / INR (shape_prod (shp x) [a]))%R (np_sum_axes x [a]))
          (inputs_of (repeat s n) v)) as (y & Ey & Hs & Hd).
      + now apply repeat_not_nil.
      + intros x _. reflexivity.
      + rewrite Ey. eexists. split; [reflexivity|].
        rewrite inputs_repeat_nth in Hs by lia. cbn [np_map np_sum_axes of_fun shp] in Hs.
        cbn [np_map shp dat]. split; [assumption|].
        intros k Hk. rewrite Hd, inputs_of_length, repeat_length, Hw.
        rewrite <- rsum_div, <- rsum_scal. apply rsum_ext. intros p Hp.
        rewrite inputs_repeat_nth by assumption. cbn [np_map dat shp].
        unfold shape_prod. cbn [map size]. rewrite Nat.mul_1_r. field. auto. }
  destruct Hy as (y & Ey & Hs & Hd). exists y. splits; auto.
  - split.
    + intros x Hx. apply inputs_repeat_In in Hx. destruct Hx as (p & _ & ->).
      rewrite Hs. apply delete_drop.
    + intros idx Hi. rewrite Hs in Hi. rewrite inputs_of_length, repeat_length.
      unfold get. rewrite Hs, Hd by now apply ravel_lt.
      replace (rsum n (fun p => count_over [a] (operand_at (inputs_of (repeat s n) v) p) idx))
        with (INR n * INR (nth a s 0%nat)).
      * replace (rsum n (fun p => sum_over [a] (operand_at (inputs_of (repeat s n) v) p) idx))
          with (rsum n (fun p => dat (np_sum_axes (Nd s (v p)) [a]) (ravel (delete [a] s) idx))).
        -- rewrite Hw. unfold Rdiv. apply Rmult_comm.
        -- apply rsum_ext. intros p Hp. rewrite inputs_repeat_nth by assumption.
           rewrite np_sum_axes_dat, sum_over_dat by (try apply ravel_lt; assumption).
           reflexivity.
      * rewrite <- rsum_const. apply rsum_ext. intros p Hp.
        rewrite inputs_repeat_nth by assumption.
        symmetry. now apply count_over_one.
  - intros o Ho. rewrite Hd by assumption. cbn [nnz rows cols vals].
    rewrite <- rsum_scal. apply rsum_ext. intros p Hp.
    rewrite np_sum_axes_dat by assumption. now rewrite rsum_if_scal.
Qed.

(** Two or more axes: setup raises. *)
Lemma average_axes_fail : forall s n zs, (2 <= length zs)%nat ->
  average_comp s n (Some zs) = None.
Proof.
  intros s n zs H. unfold average_comp.
  destruct (norm_axes (length s) zs) as [axes|] eqn:E.
  - pose proof (norm_axes_length _ _ _ E) as Hl.
    destruct axes as [|a [|b axes]]; cbn in Hl; try lia.
    destruct n as [|[|n]]; reflexivity.
  - destruct n as [|[|n]]; reflexivity.
Qed.

(** The empty tuple of axes: the value is the operand itself, but the declared
    derivative is one over its size. *)
Lemma average_no_axes_wrong : forall s, (1 < size s)%nat ->
  exists c, average_comp s 1 (Some []) = Some c /\ c_ins c = [s] /\
    ~ correct c (average_axes_meaning []).
Proof.
  intros s Hs.
  exists (comp_n s 1 (delete [] s)
            (fun ins => match ins with [x] => average_axes_opt [] x | _ => None end)
            (as_sparse (axis_partials s [] (1 / INR (size s))))).
  assert (Hleft : axis_left s [] = true).
  { apply axis_left_some. destruct s; cbn in *; lia. }
  split; [unfold average_comp; cbn [norm_axes]; rewrite Hleft; reflexivity|]. split; [reflexivity|].
  assert (Hdel : forall (l : list nat) i, delete_from i [] l = l).
  { induction l as [|x l IH]; intros i; cbn; [reflexivity|]. now rewrite IH. }
  rewrite axis_partials_eq. cbn [as_sparse option_map].
  intros (F & Hc & Hp).
  set (v := fun _ _ : nat => 0).
  destruct (Hp v 0%nat I) as (j & Hj & He); [cbn; lia|].
  cbn in Hj. inversion Hj; subst j. clear Hj.
  destruct He as [_ He]. cbn [comp_n c_out c_ins repeat nth] in He.
  unfold delete in He. rewrite Hdel in He.
  specialize (He 0%nat 0%nat ltac:(lia) ltac:(lia)).
  assert (HF : forall v, F v 0%nat = v 0%nat 0%nat).
  { intros u. destruct (Hc u) as [E _].
    cbn [comp_n c_compute c_ins repeat inputs_of length seq map nth] in E.
    unfold average_axes_opt in E. cbn [nodupb] in E.
    apply (f_equal (fun o => match o with Some y => dat y 0%nat | None => 0 end)) in E.
    unfold shape_prod in E. cbn [map size np_map dat] in E. rewrite <- E. clear E.
    rewrite np_sum_axes_dat.
    - rewrite (rsum_single (size s) _ 0%nat).
      + unfold row_of, delete. rewrite !Hdel, ravel_unravel by lia. cbn. lra.
      + lia.
      + intros k Hk Hne. destruct (Nat.eqb_spec (row_of s [] k) 0) as [C|]; [|reflexivity].
        exfalso. apply Hne. revert C. unfold row_of, delete. rewrite !Hdel.
        now rewrite ravel_unravel by assumption.
    - unfold delete. rewrite Hdel. lia. }
  assert (H1 : derivable_pt_lim (fun t => t) 0 1) by apply derivable_pt_lim_id.
  assert (H2 : derivable_pt_lim (fun t => t) 0
            (coo_entry (Coo (size s) (row_of s []) (fun k => k) (fun _ => 1 / INR (size s))) 0 0)).
  { eapply derivable_pt_lim_ext; [|exact He].
    intros t. cbn beta. rewrite HF. change (upd (v 0%nat) 0 t 0%nat = t). apply upd_same. }
  pose proof (uniqueness_limite _ _ _ _ H1 H2) as Hu.
  unfold coo_entry in Hu. cbn [nnz rows cols vals] in Hu.
  rewrite (rsum_single (size s) _ 0%nat) in Hu.
  - unfold row_of, delete in Hu. rewrite !Hdel, ravel_unravel in Hu by lia.
    cbn [Nat.eqb andb] in Hu.
    assert (1 < INR (size s)) by (change 1 with (INR 1); now apply lt_INR).
    assert (1 / INR (size s) < 1).
    { apply Rmult_lt_reg_r with (INR (size s)); [lra|]. unfold Rdiv.
      rewrite Rmult_assoc, Rinv_l by lra. lra. }
    lra.
  - lia.
  - intros k Hk Hne. apply Nat.eqb_neq in Hne. rewrite Hne, andb_false_r. reflexivity.
Qed.

Lemma norm_axes_named : forall r zs axes,
  Forall2 (axis_named r) zs axes -> norm_axes r zs = Some axes.
Proof.
  intros r zs axes H. induction H as [|z a zs axes [Ha Hz] H IH]; [reflexivity|].
  cbn [norm_axes]. rewrite IH.
  assert (E : norm_axis r z = Some a); [|now rewrite E].
  unfold norm_axis.
  destruct (0 <=? z)%Z eqn:E1; destruct (z <? Z.of_nat r)%Z eqn:E2;
  destruct (- Z.of_nat r <=? z)%Z eqn:E3; destruct (z <? 0)%Z eqn:E4;
    cbn [andb]; try (f_equal; lia); exfalso; lia.
Qed.

Theorem sum_axes_correct : forall s n zs axes,
  (1 <= n)%nat -> Forall2 (axis_named (length s)) zs axes -> NoDup axes ->
  (length axes < length s)%nat ->
  exists c, sum_comp s n (Some zs) = Some c /\ c_ins c = repeat s n /\
    c_out c = drop_axes axes s /\ correct c (sum_axes_meaning axes).
Proof.
  intros s n zs axes Hn Hz Hd Hl. apply sum_axes_lemma; auto; [now apply norm_axes_named|].
  now apply axis_left_some.
Qed.

Theorem average_axis_correct : forall s n z a,
  (1 <= n)%nat -> (0 < size s)%nat -> axis_named (length s) z a ->
  (1 < length s)%nat ->
  exists c, average_comp s n (Some [z]) = Some c /\ c_ins c = repeat s n /\
    c_out c = drop_axes [a] s /\ correct c (average_axes_meaning [a]).
Proof.
  intros s n z a Hn Hs Hz Hl. apply average_axis_lemma; auto; [now apply norm_axes_named; constructor|].
  now apply axis_left_some.
Qed.

(** Concrete cases: a 2x3x4 array summed over axes 0 and -1; a 2x3 matrix
    averaged over axis 1, whose row 0 contains elements 0, 1, 2. *)
Example sum_axes_instance :
  Forall2 (axis_named 3) [0; -1]%Z [0; 2]%nat /\ NoDup [0; 2]%nat /\
  drop_axes [0; 2]%nat [2; 3; 4]%nat = [3]%nat /\
  map (belongs [0; 2]%nat (Nd [2; 3; 4]%nat (fun _ => 0)) [1]%nat) [3; 4; 7; 8; 16; 12]%nat =
  [false; true; true; false; true; false].
Proof.
  splits; try reflexivity.
  - repeat constructor; cbn; lia.
  - repeat constructor; cbn; lia.
Qed.

Example average_axis_instance :
  axis_named 2 (-1) 1 /\ drop_axes [1]%nat [2; 3]%nat = [2]%nat /\
  count_over [1]%nat (Nd [2; 3]%nat (fun _ => 0)) [1]%nat = 3.
Proof.
  splits; [split; cbn; lia|reflexivity|].
  rewrite count_over_one by (cbn; lia). cbn. lra.
Qed.
