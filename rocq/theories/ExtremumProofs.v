(** Proofs about max and min. *)
From Coq Require Import Reals Lra Lia Arith List Bool ZArith.
From Verif Require Import PyBase RSum NdArray NdEinsum Component JacSpec JacOpen CompReorder CompElem
  CompExtremum SpecReduce ReduceProofs SpecExtremum KsMath ExpandEinsum ElemProofs ArithProofs.
Import ListNotations.
Local Open Scope R_scope.

Lemma neg_if_shp : forall neg x, shp (neg_if neg x) = shp x.
Proof. now intros [] x. Qed.

Lemma neg_if_dat : forall neg x k, dat (neg_if neg x) k = sgn neg * dat x k.
Proof. intros [] x k; cbn; ring. Qed.

(** ---- several arrays ---- *)

Lemma fold_max_shp : forall neg l acc,
  shp (fold_left (fun acc x => np_map2 Rmax acc (neg_if neg x)) l acc) = shp acc.
Proof. intros neg. induction l as [|x l IH]; intros acc; [reflexivity|]. cbn [fold_left]. now rewrite IH. Qed.

Lemma fold_plus_spec : forall (g : nd R -> nd R) l acc,
  shp (fold_left (fun acc x => np_map2 Rplus acc (g x)) l acc) = shp acc /\
  forall o, dat (fold_left (fun acc x => np_map2 Rplus acc (g x)) l acc) o =
            dat acc o + rlist_sum (map (fun x => dat (g x) o) l).
Proof.
  intros g. induction l as [|x l IH]; intros acc; cbn [fold_left map].
  - split; [reflexivity|]. intros o. unfold rlist_sum. cbn [fold_right]. lra.
  - destruct (IH (np_map2 Rplus acc (g x))) as [H1 H2]. split; [exact H1|].
    intros o. rewrite H2. unfold rlist_sum. cbn [np_map2 dat fold_right]. lra.
Qed.

Definition all_true_b : nat -> bool := fun _ => true.

Lemma blist_all : forall n f, blist n all_true_b f = map f (seq 0 n).
Proof.
  intros n f. unfold blist. f_equal. apply filter_all. reflexivity.
Qed.

Lemma inputs_map : forall s n v (B : Type) (g : nd R -> B),
  map g (inputs_of (repeat s n) v) = map (fun p => g (Nd s (v p))) (seq 0 n).
Proof.
  intros s n v B g. unfold inputs_of. rewrite repeat_length, map_map. apply map_ext_in.
  intros p Hp. apply in_seq in Hp. now rewrite nth_repeat_lt by lia.
Qed.

Lemma nonempty_all : forall n, (0 < n)%nat -> exists k, (k < n)%nat /\ all_true_b k = true.
Proof. intros n H. exists 0%nat. split; [assumption|reflexivity]. Qed.

Lemma arg_dat : forall rho neg s n v fmax o, shp fmax = s ->
  dat (arg_of rho neg (inputs_of (repeat s n) v) fmax) o =
  bsum n all_true_b (fun p => exp (rho * (sgn neg * v p o - dat fmax o))).
Proof.
  intros rho neg s n v fmax o Hs. unfold arg_of.
  destruct (fold_plus_spec (fun x => ks_exp rho neg x fmax) (inputs_of (repeat s n) v)
              (Nd (shp fmax) (fun _ => 0))) as [_ H].
  rewrite H. cbn [dat]. rewrite inputs_map, <- blist_all, blist_sum, Rplus_0_l.
  apply bsum_ext. intros p _ _. unfold ks_exp. cbn [np_map np_map2 dat]. now rewrite neg_if_dat.
Qed.

Lemma fmax_shp : forall neg s n v, (0 < n)%nat -> shp (fmax_of neg (inputs_of (repeat s n) v)) = s.
Proof.
  intros neg s n v Hn. unfold fmax_of. rewrite fold_max_shp. cbn [np_map shp]. rewrite neg_if_shp.
  unfold inputs_of. rewrite repeat_length. destruct n; [lia|]. reflexivity.
Qed.

Lemma sgn_sq : forall neg, sgn neg * sgn neg = 1.
Proof. intros []; cbn; lra. Qed.

Lemma elementwise_parts : forall neg rho s n v, (0 < n)%nat -> rho <> 0 ->
  let ins := inputs_of (repeat s n) v in
  let fmax := fmax_of neg ins in
  (forall o, dat (neg_if neg (np_map2 Rplus fmax (np_map (fun t => 1 / rho * ln t) (arg_of rho neg ins fmax)))) o
             = ks neg rho n all_true_b (fun p => v p o)) /\
  (forall p o, (p < n)%nat ->
     dat (np_map2 Rmult (np_map (fun t => 1 / t) (arg_of rho neg ins fmax))
            (ks_exp rho neg (Nd s (v p)) fmax)) o
     = ks_weight neg rho n all_true_b (fun p => v p o) p).
Proof.
  intros neg rho s n v Hn Hr ins fmax.
  assert (Hs : shp fmax = s) by now apply fmax_shp.
  pose proof (nonempty_all n Hn) as Hne. split.
  - intros o. rewrite neg_if_dat. cbn [np_map2 np_map dat]. unfold ins. rewrite arg_dat by assumption.
    rewrite (ks_shift n all_true_b (fun p => sgn neg * v p o) rho (dat fmax o) Hr Hne). reflexivity.
  - intros p o Hp. cbn [np_map2 np_map dat]. unfold ins. rewrite arg_dat by assumption.
    unfold ks_exp. cbn [np_map np_map2 dat]. rewrite neg_if_dat. cbn [dat].
    unfold ks_weight.
    rewrite <- (ks_weight_shift n all_true_b (fun p => sgn neg * v p o) rho (dat fmax o) p Hne).
    unfold Rdiv. ring.
Qed.

Theorem elementwise_ext_correct : forall neg rho s names,
  (0 < length names)%nat -> NoDup names -> 0 < rho ->
  exists c, elementwise_ext neg rho s names = Some c /\
    c_ins c = repeat s (length names) /\ c_out c = s /\
    correct c (ext_elementwise neg rho) /\ convex_weights c.
Proof.
  intros neg rho s names Hlen Hnd Hr. unfold elementwise_ext.
  assert (Hok : names_ok names = true).
  { clear Hlen. induction Hnd as [|x l Hx Hl IH]; [reflexivity|]. cbn [names_ok]. rewrite IH, andb_true_r.
    apply negb_true_iff. destruct (existsb (Nat.eqb x) l) eqn:E; [|reflexivity].
    apply existsb_exists in E. destruct E as (y & Hy & E). apply Nat.eqb_eq in E. subst. contradiction. }
  rewrite Hok. eexists. split; [reflexivity|]. split; [reflexivity|]. split; [reflexivity|].
  set (n := length names) in *. assert (Hr0 : rho <> 0) by lra.
  pose proof (nonempty_all n Hlen) as Hne.
  assert (Hnth : forall v p, (p < n)%nat ->
            nth_error (inputs_of (repeat s n) v) p = Some (Nd s (v p))).
  { intros v p Hp. unfold inputs_of. rewrite repeat_length, nth_error_map.
    rewrite nth_error_nth' with (d := 0%nat) by now rewrite seq_length.
    rewrite seq_nth by assumption. cbn [option_map plus]. now rewrite nth_repeat_lt. }
  assert (Hshape : forall v, shp (arg_of rho neg (inputs_of (repeat s n) v)
                      (fmax_of neg (inputs_of (repeat s n) v))) = s).
  { intros v. unfold arg_of.
    destruct (fold_plus_spec (fun x => ks_exp rho neg x (fmax_of neg (inputs_of (repeat s n) v)))
      (inputs_of (repeat s n) v) (Nd (shp (fmax_of neg (inputs_of (repeat s n) v))) (fun _ => 0))) as [-> _].
    now apply fmax_shp. }
  split.
  - apply correct_within_true.
    apply elementwise_correct with (s := s) (n := n)
      (G := fun o x => ks neg rho n all_true_b x)
      (D := fun v p o => ks_weight neg rho n all_true_b (fun q => v q o) p);
      cbn [c_ins c_out c_compute c_partials].
    + reflexivity.
    + reflexivity.
    + apply open_dom_true.
    + intros o x x' H. apply ks_ext. intros k Hk _. now apply H.
    + intros v _. destruct (elementwise_parts neg rho s n v Hlen Hr0) as [H1 _].
      rewrite assign_array by (rewrite neg_if_shp; cbn [np_map2 shp]; now apply fmax_shp).
      eexists. split; [reflexivity|]. split; [reflexivity|]. intros o Ho. apply H1.
    + intros v y _ Hs Hd. split.
      * intros x Hx. apply inputs_repeat_In in Hx. destruct Hx as (p & _ & ->). exact Hs.
      * intros idx Hi. rewrite Hs in Hi. rewrite inputs_map. unfold get at 2. rewrite Hs, Hd by now apply ravel_lt.
        rewrite <- blist_all.
        apply (ks_smooth neg rho n all_true_b (fun p => v p (ravel s idx)) Hr Hne).
    + intros v p _ Hp. rewrite Hnth by assumption.
      destruct (elementwise_parts neg rho s n v Hlen Hr0) as [_ H2].
      rewrite as_sparse_diag by (cbn [np_flatten np_map2 np_map shp]; now rewrite Hshape).
      eexists. split; [reflexivity|]. cbn [nnz rows cols vals np_flatten dat]. splits; auto.
    + intros v p o _ Hp Ho.
      pose proof (ks_deriv neg rho n all_true_b (fun q => v q o) p Hr0 Hne Hp) as H.
      cbn [all_true_b] in H. unfold all_true_b in H at 2. exact H.
  - intros v. cbn [c_ins c_out c_partials].
    destruct (elementwise_parts neg rho s n v Hlen Hr0) as [_ H2].
    set (val := fun p o => ks_weight neg rho n all_true_b (fun q => v q o) p).
    exists (fun p => Sparse (Coo (size s) (fun k => k) (fun k => k)
       (dat (np_map2 Rmult (np_map (fun t => 1 / t) (arg_of rho neg (inputs_of (repeat s n) v)
            (fmax_of neg (inputs_of (repeat s n) v))))
            (ks_exp rho neg (Nd s (v p)) (fmax_of neg (inputs_of (repeat s n) v))))))).
    rewrite repeat_length.
    assert (Hent : forall p o i, (p < n)%nat -> (o < size s)%nat -> (i < size s)%nat ->
      jac_entry (size s) (Sparse (Coo (size s) (fun k => k) (fun k => k)
       (dat (np_map2 Rmult (np_map (fun t => 1 / t) (arg_of rho neg (inputs_of (repeat s n) v)
            (fmax_of neg (inputs_of (repeat s n) v))))
            (ks_exp rho neg (Nd s (v p)) (fmax_of neg (inputs_of (repeat s n) v))))))) o i =
      if Nat.eqb i o then val p o else 0).
    { intros p o i Hp Ho Hi. cbn [jac_entry]. unfold coo_entry. cbn [nnz rows cols vals].
      destruct (Nat.eqb_spec i o) as [->|Hne'].
      - rewrite rsum_single with (j := o); [rewrite !Nat.eqb_refl; cbn [andb]; now apply H2|assumption|].
        intros k Hk Hne'. destruct (Nat.eqb_spec k o); [contradiction|reflexivity].
      - apply rsum_zero. intros k Hk.
        destruct (Nat.eqb_spec k o); destruct (Nat.eqb_spec k i); subst; cbn; congruence. }
    splits.
    + intros p Hp. rewrite Hnth by assumption.
      rewrite as_sparse_diag by (cbn [np_flatten np_map2 np_map shp]; now rewrite Hshape). reflexivity.
    + intros p o i Hp Ho Hi. rewrite nth_repeat_lt in * by assumption. rewrite Hent by assumption.
      destruct (Nat.eqb i o); [|lra]. now apply ks_weight_nonneg.
    + intros o Ho. transitivity (bsum n all_true_b (fun p => val p o)).
      * apply rsum_ext. intros p Hp. rewrite nth_repeat_lt by assumption. cbn [all_true_b].
        rewrite rsum_single with (j := o); [rewrite Hent by assumption; now rewrite Nat.eqb_refl|assumption|].
        intros k Hk Hk'. rewrite Hent by assumption. destruct (Nat.eqb_spec k o); [contradiction|reflexivity].
      * apply (ks_weight_sum neg rho n all_true_b (fun q => v q o) Hne).
Qed.

(** ---- along one axis ---- *)

Lemma find_pos_one : forall a : nat, find_pos [a] a = 0%nat.
Proof. intros a. cbn. now rewrite Nat.eqb_refl. Qed.

Lemma spread_dims : forall (s : list nat) (a : nat), (a < length s)%nat ->
  incl [a] (seq 0 (length s)) /\
  (forall l, (l < length s)%nat -> existsb (Nat.eqb l) [a] = true -> In l [a]) /\
  (forall (A : Type) (c : A) l, In l [a] -> nth (find_pos [a] l) (shp (np_full1 (nth a s 0%nat) c)) 0%nat = nth l s 0%nat).
Proof.
  intros s a Ha. splits.
  - intros l [<-|[]]. apply in_seq. lia.
  - intros l Hl E. cbn in E. rewrite orb_false_r in E. apply Nat.eqb_eq in E. now left.
  - intros A c l [<-|[]]. rewrite find_pos_one. reflexivity.
Qed.

Lemma spread_spec : forall s a y, (a < length s)%nat -> shp y = delete [a] s ->
  shp (spread s a y) = s /\
  forall k, (k < size s)%nat -> dat (spread s a y) k = dat y (row_of s [a] k).
Proof.
  intros s a y Ha Hy. destruct (spread_dims s a Ha) as (H1 & H2 & H3).
  destruct (spread_einsum 0 1 Rplus Rmult Rplus_0_l s [a] [a] y (np_full1 (nth a s 0%nat) 1) Hy H1 H2 (H3 R 1))
    as [Hs Hg].
  split; [exact Hs|]. intros k Hk. specialize (Hg (unravel s k) (unravel_inb s k Hk)).
  unfold get in Hg. rewrite Hs, ravel_unravel in Hg by assumption.
  unfold spread, r_einsum. rewrite Hg, Hy. cbn [np_full1 dat]. unfold row_of. ring.
Qed.

Lemma spread_rows_spec : forall s a, (a < length s)%nat ->
  shp (spread_rows s a) = [size s] /\
  forall k, (k < size s)%nat -> dat (spread_rows s a) k = row_of s [a] k.
Proof.
  intros s a Ha. destruct (spread_dims s a Ha) as (H1 & H2 & H3).
  destruct (spread_einsum 0%nat 1%nat Nat.add Nat.mul Nat.add_0_l s [a] [a]
     (np_reshape (np_arange (size (delete [a] s))) (delete [a] s))
     (np_full1 (nth a s 0%nat) 1%nat) eq_refl H1 H2 (H3 nat 1%nat)) as [Hs Hg].
  unfold spread_rows. cbn [np_flatten shp dat]. unfold n_einsum. rewrite Hs. split; [reflexivity|].
  intros k Hk. specialize (Hg (unravel s k) (unravel_inb s k Hk)).
  unfold get in Hg. rewrite Hs, ravel_unravel in Hg by assumption.
  rewrite Hg. cbn [np_full1 np_reshape np_arange shp dat]. unfold row_of. lia.
Qed.

(** every position of the result has elements *)
Lemma row_inhabited : forall s a o, (a < length s)%nat -> (0 < nth a s 0)%nat ->
  (o < size (delete [a] s))%nat -> exists k, (k < size s)%nat /\ Nat.eqb (row_of s [a] k) o = true.
Proof.
  intros s a o Ha Hpos Ho.
  pose proof (unravel_inb (delete [a] s) o Ho) as Hi.
  pose proof (count_over_one s (fun _ => 0) a (unravel (delete [a] s) o) Ha Hi) as Hc.
  unfold count_over in Hc. cbn [shp] in Hc.
  destruct (existsb (fun k => Nat.eqb (row_of s [a] k) o) (seq 0 (size s))) eqn:E.
  - apply existsb_exists in E. destruct E as (k & Hk & E). apply in_seq in Hk.
    exists k. split; [lia|assumption].
  - exfalso. rewrite rsum_zero in Hc.
    + symmetry in Hc. revert Hc. apply not_0_INR. lia.
    + intros k Hk. unfold belongs. cbn [shp].
      destruct (list_eq_dec Nat.eq_dec _ _) as [Eb|]; [|reflexivity]. exfalso.
      rewrite <- delete_drop in Eb. apply (row_of_belongs s [a] k _ Hk Hi) in Eb.
      rewrite ravel_unravel in Eb by assumption.
      assert (Ht : existsb (fun k => Nat.eqb (row_of s [a] k) o) (seq 0 (size s)) = true).
      { apply existsb_exists. exists k. split; [apply in_seq; lia|]. now apply Nat.eqb_eq. }
      congruence.
Qed.

Definition in_row (s : list nat) (a o k : nat) : bool := Nat.eqb (row_of s [a] k) o.

Lemma axis_run_spec : forall neg rho s a x, (a < length s)%nat -> (0 < nth a s 0)%nat -> rho <> 0 ->
  exists y kept, axis_run neg rho a (Nd s x) = Some (y, kept) /\
    shp y = delete [a] s /\ shp kept = s /\
    (forall o, (o < size (delete [a] s))%nat ->
       dat y o = ks neg rho (size s) (in_row s a o) x) /\
    (forall k, (k < size s)%nat ->
       dat kept k = ks_weight neg rho (size s) (in_row s a (row_of s [a] k)) x k).
Proof.
  intros neg rho s a x Ha Hpos Hr. unfold axis_run, np_max_axis. cbn [shp].
  rewrite neg_if_shp. cbn [shp].
  destruct (Nat.eqb_spec (nth a s 0%nat) 0) as [E|_]; [lia|].
  set (gm := of_fun (delete [a] s) _).
  destruct (spread_spec s a gm Ha eq_refl) as [Hgs Hgd].
  set (ex := np_map (fun t => exp (rho * t)) (np_map2 Rminus (neg_if neg (Nd s x)) (spread s a gm))).
  assert (Hex : ex = Nd s (dat ex)).
  { unfold ex. destruct neg; reflexivity. }
  assert (Hexd : forall k, (k < size s)%nat ->
            dat ex k = exp (rho * (sgn neg * x k - dat gm (row_of s [a] k)))).
  { intros k Hk. unfold ex. cbn [np_map np_map2 dat]. rewrite neg_if_dat, Hgd by assumption. reflexivity. }
  set (sm := np_sum_axes ex [a]).
  assert (Hsm : shp sm = delete [a] s).
  { unfold sm. rewrite Hex. reflexivity. }
  assert (Hsmd : forall o, (o < size (delete [a] s))%nat ->
            dat sm o = bsum (size s) (in_row s a o) (fun k => exp (rho * (sgn neg * x k - dat gm o)))).
  { intros o Ho. unfold sm. rewrite Hex, np_sum_axes_dat by assumption.
    apply rsum_ext. intros k Hk. unfold in_row. destruct (Nat.eqb_spec (row_of s [a] k) o) as [E|]; [|reflexivity].
    rewrite Hexd by assumption. now rewrite E. }
  destruct (spread_spec s a sm Ha Hsm) as [Hss Hsd].
  eexists. eexists. split; [reflexivity|]. splits.
  - rewrite neg_if_shp. reflexivity.
  - exact Hss.
  - intros o Ho. rewrite neg_if_dat. cbn [np_map2 np_map dat]. rewrite Hsmd by assumption.
    rewrite (ks_shift (size s) (in_row s a o) (fun k => sgn neg * x k) rho (dat gm o) Hr
               (row_inhabited s a o Ha Hpos Ho)). reflexivity.
  - intros k Hk. cbn [np_map2 np_map dat]. rewrite Hsd by assumption.
    pose proof (row_of_lt s [a] k Hk) as Hrow.
    rewrite Hsmd, Hexd by assumption. unfold ks_weight.
    rewrite <- (ks_weight_shift (size s) (in_row s a (row_of s [a] k)) (fun k => sgn neg * x k) rho
                  (dat gm (row_of s [a] k)) k (row_inhabited s a _ Ha Hpos Hrow)).
    pose proof (esum_pos (size s) (in_row s a (row_of s [a] k))
       (fun k0 => rho * (sgn neg * x k0 - dat gm (row_of s [a] k))) (row_inhabited s a _ Ha Hpos Hrow)).
    field. split; lra.
Qed.

Lemma axis_coo : forall s a kept, (a < length s)%nat -> shp kept = s ->
  exists c, axis_partials_of s a kept = Some (Sparse c) /\
    coo_pattern_ok (size (delete [a] s)) (size s) c /\
    forall o i, (i < size s)%nat ->
      coo_entry c o i = if in_row s a o i then dat kept i else 0.
Proof.
  intros s a kept Ha Hs. destruct (spread_rows_spec s a Ha) as [Hr Hrd].
  unfold axis_partials_of. rewrite sparse_partials_vec with (n := size s);
    [|assumption|reflexivity|cbn [np_flatten shp]; now rewrite Hs].
  eexists. split; [reflexivity|]. split.
  - split; cbn [nnz rows cols].
    + intros k Hk. cbn [np_arange dat]. rewrite Hrd by assumption. split; [now apply row_of_lt|assumption].
    + intros k k' _ _ _ E. exact E.
  - intros o i Hi. unfold coo_entry. cbn [nnz rows cols vals np_arange np_flatten dat].
    rewrite rsum_single with (j := i).
    + rewrite Nat.eqb_refl, andb_true_r, Hrd by assumption. reflexivity.
    + assumption.
    + intros k Hk Hne. apply Nat.eqb_neq in Hne. now rewrite Hne, andb_false_r.
Qed.

Lemma elements_blist : forall s x a idx, inb (delete [a] s) idx ->
  elements_over [a] (Nd s x) idx = blist (size s) (in_row s a (ravel (delete [a] s) idx)) x.
Proof.
  intros s x a idx Hi. unfold elements_over, blist. cbn [dat shp]. f_equal.
  apply filter_ext_in. intros k Hk. apply in_seq in Hk. unfold belongs, in_row. cbn [shp].
  rewrite <- delete_drop.
  destruct (list_eq_dec Nat.eq_dec _ _) as [E|E]; symmetry.
  - apply Nat.eqb_eq. now apply row_of_belongs; [lia|assumption|].
  - apply Nat.eqb_neq. intros C. apply E. apply row_of_belongs in C; [assumption|lia|assumption].
Qed.

Theorem axis_ext_correct : forall neg rho s a,
  (length s <= 12)%nat -> (a < length s)%nat -> (0 < nth a s 0)%nat -> 0 < rho ->
  exists c, axis_ext neg rho s a = Some c /\
    c_ins c = [s] /\ c_out c = drop_axes [a] s /\
    correct c (ext_axis neg rho a) /\ convex_weights c.
Proof.
  intros neg rho s a Hlen Ha Hpos Hr. assert (Hr0 : rho <> 0) by lra. unfold axis_ext.
  rewrite (proj2 (Nat.leb_le _ _) Hlen).
  eexists. split; [reflexivity|]. split; [reflexivity|]. split; [apply delete_drop|]. split.
  - apply correct_intro with (F := fun v o => ks neg rho (size s) (in_row s a o) (v 0%nat)).
    + intros v. cbn [c_ins c_out c_compute]. change (inputs_of [s] v) with [Nd s (v 0%nat)].
      destruct (axis_run_spec neg rho s a (v 0%nat) Ha Hpos Hr0) as (y & kept & E & Hy & _ & Hd & _).
      cbn iota beta. rewrite E. rewrite assign_array by assumption.
      eexists. split; [reflexivity|]. cbn [shp dat]. splits; auto.
      exists (Nd s (v 0%nat)). split; [reflexivity|]. cbn [shp]. split; [apply delete_drop|].
      intros idx Hi. unfold get. cbn [shp dat]. rewrite Hd by now apply ravel_lt.
      rewrite elements_blist by assumption. apply ks_smooth; [assumption|].
      apply (row_inhabited s a _ Ha Hpos). now apply ravel_lt.
    + intros v p _ Hp. cbn [c_ins length] in Hp. replace p with 0%nat by lia.
      cbn [c_ins c_out c_partials nth]. change (inputs_of [s] v) with [Nd s (v 0%nat)].
      destruct (axis_run_spec neg rho s a (v 0%nat) Ha Hpos Hr0) as (y & kept & E & _ & Hk & _ & Hkd).
      cbn iota beta. rewrite E.
      destruct (axis_coo s a kept Ha Hk) as (c & Ec & Hok & Hent).
      exists (Sparse c). split; [exact Ec|]. split; [exact Hok|].
      intros o i Ho Hi. unfold partial_at. rewrite Hent by assumption.
      pose proof (ks_deriv neg rho (size s) (in_row s a o) (v 0%nat) i Hr0
                    (row_inhabited s a o Ha Hpos Ho) Hi) as H.
      eapply derivable_pt_lim_eq; [|eapply derivable_pt_lim_ext; [|exact H]].
      * cbn beta. destruct (in_row s a o i) eqn:Eb; [|reflexivity].
        rewrite Hkd by assumption. unfold in_row in Eb. apply Nat.eqb_eq in Eb. now rewrite Eb.
      * intros t. cbn beta. now rewrite set_op_same.
  - intros v. cbn [c_ins c_out c_partials length nth]. change (inputs_of [s] v) with [Nd s (v 0%nat)].
    destruct (axis_run_spec neg rho s a (v 0%nat) Ha Hpos Hr0) as (y & kept & E & _ & Hk & _ & Hkd).
    destruct (axis_coo s a kept Ha Hk) as (c & Ec & Hok & Hent).
    exists (fun _ => Sparse c). cbn [jac_entry]. splits.
    + intros p Hp. rewrite E. exact Ec.
    + intros p o i Hp Ho Hi. replace p with 0%nat in * by lia. cbn [nth] in *. rewrite Hent by assumption.
      destruct (in_row s a o i) eqn:Eb; [|lra]. rewrite Hkd by assumption.
      apply ks_weight_nonneg. apply (row_inhabited s a _ Ha Hpos). now apply row_of_lt.
    + intros o Ho. cbn [rsum]. rewrite Rplus_0_l.
      transitivity (bsum (size s) (in_row s a o) (ks_weight neg rho (size s) (in_row s a o) (v 0%nat))).
      * apply rsum_ext. intros i Hi. rewrite Hent by assumption.
        destruct (in_row s a o i) eqn:Eb; [|reflexivity]. rewrite Hkd by assumption.
        unfold in_row in Eb. apply Nat.eqb_eq in Eb. now rewrite Eb.
      * apply ks_weight_sum. now apply (row_inhabited s a o Ha Hpos).
Qed.

(** ---- all entries ---- *)

Lemma scalar_run_spec : forall neg rho s x, (0 < size s)%nat -> rho <> 0 ->
  exists y kept, scalar_run neg rho (Nd s x) = Some (scalar y, kept) /\
    y = ks neg rho (size s) all_true_b x /\ shp kept = s /\
    forall k, dat kept k = ks_weight neg rho (size s) all_true_b x k.
Proof.
  intros neg rho s x Hpos Hr. unfold scalar_run, np_max_all.
  set (con := if neg then np_map (fun t => -1 * t) (Nd s x) else Nd s x).
  assert (Hcs : shp con = s) by (unfold con; now destruct neg).
  assert (Hcd : forall k, dat con k = sgn neg * x k).
  { intros k. unfold con. destruct neg; cbn; ring. }
  rewrite Hcs. destruct (Nat.eqb_spec (size s) 0) as [E|_]; [lia|].
  set (g := rmax (size s) (dat con)).
  pose proof (nonempty_all (size s) Hpos) as Hne.
  assert (Hsum : dat (np_sum (np_map (fun t => exp (rho * (t - g))) con)) 0%nat =
                 bsum (size s) all_true_b (fun k => exp (rho * (sgn neg * x k - g)))).
  { cbn [np_sum dat np_map shp]. rewrite Hcs. apply rsum_ext. intros k _. cbn [all_true_b]. now rewrite Hcd. }
  pose proof (esum_pos (size s) all_true_b (fun k => rho * (sgn neg * x k - g)) Hne) as Hp.
  rewrite Hsum. eexists. eexists. split; [reflexivity|]. splits.
  - rewrite (ks_shift (size s) all_true_b (fun k => sgn neg * x k) rho g Hr Hne). unfold ks.
    destruct neg; cbn [sgn]; ring.
  - cbn [np_map shp]. exact Hcs.
  - intros k. cbn [np_map dat]. rewrite Hcd. unfold ks_weight.
    rewrite <- (ks_weight_shift (size s) all_true_b (fun k => sgn neg * x k) rho g k Hne).
    field. split; lra.
Qed.

Theorem scalar_ext_correct : forall neg rho s, (0 < size s)%nat -> 0 < rho ->
  correct (scalar_ext neg rho s) (ext_all neg rho) /\ convex_weights (scalar_ext neg rho s).
Proof.
  intros neg rho s Hpos Hr. assert (Hr0 : rho <> 0) by lra.
  pose proof (nonempty_all (size s) Hpos) as Hne. split.
  - apply correct_intro with (F := fun v o => ks neg rho (size s) all_true_b (v 0%nat)).
    + intros v. cbn [scalar_ext c_ins c_out c_compute]. change (inputs_of [s] v) with [Nd s (v 0%nat)].
      destruct (scalar_run_spec neg rho s (v 0%nat) Hpos Hr0) as (y & kept & E & Hy & _).
      cbn iota beta. rewrite E. cbn [assign_output scalar shp size Nat.eqb].
      eexists. split; [reflexivity|]. cbn [np_reshape shp dat]. splits; auto.
      exists (Nd s (v 0%nat)). split; [reflexivity|]. split; [reflexivity|]. cbn [get dat shp].
      rewrite Hy, <- blist_all. now apply ks_smooth.
    + intros v p _ Hp. cbn [scalar_ext c_ins length] in Hp. replace p with 0%nat by lia.
      cbn [scalar_ext c_ins c_out c_partials nth]. change (inputs_of [s] v) with [Nd s (v 0%nat)].
      destruct (scalar_run_spec neg rho s (v 0%nat) Hpos Hr0) as (y & kept & E & Hy & Hk & Hkd).
      cbn iota beta. rewrite E. eexists. split; [reflexivity|]. split.
      * cbn [np_flatten shp size]. rewrite Hk. lia.
      * intros o i Ho Hi. cbn [size] in Ho. replace o with 0%nat by lia.
        unfold dense_entry, partial_at. cbn [np_flatten dat Nat.mul Nat.add]. rewrite Hkd.
        pose proof (ks_deriv neg rho (size s) all_true_b (v 0%nat) i Hr0 Hne Hi) as H.
        unfold all_true_b in H at 2. exact H.
  - intros v. cbn [scalar_ext c_ins c_out c_partials length nth]. change (inputs_of [s] v) with [Nd s (v 0%nat)].
    destruct (scalar_run_spec neg rho s (v 0%nat) Hpos Hr0) as (y & kept & E & Hy & Hk & Hkd).
    exists (fun _ => Dense (np_flatten kept)). cbn [jac_entry]. splits.
    + intros p Hp. now rewrite E.
    + intros p o i Hp Ho Hi. unfold dense_entry. cbn [np_flatten dat]. rewrite Hkd. now apply ks_weight_nonneg.
    + intros o Ho. cbn [size] in Ho. replace o with 0%nat by lia. cbn [rsum nth]. rewrite Rplus_0_l.
      rewrite <- (ks_weight_sum neg rho (size s) all_true_b (v 0%nat) Hne).
      apply rsum_ext. intros i Hi. unfold dense_entry. cbn [np_flatten dat Nat.mul Nat.add all_true_b]. apply Hkd.
Qed.
