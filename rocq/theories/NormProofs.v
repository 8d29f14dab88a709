(** p-norms: values, derivatives, accepted orders; kept values. *)
From Coq Require Import Reals Lra Lia Arith List Bool ZArith.
From Verif Require Import PyBase RSum NdArray NdEinsum Component CompReorder CompReduce CompElem CompExtremum
  CompNorm JacSpec JacOpen SpecReduce SpecExtremum SpecNorm ReduceProofs ArithProofs ExpandEinsum KsMath ExtremumProofs.
Import ListNotations.
Local Open Scope R_scope.

(** ---- the function ---- *)

Definition order (m : nat) : Z := Z.of_nat (2 * m).

Definition nsum (m n : nat) (b : nat -> bool) (x : nat -> R) : R :=
  rsum n (fun k => if b k then x k ^ (2 * m) else 0).

Definition pn (m n : nat) (b : nat -> bool) (x : nat -> R) : R :=
  np_pow (nsum m n b x) (EReal (1 / IZR (order m))).

Lemma even_pow_nonneg : forall x m, 0 <= x ^ (2 * m).
Proof. intros x m. rewrite pow_mult. apply pow_le. nra. Qed.

Lemma even_pow_abs : forall x m, Rabs x ^ (2 * m) = x ^ (2 * m).
Proof.
  intros x m. rewrite !pow_mult. f_equal. cbn. rewrite !Rmult_1_r.
  rewrite <- Rabs_mult. apply Rabs_pos_eq. nra.
Qed.

Lemma nsum_nonneg : forall m n b x, 0 <= nsum m n b x.
Proof.
  intros m n b x. apply rsum_nonneg. intros k _. destruct (b k); [apply even_pow_nonneg|lra].
Qed.

Lemma nsum_pos : forall m n b x, (exists k, (k < n)%nat /\ b k = true /\ x k <> 0) -> 0 < nsum m n b x.
Proof.
  intros m n b x (k & Hk & Hb & Hx). unfold nsum.
  assert (Hnn : forall j, (j < n)%nat -> 0 <= (if b j then x j ^ (2 * m) else 0)).
  { intros j _. destruct (b j); [apply even_pow_nonneg|lra]. }
  pose proof (rsum_ge_term n (fun k => if b k then x k ^ (2 * m) else 0) k Hk Hnn) as H.
  cbn beta in H. rewrite Hb in H. pose proof (pow_nonzero (x k) (2 * m) Hx).
  pose proof (even_pow_nonneg (x k) m). lra.
Qed.

Lemma order_INR : forall m, IZR (order m) = INR (2 * m).
Proof. intros m. unfold order. now rewrite <- INR_IZR_INZ. Qed.

Lemma order_pos : forall m, (1 <= m)%nat -> 0 < IZR (order m).
Proof. intros m H. rewrite order_INR. apply lt_0_INR. lia. Qed.

Lemma pn_value : forall m n b x, (1 <= m)%nat -> norm_of m n b x (pn m n b x).
Proof.
  intros m n b x Hm. unfold norm_of, pn. cbn [np_pow].
  change (rsum n (fun k => if b k then x k ^ (2 * m) else 0)) with (nsum m n b x).
  pose proof (nsum_nonneg m n b x) as H0.
  destruct (Rlt_dec 0 (nsum m n b x)) as [Hp|Hn].
  - split; [left; apply exp_pos|].
    rewrite <- Rpower_pow by apply exp_pos. rewrite Rpower_mult, order_INR.
    replace (1 / INR (2 * m) * INR (2 * m)) with 1.
    + now apply Rpower_1.
    + field. apply not_0_INR. lia.
  - split; [lra|]. rewrite pow_ne_zero by lia. lra.
Qed.

Lemma pn_ext : forall m n b x x', (forall k, (k < n)%nat -> b k = true -> x k = x' k) ->
  pn m n b x = pn m n b x'.
Proof.
  intros m n b x x' H. unfold pn. f_equal. apply rsum_ext. intros k Hk.
  destruct (b k) eqn:E; [|reflexivity]. now rewrite H.
Qed.

(** the declared derivative *)
Definition pn_d (m n : nat) (b : nat -> bool) (x : nat -> R) (i : nat) : R :=
  powerRZ (pn m n b x) (1 - order m) * powerRZ (x i) (order m - 1).

Lemma pn_deriv : forall m n b x i, (1 <= m)%nat -> (i < n)%nat -> 0 < nsum m n b x ->
  derivable_pt_lim (fun t => pn m n b (upd x i t)) (x i) (if b i then pn_d m n b x i else 0).
Proof.
  intros m n b x i Hm Hi Hpos.
  assert (Hs : derivable_pt_lim (fun t => nsum m n b (upd x i t)) (x i)
                 (if b i then INR (2 * m) * x i ^ (2 * m - 1) else 0)).
  { unfold nsum.
    eapply derivable_pt_lim_eq; [|apply derivable_pt_lim_rsum with
        (l := fun k => if Nat.eqb k i then (if b i then INR (2 * m) * x i ^ (2 * m - 1) else 0) else 0)].
    - rewrite (rsum_delta n (fun _ => if b i then INR (2 * m) * x i ^ (2 * m - 1) else 0)) by assumption.
      reflexivity.
    - intros k Hk. unfold upd. destruct (Nat.eqb_spec k i) as [->|Hne].
      + destruct (b i).
        * eapply derivable_pt_lim_eq; [|apply derivable_pt_lim_pow].
          f_equal. f_equal. lia.
        * apply derivable_pt_lim_const.
      + apply derivable_pt_lim_const. }
  assert (E0 : nsum m n b (upd x i (x i)) = nsum m n b x).
  { apply rsum_ext. intros k _. unfold upd. destruct (Nat.eqb_spec k i) as [->|]; reflexivity. }
  assert (Ho : derivable_pt_lim (fun t => np_pow t (EReal (1 / IZR (order m)))) (nsum m n b (upd x i (x i)))
            (1 / IZR (order m) * np_pow (nsum m n b x) (EReal (1 / IZR (order m) - 1)))).
  { rewrite E0. exact (np_pow_deriv (EReal (1 / IZR (order m))) (nsum m n b x) Hpos). }
  pose proof (derivable_pt_lim_comp (fun t => nsum m n b (upd x i t)) _ (x i) _ _ Hs Ho) as H.
  eapply derivable_pt_lim_eq; [|eapply derivable_pt_lim_ext; [|exact H]]; [|intros t; reflexivity].
  cbn beta. destruct (b i) eqn:Eb; [|ring].
  unfold pn_d, pn. cbn [np_pow]. destruct (Rlt_dec 0 (nsum m n b x)); [|contradiction].
  rewrite (powerRZ_Rpower (Rpower (nsum m n b x) (1 / IZR (order m)))) by apply exp_pos.
  rewrite Rpower_mult.
  assert (Eo : IZR (1 - order m) = 1 - IZR (order m)) by now rewrite minus_IZR.
  rewrite Eo. pose proof (order_pos m Hm) as Hop.
  replace (1 / IZR (order m) * (1 - IZR (order m))) with (1 / IZR (order m) - 1) by (field; lra).
  replace (order m - 1)%Z with (Z.of_nat (2 * m - 1)) by (unfold order; lia).
  rewrite <- pow_powerRZ, <- order_INR. field. lra.
Qed.

(** ---- pow on arrays ---- *)

Lemma pow_def_int : forall x z, (x <> 0 \/ (0 <= z)%Z) -> pow_defined x (EInt z) = true.
Proof.
  intros x z [H|H]; cbn [pow_defined].
  - destruct (is_zero x) eqn:E; [|reflexivity]. apply is_zero_spec in E. contradiction.
  - replace (z <? 0)%Z with false by (symmetry; apply Z.ltb_ge; lia). now rewrite andb_false_r.
Qed.

Lemma pow_def_root : forall x r, 0 <= x -> 0 < r -> pow_defined x (EReal r) = true.
Proof.
  intros x r Hx Hr. cbn [pow_defined]. destruct (Rlt_dec 0 x); [reflexivity|].
  replace x with 0 by lra. unfold is_zero. destruct (Req_EM_T 0 0); [|congruence].
  destruct (Rlt_dec 0 r); [reflexivity|contradiction].
Qed.

Lemma np_pow_even : forall x m, np_pow x (EInt (order m)) = x ^ (2 * m).
Proof. intros x m. cbn [np_pow]. unfold order. now rewrite <- pow_powerRZ. Qed.

Lemma pn_nonzero : forall m n b x, 0 < nsum m n b x -> pn m n b x <> 0.
Proof.
  intros m n b x H. unfold pn. cbn [np_pow]. destruct (Rlt_dec 0 (nsum m n b x)); [|contradiction].
  pose proof (exp_pos (1 / IZR (order m) * ln (nsum m n b x))). unfold Rpower. lra.
Qed.

(** ---- all entries ---- *)

Lemma np_norm_pn : forall m s x, np_norm (order m) (Nd s x) = pn m (size s) all_true_b x.
Proof.
  intros m s x. unfold np_norm, pn. f_equal. cbn [np_sum np_map dat shp]. unfold nsum.
  apply rsum_ext. intros k _. rewrite np_pow_even, even_pow_abs. reflexivity.
Qed.

Theorem norm_comp_correct : forall m s, (1 <= m)%nat ->
  computes (norm_comp (order m) s) (norm_meaning m) /\
  correct_within (norm_nonzero s) (norm_comp (order m) s) (norm_meaning m).
Proof.
  intros m s Hm.
  assert (Hv : forall v, exists y, c_compute (norm_comp (order m) s) (inputs_of [s] v) = Some y /\
            shp y = [1%nat] /\ norm_meaning m (inputs_of [s] v) y /\
            forall o, dat y o = pn m (size s) all_true_b (v 0%nat)).
  { intros v. change (inputs_of [s] v) with [Nd s (v 0%nat)].
    cbn [norm_comp c_compute]. unfold norm_run. rewrite np_norm_pn.
    cbn [assign_output scalar shp size Nat.eqb].
    eexists. split; [reflexivity|]. split; [reflexivity|]. split; [|reflexivity].
    exists (Nd s (v 0%nat)). split; [reflexivity|]. split; [reflexivity|].
    cbn [shp dat get np_reshape]. exact (pn_value m (size s) all_true_b (v 0%nat) Hm). }
  split.
  - intros v. destruct (Hv v) as (y & E & Hs & Hme & _). exists y. auto.
  - apply correct_within_intro with (F := fun v o => pn m (size s) all_true_b (v 0%nat)).
    + intros v p i (k & Hk & Hne) Hp _. cbn [norm_comp c_ins length] in Hp. replace p with 0%nat by lia.
      exists (Rabs (v 0%nat k)). split; [now apply Rabs_pos_lt|].
      intros t Ht. exists k. split; [assumption|]. rewrite set_op_same. unfold upd.
      destruct (Nat.eqb_spec k i) as [->|]; [|assumption].
      intros ->. rewrite Rminus_0_l, Rabs_Ropp in Ht. lra.
    + intros v Hd. destruct (Hv v) as (y & E & Hs & Hme & HF). exists y. auto.
    + intros v p (k & Hk & Hne) Hp. cbn [norm_comp c_ins length] in Hp. replace p with 0%nat by lia.
      cbn [norm_comp c_ins c_out c_partials nth]. change (inputs_of [s] v) with [Nd s (v 0%nat)].
      cbn iota beta. unfold norm_run, norm_partials. rewrite np_norm_pn.
      assert (Hpos : 0 < nsum m (size s) all_true_b (v 0%nat)).
      { apply nsum_pos. exists k. auto. }
      rewrite !np_power_ok.
      * eexists. split; [reflexivity|]. split; [cbn [np_map shp size]; lia|].
        intros o i Ho Hi. cbn [size] in Ho. replace o with 0%nat by lia.
        unfold dense_entry, partial_at. cbn [np_map dat scalar Nat.mul Nat.add np_pow].
        pose proof (pn_deriv m (size s) all_true_b (v 0%nat) i Hm Hi Hpos) as H.
        unfold all_true_b in H at 2. exact H.
      * intros j _. apply pow_def_int. right. unfold order. lia.
      * intros j _. apply pow_def_int. left. cbn [scalar dat]. now apply pn_nonzero.
Qed.

(** ---- along axes ---- *)

Definition in_rows (s axes : list nat) (o k : nat) : bool := Nat.eqb (row_of s axes k) o.

Lemma belongs_row : forall s x axes idx k, (k < size s)%nat -> inb (delete axes s) idx ->
  belongs axes (Nd s x) idx k = in_rows s axes (ravel (delete axes s) idx) k.
Proof.
  intros s x axes idx k Hk Hi. unfold belongs, in_rows. cbn [shp]. rewrite <- delete_drop.
  destruct (list_eq_dec Nat.eq_dec _ _) as [E|E]; symmetry.
  - apply Nat.eqb_eq. now apply row_of_belongs.
  - apply Nat.eqb_neq. intros C. apply E. now apply row_of_belongs in C.
Qed.

Lemma axis_norm_run_spec : forall m s axes x, (1 <= m)%nat -> NoDup axes ->
  exists y, axis_norm_run (order m) axes (Nd s x) = Some y /\ shp y = delete axes s /\
    forall o, (o < size (delete axes s))%nat -> dat y o = pn m (size s) (in_rows s axes o) x.
Proof.
  intros m s axes x Hm Hd. unfold axis_norm_run.
  rewrite np_power_ok by (intros k _; apply pow_def_int; right; unfold order; lia).
  unfold sum_axes_opt. rewrite nodupb_true by assumption. cbn [np_map shp dat].
  assert (Hdat : forall o, (o < size (delete axes s))%nat ->
    dat (np_sum_axes (Nd s (fun k => np_pow (x k) (EInt (order m)))) axes) o = nsum m (size s) (in_rows s axes o) x).
  { intros o Ho. rewrite np_sum_axes_dat by assumption. apply rsum_ext. intros k _.
    unfold in_rows. now rewrite np_pow_even. }
  rewrite np_power_ok.
  - eexists. split; [reflexivity|]. split; [reflexivity|]. intros o Ho.
    cbn [np_map dat]. rewrite Hdat by assumption. reflexivity.
  - intros o Ho. apply pow_def_root.
    + rewrite Hdat by exact Ho. apply nsum_nonneg.
    + pose proof (order_pos m Hm). unfold Rdiv. rewrite Rmult_1_l. now apply Rinv_0_lt_compat.
Qed.

Lemma axis_norm_einsum : forall s axes a b, shp a = delete axes s -> shp b = s ->
  let e := r_einsum [(delete axes (seq 0 (length s)), a); (seq 0 (length s), b)] (seq 0 (length s)) in
  shp e = s /\ forall k, (k < size s)%nat -> dat e k = dat a (row_of s axes k) * dat b k.
Proof.
  intros s axes a b Ha Hb.
  destruct (spread_einsum 0 1 Rplus Rmult Rplus_0_l s axes (seq 0 (length s)) a b Ha) as [Hs Hg].
  - intros l Hl. exact Hl.
  - intros l Hl _. apply in_seq. lia.
  - intros l Hl. apply in_seq in Hl. rewrite Hb. f_equal.
    pose proof (find_pos_nth (seq 0 (length s)) l 0 (seq_NoDup (length s) 0)) as H.
    rewrite seq_length, seq_nth in H by lia. apply H. lia.
  - cbn zeta in *. unfold r_einsum. split; [exact Hs|]. intros k Hk.
    specialize (Hg (unravel s k) (unravel_inb s k Hk)). unfold get in Hg.
    rewrite Hs, ravel_unravel in Hg by assumption. rewrite Hg, Ha, Hb.
    rewrite <- (unravel_length s k), map_nth_seq.
    rewrite ravel_unravel by assumption. unfold row_of. ring.
Qed.

Theorem axis_norm_correct : forall m s axes, (1 <= m)%nat -> NoDup axes ->
  computes (axis_norm_comp (order m) s axes) (axis_norm_meaning m axes) /\
  correct_within (axis_norm_nonzero s axes) (axis_norm_comp (order m) s axes) (axis_norm_meaning m axes).
Proof.
  intros m s axes Hm Hd.
  assert (Hv : forall v, exists y, c_compute (axis_norm_comp (order m) s axes) (inputs_of [s] v) = Some y /\
            shp y = delete axes s /\ axis_norm_meaning m axes (inputs_of [s] v) y /\
            forall o, (o < size (delete axes s))%nat -> dat y o = pn m (size s) (in_rows s axes o) (v 0%nat)).
  { intros v. change (inputs_of [s] v) with [Nd s (v 0%nat)]. cbn [axis_norm_comp c_compute].
    destruct (axis_norm_run_spec m s axes (v 0%nat) Hm Hd) as (y & E & Hs & HF).
    rewrite E, assign_array by assumption. eexists. split; [reflexivity|].
    cbn [shp dat]. split; [reflexivity|]. split; [|assumption].
    exists (Nd s (v 0%nat)). split; [reflexivity|]. cbn [shp]. split; [apply delete_drop|].
    intros idx Hi. unfold get. cbn [shp dat]. rewrite HF by now apply ravel_lt.
    pose proof (pn_value m (size s) (in_rows s axes (ravel (delete axes s) idx)) (v 0%nat) Hm) as [H1 H2].
    split; [exact H1|]. rewrite H2. apply rsum_ext. intros k Hk. now rewrite belongs_row. }
  split.
  - intros v. destruct (Hv v) as (y & E & Hs & Hme & _). exists y. auto.
  - apply correct_within_intro with (F := fun v o => pn m (size s) (in_rows s axes o) (v 0%nat)).
    + intros v p i Hz Hp _. cbn [axis_norm_comp c_ins length] in Hp. replace p with 0%nat by lia.
      exists (if Req_EM_T (v 0%nat i) 0 then 1 else Rabs (v 0%nat i)).
      split; [destruct (Req_EM_T (v 0%nat i) 0); [lra|now apply Rabs_pos_lt]|].
      intros t Ht idx Hi. destruct (Hz idx Hi) as (k & Hk & Hb & Hne). exists k.
      split; [assumption|]. split; [exact Hb|]. rewrite set_op_same. unfold upd.
      destruct (Nat.eqb_spec k i) as [->|]; [|assumption].
      destruct (Req_EM_T (v 0%nat i) 0); [contradiction|].
      intros ->. rewrite Rminus_0_l, Rabs_Ropp in Ht. lra.
    + intros v Hz. destruct (Hv v) as (y & E & Hs & Hme & HF). exists y. auto.
    + intros v p Hz Hp. cbn [axis_norm_comp c_ins length] in Hp. replace p with 0%nat by lia.
      cbn [axis_norm_comp c_ins c_out c_partials nth]. change (inputs_of [s] v) with [Nd s (v 0%nat)].
      destruct (axis_norm_run_spec m s axes (v 0%nat) Hm Hd) as (y & E & Hs & HF).
      cbn iota beta. rewrite E.
      assert (Hpos : forall o, (o < size (delete axes s))%nat -> 0 < nsum m (size s) (in_rows s axes o) (v 0%nat)).
      { intros o Ho. apply nsum_pos. pose proof (unravel_inb (delete axes s) o Ho) as Hi.
        destruct (Hz (unravel (delete axes s) o)) as (k & Hk & Hb & Hne); [now rewrite <- delete_drop|].
        exists k. rewrite belongs_row, ravel_unravel in Hb by assumption. auto. }
      unfold axis_norm_partials. rewrite !np_power_ok.
      * destruct (axis_norm_einsum s axes (np_map (fun t => np_pow t (EInt (1 - order m))) y)
                    (np_map (fun t => np_pow t (EInt (order m - 1))) (Nd s (v 0%nat))) Hs eq_refl) as [Hes Hed].
        rewrite sparse_partials_vec with (n := size s);
          [|reflexivity|reflexivity|cbn [np_flatten shp]; now rewrite Hes].
        eexists. split; [reflexivity|]. cbn [axis_rows np_arange np_flatten dat shp].
        split; [exact (axis_ok s axes 0)|].
        intros o i Ho Hi. unfold partial_at, coo_entry. cbn [nnz rows cols vals].
        rewrite rsum_single with (j := i).
        -- rewrite Nat.eqb_refl, andb_true_r, Hed by assumption.
           pose proof (pn_deriv m (size s) (in_rows s axes o) (v 0%nat) i Hm Hi (Hpos o Ho)) as H.
           eapply derivable_pt_lim_eq; [|eapply derivable_pt_lim_ext; [|exact H]].
           ++ unfold in_rows at 1. change (ravel (delete axes s) (delete axes (unravel s i))) with (row_of s axes i).
              destruct (Nat.eqb_spec (row_of s axes i) o) as [<-|]; [|reflexivity].
              cbn [np_map dat np_pow]. rewrite HF by assumption. reflexivity.
           ++ intros t. cbn beta. now rewrite set_op_same.
        -- assumption.
        -- intros k Hk Hne. apply Nat.eqb_neq in Hne. now rewrite Hne, andb_false_r.
      * intros j _. apply pow_def_int. right. unfold order. lia.
      * intros o Ho. rewrite Hs in Ho. apply pow_def_int. left. rewrite HF by assumption.
        apply pn_nonzero. now apply Hpos.
Qed.
