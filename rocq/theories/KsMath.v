(** The Kreisselmeier-Steinhauser function: 1/rho * ln (sum of exp (rho x)). *)
From Coq Require Import Reals Lra Lia Arith List Bool.
From Verif Require Import PyBase RSum JacSpec SpecExtremum.
Import ListNotations.
Local Open Scope R_scope.

(** the sum over the [k < n] selected by [b] *)
Definition bsum (n : nat) (b : nat -> bool) (f : nat -> R) : R :=
  rsum n (fun k => if b k then f k else 0).

Lemma bsum_ext : forall n b f g, (forall k, (k < n)%nat -> b k = true -> f k = g k) ->
  bsum n b f = bsum n b g.
Proof. intros n b f g H. apply rsum_ext. intros k Hk. destruct (b k) eqn:E; auto. Qed.

Lemma bsum_scal : forall n b c f, bsum n b (fun k => c * f k) = c * bsum n b f.
Proof.
  intros n b c f. unfold bsum. rewrite <- rsum_scal. apply rsum_ext. intros k _. destruct (b k); lra.
Qed.

Lemma bsum_le : forall n b f g, (forall k, (k < n)%nat -> b k = true -> f k <= g k) ->
  bsum n b f <= bsum n b g.
Proof. intros n b f g H. apply rsum_le. intros k Hk. destruct (b k) eqn:E; [auto|lra]. Qed.

Lemma bsum_term : forall n b f j, (j < n)%nat -> b j = true ->
  (forall k, (k < n)%nat -> 0 <= f k) -> f j <= bsum n b f.
Proof.
  intros n b f j Hj Hb Hf. unfold bsum.
  pose proof (rsum_ge_term n (fun k => if b k then f k else 0) j Hj) as H.
  cbn beta in H. rewrite Hb in H. apply H. intros k Hk. destruct (b k); [auto|lra].
Qed.

(** the selected numbers as a list *)
Definition blist (n : nat) (b : nat -> bool) (f : nat -> R) : list R :=
  map f (filter b (seq 0 n)).

Lemma rlist_sum_app : forall l m, rlist_sum (l ++ m) = rlist_sum l + rlist_sum m.
Proof. unfold rlist_sum. induction l as [|x l IH]; intros m; cbn [app fold_right]; [lra|rewrite IH; lra]. Qed.

Lemma blist_S : forall n b f,
  blist (S n) b f = blist n b f ++ (if b n then [f n] else []).
Proof.
  intros n b f. unfold blist. rewrite seq_S, filter_app, map_app. cbn [filter plus].
  destruct (b n); reflexivity.
Qed.

Lemma blist_sum : forall n b f, rlist_sum (blist n b f) = bsum n b f.
Proof.
  induction n as [|n IH]; intros b f; [reflexivity|].
  rewrite blist_S, rlist_sum_app, IH. unfold bsum. cbn [rsum]. destruct (b n); unfold rlist_sum; cbn [fold_right]; lra.
Qed.

Lemma blist_map : forall n b f g, map g (blist n b f) = blist n b (fun k => g (f k)).
Proof. intros. unfold blist. now rewrite map_map. Qed.

Lemma blist_length : forall n b f, INR (length (blist n b f)) = bsum n b (fun _ => 1).
Proof.
  induction n as [|n IH]; intros b f; [reflexivity|].
  rewrite blist_S, app_length, plus_INR, IH. unfold bsum. cbn [rsum]. destruct (b n); cbn; lra.
Qed.

Lemma blist_In : forall n b f x, In x (blist n b f) <-> exists k, (k < n)%nat /\ b k = true /\ x = f k.
Proof.
  intros n b f x. unfold blist. rewrite in_map_iff. split.
  - intros (k & E & Hk). apply filter_In in Hk. destruct Hk as [Hk Hb]. apply in_seq in Hk.
    exists k. splits; [lia|assumption|now symmetry].
  - intros (k & Hk & Hb & ->). exists k. split; [reflexivity|]. apply filter_In. split; [|assumption].
    apply in_seq. lia.
Qed.

(** a largest selected number exists *)
Lemma bmax_exists : forall n b (f : nat -> R), (exists k, (k < n)%nat /\ b k = true) ->
  exists j, (j < n)%nat /\ b j = true /\ forall k, (k < n)%nat -> b k = true -> f k <= f j.
Proof.
  induction n as [|n IH]; intros b f (k & Hk & Hb); [lia|].
  destruct (existsb b (seq 0 n)) eqn:E.
  - apply existsb_exists in E. destruct E as (i & Hi & Hbi). apply in_seq in Hi.
    destruct (IH b f) as (j & Hj & Hbj & Hmax); [exists i; split; [lia|assumption]|].
    destruct (b n) eqn:Ebn.
    + destruct (Rle_dec (f n) (f j)) as [Hle|Hgt].
      * exists j. splits; [lia|assumption|]. intros q Hq Hbq.
        destruct (Nat.eq_dec q n) as [->|]; [assumption|]. apply Hmax; [lia|assumption].
      * exists n. splits; [lia|assumption|]. intros q Hq Hbq.
        destruct (Nat.eq_dec q n) as [->|]; [lra|].
        pose proof (Hmax q ltac:(lia) Hbq). lra.
    + exists j. splits; [lia|assumption|]. intros q Hq Hbq.
      destruct (Nat.eq_dec q n) as [->|]; [congruence|]. apply Hmax; [lia|assumption].
  - assert (Hn : forall i, (i < n)%nat -> b i = false).
    { intros i Hi. destruct (b i) eqn:Ei; [|reflexivity].
      rewrite <- E. symmetry. apply existsb_exists. exists i. split; [apply in_seq; lia|assumption]. }
    assert (k = n).
    { destruct (Nat.eq_dec k n); [assumption|]. rewrite Hn in Hb by lia. discriminate. }
    subst k. exists n. splits; [lia|assumption|]. intros q Hq Hbq.
    destruct (Nat.eq_dec q n) as [->|]; [lra|]. rewrite Hn in Hbq by lia. discriminate.
Qed.

Lemma esum_pos : forall n b (f : nat -> R), (exists k, (k < n)%nat /\ b k = true) ->
  0 < bsum n b (fun k => exp (f k)).
Proof.
  intros n b f (k & Hk & Hb).
  apply Rlt_le_trans with (exp (f k)); [apply exp_pos|].
  apply (bsum_term n b (fun k => exp (f k)) k Hk Hb). intros. apply Rlt_le, exp_pos.
Qed.

(** the value does not depend on the number subtracted in the exponents *)
Lemma ks_shift : forall n b (f : nat -> R) rho m, rho <> 0 -> (exists k, (k < n)%nat /\ b k = true) ->
  m + 1 / rho * ln (bsum n b (fun k => exp (rho * (f k - m)))) =
  1 / rho * ln (bsum n b (fun k => exp (rho * f k))).
Proof.
  intros n b f rho m Hr Hb.
  assert (E : bsum n b (fun k => exp (rho * f k)) =
              exp (rho * m) * bsum n b (fun k => exp (rho * (f k - m)))).
  { rewrite <- bsum_scal. apply bsum_ext. intros k _ _. rewrite <- exp_plus. f_equal. ring. }
  rewrite E, ln_mult, ln_exp; [|apply exp_pos|apply (esum_pos n b (fun k => rho * (f k - m)) Hb)].
  field. assumption.
Qed.

(** weights: subtracting [m] does not change them either *)
Lemma ks_weight_shift : forall n b (f : nat -> R) rho m i, (exists k, (k < n)%nat /\ b k = true) ->
  exp (rho * (f i - m)) / bsum n b (fun k => exp (rho * (f k - m))) =
  exp (rho * f i) / bsum n b (fun k => exp (rho * f k)).
Proof.
  intros n b f rho m i Hb.
  pose proof (esum_pos n b (fun k => rho * (f k - m)) Hb) as Hp.
  assert (E : bsum n b (fun k => exp (rho * f k)) =
              exp (rho * m) * bsum n b (fun k => exp (rho * (f k - m)))).
  { rewrite <- bsum_scal. apply bsum_ext. intros k _ _. rewrite <- exp_plus. f_equal. ring. }
  rewrite E. replace (rho * f i) with (rho * m + rho * (f i - m)) by ring. rewrite exp_plus.
  pose proof (exp_pos (rho * m)). field. split; lra.
Qed.

(** the function: [neg] turns the maximum into the minimum *)
Definition sgn (neg : bool) : R := if neg then -1 else 1.

Definition ks (neg : bool) (rho : R) (n : nat) (b : nat -> bool) (x : nat -> R) : R :=
  sgn neg * (1 / rho * ln (bsum n b (fun k => exp (rho * (sgn neg * x k))))).

Definition ks_weight (neg : bool) (rho : R) (n : nat) (b : nat -> bool) (x : nat -> R) (i : nat) : R :=
  exp (rho * (sgn neg * x i)) / bsum n b (fun k => exp (rho * (sgn neg * x k))).

Lemma ks_ext : forall neg rho n b x x', (forall k, (k < n)%nat -> b k = true -> x k = x' k) ->
  ks neg rho n b x = ks neg rho n b x'.
Proof.
  intros neg rho n b x x' H. unfold ks. do 3 f_equal. apply bsum_ext. intros k Hk Hb. now rewrite H.
Qed.

Lemma ks_smooth : forall neg rho n b x, 0 < rho -> (exists k, (k < n)%nat /\ b k = true) ->
  smooth neg rho (blist n b x) (ks neg rho n b x).
Proof.
  intros neg rho n b x Hr Hb.
  set (f := fun k => sgn neg * x k).
  set (E := bsum n b (fun k => exp (rho * f k))).
  set (z := 1 / rho * ln E).
  assert (HE : 0 < E) by apply (esum_pos n b (fun k => rho * f k) Hb).
  assert (Hz : exp (rho * z) = E).
  { unfold z. replace (rho * (1 / rho * ln E)) with (ln E) by (field; lra). now apply exp_ln. }
  assert (Hlow : forall k, (k < n)%nat -> b k = true -> f k <= z).
  { intros k Hk Hbk. apply Rmult_le_reg_l with rho; [assumption|].
    destruct (Rle_dec (rho * f k) (rho * z)) as [|C]; [assumption|]. exfalso.
    apply Rnot_le_lt in C. apply exp_increasing in C. rewrite Hz in C.
    assert (exp (rho * f k) <= E).
    { apply (bsum_term n b (fun k => exp (rho * f k)) k Hk Hbk). intros. apply Rlt_le, exp_pos. }
    lra. }
  destruct (bmax_exists n b f Hb) as (j & Hj & Hbj & Hmax).
  set (N := bsum n b (fun _ => 1)).
  assert (HN : 0 < N).
  { apply Rlt_le_trans with 1; [lra|]. apply (bsum_term n b (fun _ => 1) j Hj Hbj). intros. lra. }
  assert (Hup : z <= f j + ln N / rho).
  { apply Rmult_le_reg_l with rho; [assumption|].
    replace (rho * (f j + ln N / rho)) with (rho * f j + ln N) by (field; lra).
    assert (HEN : E <= exp (rho * f j) * N).
    { unfold N. rewrite <- bsum_scal. apply bsum_le. intros k Hk Hbk. rewrite Rmult_1_r.
      destruct (Rle_lt_or_eq_dec _ _ (Hmax k Hk Hbk)) as [Hlt|Heq].
      - apply Rlt_le, exp_increasing. apply Rmult_lt_compat_l; assumption.
      - rewrite Heq. lra. }
    replace (rho * z) with (ln E) by (unfold z; field; lra).
    replace (rho * f j + ln N) with (ln (exp (rho * f j) * N)).
    - destruct (Rle_lt_or_eq_dec _ _ HEN) as [Hlt|Heq].
      + apply Rlt_le, ln_increasing; assumption.
      + rewrite <- Heq. lra.
    - rewrite ln_mult, ln_exp; [reflexivity|apply exp_pos|assumption]. }
  unfold ks. fold f. change (bsum n b (fun k => exp (rho * (sgn neg * x k)))) with E. fold z.
  destruct neg; cbn [smooth sgn] in *.
  - split; [|split].
    + intros y Hy. apply blist_In in Hy. destruct Hy as (k & Hk & Hbk & ->).
      specialize (Hlow k Hk Hbk). unfold f in Hlow. lra.
    + exists (x j). split; [apply blist_In; eauto|]. rewrite blist_length. fold N. unfold f in Hup. lra.
    + rewrite blist_map, blist_sum. replace (- (rho * (-1 * z))) with (rho * z) by ring. rewrite Hz.
      unfold E. apply bsum_ext. intros k _ _. f_equal. unfold f. ring.
  - split; [|split].
    + intros y Hy. apply blist_In in Hy. destruct Hy as (k & Hk & Hbk & ->).
      specialize (Hlow k Hk Hbk). unfold f in Hlow. lra.
    + exists (x j). split; [apply blist_In; eauto|]. rewrite blist_length. fold N. unfold f in Hup. lra.
    + rewrite blist_map, blist_sum. replace (rho * (1 * z)) with (rho * z) by ring. rewrite Hz.
      unfold E. apply bsum_ext. intros k _ _. f_equal. unfold f. ring.
Qed.

Lemma ks_deriv : forall neg rho n b (x : nat -> R) i, rho <> 0 ->
  (exists k, (k < n)%nat /\ b k = true) -> (i < n)%nat ->
  derivable_pt_lim (fun t => ks neg rho n b (upd x i t)) (x i)
    (if b i then ks_weight neg rho n b x i else 0).
Proof.
  intros neg rho n b x i Hr Hb Hi.
  set (E := bsum n b (fun k => exp (rho * (sgn neg * x k)))).
  assert (HE : 0 < E) by apply (esum_pos n b (fun k => rho * (sgn neg * x k)) Hb).
  assert (Hs : sgn neg * sgn neg = 1) by (destruct neg; cbn; lra).
  assert (Hd : derivable_pt_lim (fun t => bsum n b (fun k => exp (rho * (sgn neg * upd x i t k)))) (x i)
                 (if b i then rho * sgn neg * exp (rho * (sgn neg * x i)) else 0)).
  { unfold bsum.
    eapply derivable_pt_lim_eq; [|apply derivable_pt_lim_rsum with
      (l := fun k => if Nat.eqb k i then (if b i then rho * sgn neg * exp (rho * (sgn neg * x i)) else 0) else 0)].
    - rewrite rsum_single with (j := i); [now rewrite Nat.eqb_refl|assumption|].
      intros k _ Hne. apply Nat.eqb_neq in Hne. now rewrite Hne.
    - intros k Hk. unfold upd. destruct (Nat.eqb_spec k i) as [->|Hne].
      + destruct (b i).
        * apply derivable_pt_lim_ext with (f := comp exp (fun t => rho * (sgn neg * t))); [reflexivity|].
          eapply derivable_pt_lim_eq; [|apply derivable_pt_lim_comp;
            [apply derivable_pt_lim_scal, derivable_pt_lim_scal, derivable_pt_lim_id
            |apply derivable_pt_lim_exp]]. ring.
        * apply derivable_pt_lim_const.
      + apply derivable_pt_lim_const. }
  unfold ks.
  eapply derivable_pt_lim_eq; [|apply derivable_pt_lim_scal, derivable_pt_lim_scal;
    apply (derivable_pt_lim_comp (fun t => bsum n b (fun k => exp (rho * (sgn neg * upd x i t k)))) ln);
    [exact Hd|]].
  2:{ cbn beta. rewrite (bsum_ext _ _ _ (fun k => exp (rho * (sgn neg * x k)))).
      - apply derivable_pt_lim_ln. exact HE.
      - intros k _ _. unfold upd. now destruct (Nat.eqb_spec k i) as [->|]. }
  fold E. unfold ks_weight. fold E. destruct (b i).
  - replace (sgn neg * (1 / rho * (/ E * (rho * sgn neg * exp (rho * (sgn neg * x i))))))
      with ((sgn neg * sgn neg) * (exp (rho * (sgn neg * x i)) / E)) by (field; lra).
    rewrite Hs. ring.
  - ring.
Qed.

Lemma ks_weight_nonneg : forall neg rho n b x i, (exists k, (k < n)%nat /\ b k = true) ->
  0 <= ks_weight neg rho n b x i.
Proof.
  intros neg rho n b x i Hb. unfold ks_weight. apply Rlt_le, Rdiv_lt_0_compat; [apply exp_pos|].
  apply (esum_pos n b (fun k => rho * (sgn neg * x k)) Hb).
Qed.

Lemma ks_weight_sum : forall neg rho n b x, (exists k, (k < n)%nat /\ b k = true) ->
  bsum n b (ks_weight neg rho n b x) = 1.
Proof.
  intros neg rho n b x Hb. unfold ks_weight.
  pose proof (esum_pos n b (fun k => rho * (sgn neg * x k)) Hb) as H.
  set (E := bsum n b (fun k => exp (rho * (sgn neg * x k)))) in *.
  rewrite (bsum_ext _ _ _ (fun k => / E * exp (rho * (sgn neg * x k)))).
  - rewrite bsum_scal. fold E. field. lra.
  - intros k _ _. unfold Rdiv. ring.
Qed.
