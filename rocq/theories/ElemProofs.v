(** Proofs about the elementary functions. *)
From Coq Require Import Reals Lra Lia Arith List Bool ZArith.
From Verif Require Import PyBase RSum NdArray Component JacSpec JacOpen CompReorder CompElem SpecElem.
Import ListNotations.
Local Open Scope R_scope.

(** ---- broadcasting ---- *)

Lemma bcast_rev_same : forall s, bcast_rev s s = Some s.
Proof.
  induction s as [|n s IH]; [reflexivity|]. cbn. now rewrite IH, Nat.eqb_refl.
Qed.

Lemma bcast_same : forall s, bcast s s = Some s.
Proof. intros s. unfold bcast. now rewrite bcast_rev_same, rev_involutive. Qed.

Lemma bcast_nil_l : forall s, bcast [] s = Some s.
Proof. intros s. unfold bcast. cbn. now rewrite rev_involutive. Qed.

Lemma bcast_rev_length : forall s t r, bcast_rev s t = Some r -> length r = Nat.max (length s) (length t).
Proof.
  induction s as [|a s IH]; intros [|b t] r H; cbn in H; try (inversion H; subst; reflexivity).
  destruct (bcast_rev s t) as [r'|] eqn:E; [|discriminate].
  apply IH in E. destruct (Nat.eqb a b); [|destruct (Nat.eqb a 1); [|destruct (Nat.eqb b 1)]];
    inversion H; subst; cbn; lia.
Qed.

Lemma bcast_length : forall s t r, bcast s t = Some r -> length r = Nat.max (length s) (length t).
Proof.
  intros s t r H. unfold bcast in H. destruct (bcast_rev (rev s) (rev t)) as [r'|] eqn:E; [|discriminate].
  inversion H; subst. apply bcast_rev_length in E. rewrite !rev_length in *. exact E.
Qed.

Lemma clip_same : forall s idx, inb s idx -> clip s idx = idx.
Proof.
  induction s as [|n s IH]; intros [|i idx] H; cbn in *; try tauto; try reflexivity.
  destruct H as [H1 H2]. rewrite IH by assumption.
  destruct (Nat.eqb_spec n 1); [|reflexivity]. f_equal. lia.
Qed.

Lemma bcast_get_same : forall a k, (k < size (shp a))%nat ->
  bcast_get a (unravel (shp a) k) = dat a k.
Proof.
  intros a k H. unfold bcast_get. rewrite unravel_length, Nat.sub_diag. cbn [skipn].
  rewrite clip_same by now apply unravel_inb. unfold get. now rewrite ravel_unravel.
Qed.

Lemma np_bcast2_same : forall f a b s, shp a = s -> shp b = s ->
  exists r, np_bcast2 f a b = Some r /\ shp r = s /\
    forall k, (k < size s)%nat -> dat r k = f (dat a k) (dat b k).
Proof.
  intros f a b s Ha Hb. unfold np_bcast2. rewrite Ha, Hb, bcast_same.
  eexists. split; [reflexivity|]. cbn [of_fun shp dat]. split; [reflexivity|].
  intros k Hk. rewrite <- Ha at 1. rewrite <- Hb at 1.
  rewrite !bcast_get_same by now rewrite ?Ha, ?Hb. reflexivity.
Qed.

Lemma np_bcast2_scalar : forall f c b,
  exists r, np_bcast2 f (scalar c) b = Some r /\ shp r = shp b /\
    forall k, (k < size (shp b))%nat -> dat r k = f c (dat b k).
Proof.
  intros f c b. unfold np_bcast2. cbn [scalar shp]. rewrite bcast_nil_l.
  eexists. split; [reflexivity|]. cbn [of_fun shp dat]. split; [reflexivity|].
  intros k Hk. f_equal.
  now apply bcast_get_same.
Qed.

Lemma inplace_mul_same : forall a b s, shp a = s -> shp b = s ->
  exists r, inplace_mul a b = Some r /\ shp r = s /\
    forall k, (k < size s)%nat -> dat r k = dat a k * dat b k.
Proof.
  intros a b s Ha Hb. destruct (np_bcast2_same Rmult a b s Ha Hb) as (r & E & Hs & Hd).
  exists r. unfold inplace_mul. rewrite E, Hs, Ha.
  destruct (list_eq_dec Nat.eq_dec s s); [|congruence]. auto.
Qed.

(** ---- the functions and derivatives entry by entry ---- *)

Definition elem_f (e : elem) (t : R) : R :=
  match e with
  | Sin => sin t | Cos => cos t | Tan => tan t
  | Sec => 1 / cos t | Cosec => 1 / sin t | Cotan => 1 / tan t
  | Sinh => sinh t | Cosh => cosh t | Tanh => tanh t
  | Sech => 1 / cosh t | Cosech => 1 / sinh t | Cotanh => 1 / tanh t
  | Arcsin => asin t | Arccos => acos t | Arctan => atan t
  | Exp => exp t | Log => ln t | Log10 => np_log10 t
  end.

Definition elem_d (e : elem) (t : R) : R :=
  match e with
  | Sin => cos t
  | Cos => - sin t
  | Tan => 1 / cos t ^ 2
  | Sec => sin t / cos t * (1 / cos t)
  | Cosec => -1 * (cos t / (sin t * sin t))
  | Cotan => -1 / sin t ^ 2
  | Sinh => cosh t
  | Cosh => sinh t
  | Tanh => 1 - tanh t ^ 2
  | Sech => -1 * tanh t * (1 / cosh t)
  | Cosech => -1 * (1 / tanh t * (1 / sinh t))
  | Cotanh => 1 - (1 / tanh t) ^ 2
  | Arcsin => 1 / sqrt (1 - t ^ 2)
  | Arccos => -1 / sqrt (1 - t ^ 2)
  | Arctan => 1 / (1 + t ^ 2)
  | Exp => exp t
  | Log => 1 / t
  | Log10 => 1 / (ln 10 * t)
  end.

Lemma elem_value_dat : forall e x k,
  size (shp (elem_value e x)) = size (shp x) /\ dat (elem_value e x) k = elem_f e (dat x k).
Proof.
  intros e x k. destruct e; cbn [elem_value np_map np_flatten shp dat size elem_f];
    rewrite ?Nat.mul_1_r; auto.
Qed.

(** which shapes the derivative code accepts *)
Definition any_rank (e : elem) : bool := match e with Sech | Arcsin => false | _ => true end.

Lemma elem_partial_dat : forall e x,
  any_rank e = true \/ length (shp x) = 1%nat ->
  exists d, elem_partial e x = Some d /\ shp d = [size (shp x)] /\
    forall k, (k < size (shp x))%nat -> dat d k = elem_d e (dat x k).
Proof.
  intros e x H.
  assert (H1 : length (shp x) = 1%nat -> shp x = [size (shp x)]).
  { intros Hl. destruct (shp x) as [|n [|m l]]; cbn in *; try lia. now rewrite Nat.mul_1_r. }
  destruct e; cbn [elem_partial any_rank] in *;
    try (eexists; split; [reflexivity|]; cbn [np_map np_flatten shp dat]; split; [reflexivity|];
         intros k Hk; reflexivity).
  - destruct H as [H|H]; [discriminate|]. specialize (H1 H).
    destruct (np_bcast2_same Rmult (np_map (fun t => -1 * tanh t) x)
                (np_flatten (np_map (fun t => 1 / cosh t) x)) [size (shp x)]) as (r & E & Hs & Hd).
    { cbn. exact H1. }
    { reflexivity. }
    exists r. splits; auto. intros k Hk. rewrite Hd by (cbn; lia). reflexivity.
  - destruct H as [H|H]; [discriminate|]. specialize (H1 H).
    eexists; split; [reflexivity|]. cbn [np_map shp dat]. split; [exact H1|]. reflexivity.
Qed.

(** ---- derivatives ---- *)

Lemma cosh_pos : forall x, 0 < cosh x.
Proof.
  intros x. unfold cosh. pose proof (exp_pos x). pose proof (exp_pos (- x)). lra.
Qed.

Lemma sinh_nonzero : forall x, x <> 0 -> sinh x <> 0.
Proof.
  intros x Hx. unfold sinh. intros E. assert (E' : exp x = exp (- x)) by lra.
  apply exp_inv in E'. lra.
Qed.

Lemma cosh_sinh : forall x, cosh x * cosh x - sinh x * sinh x = 1.
Proof.
  intros x. unfold cosh, sinh.
  assert (E : exp x * exp (- x) = 1) by (rewrite <- exp_plus, Rplus_opp_r; apply exp_0).
  replace (_ - _) with (exp x * exp (- x)) by field. exact E.
Qed.

Lemma sin_cos_1 : forall x, sin x * sin x = 1 - cos x * cos x.
Proof. intros x. pose proof (sin2_cos2 x) as H. unfold Rsqr in H. lra. Qed.

Lemma deriv_quotient : forall f g x lf lg l,
  derivable_pt_lim f x lf -> derivable_pt_lim g x lg -> g x <> 0 ->
  l = (lf * g x - lg * f x) / (g x * g x) ->
  derivable_pt_lim (fun t => f t / g t) x l.
Proof.
  intros f g x lf lg l Hf Hg Hn ->. pose proof (derivable_pt_lim_div f g x lf lg Hf Hg Hn) as H.
  exact H.
Qed.

Lemma deriv_inverse : forall g x lg l,
  derivable_pt_lim g x lg -> g x <> 0 -> l = - lg / (g x * g x) ->
  derivable_pt_lim (fun t => 1 / g t) x l.
Proof.
  intros g x lg l Hg Hn ->. eapply deriv_quotient with (f := fun _ => 1).
  - apply derivable_pt_lim_const.
  - exact Hg.
  - exact Hn.
  - field. exact Hn.
Qed.

Lemma deriv_tan : forall x, cos x <> 0 -> derivable_pt_lim tan x (1 / cos x ^ 2).
Proof.
  intros x Hx. apply (deriv_quotient sin cos x (cos x) (- sin x)).
  - apply derivable_pt_lim_sin.
  - apply derivable_pt_lim_cos.
  - exact Hx.
  - apply Rmult_eq_reg_r with (r := cos x * cos x); [|now apply Rmult_integral_contrapositive].
    transitivity 1; [field; exact Hx|].
    transitivity (cos x * cos x + sin x * sin x); [rewrite sin_cos_1; ring|field; exact Hx].
Qed.

Lemma deriv_tanh : forall x, derivable_pt_lim tanh x (1 - tanh x ^ 2).
Proof.
  intros x. pose proof (cosh_pos x) as Hc. apply (deriv_quotient sinh cosh x (cosh x) (sinh x)).
  - apply derivable_pt_lim_sinh.
  - apply derivable_pt_lim_cosh.
  - lra.
  - unfold tanh. field. lra.
Qed.

Lemma tanh_nonzero : forall x, x <> 0 -> tanh x <> 0.
Proof.
  intros x Hx. pose proof (cosh_pos x). pose proof (sinh_nonzero x Hx). unfold tanh.
  intros E. apply H0. apply Rmult_eq_reg_r with (r := / cosh x); [|apply Rinv_neq_0_compat; lra].
  unfold Rdiv in E. lra.
Qed.

Lemma ln10_pos : 0 < ln 10.
Proof. rewrite <- ln_1. apply ln_increasing; lra. Qed.

Theorem elem_deriv : forall e x, elem_dom e x -> derivable_pt_lim (elem_f e) x (elem_d e x).
Proof.
  intros e x H. destruct e; cbn [elem_f elem_d elem_dom] in *.
  - apply derivable_pt_lim_sin.
  - apply derivable_pt_lim_cos.
  - now apply deriv_tan.
  - apply deriv_inverse with (lg := - sin x); [apply derivable_pt_lim_cos|exact H|field; exact H].
  - apply deriv_inverse with (lg := cos x); [apply derivable_pt_lim_sin|exact H|field; exact H].
  - destruct H as [H1 H2]. apply deriv_inverse with (lg := 1 / cos x ^ 2).
    + now apply deriv_tan.
    + unfold tan. intros E. apply H2. apply Rmult_eq_reg_r with (r := / cos x);
        [unfold Rdiv in E; lra|now apply Rinv_neq_0_compat].
    + unfold tan. field. auto.
  - apply derivable_pt_lim_sinh.
  - apply derivable_pt_lim_cosh.
  - apply deriv_tanh.
  - pose proof (cosh_pos x). apply deriv_inverse with (lg := sinh x); [apply derivable_pt_lim_cosh|lra|].
    unfold tanh. field. lra.
  - pose proof (cosh_pos x). pose proof (sinh_nonzero x H).
    apply deriv_inverse with (lg := cosh x); [apply derivable_pt_lim_sinh|assumption|].
    unfold tanh. field. lra.
  - pose proof (tanh_nonzero x H).
    apply deriv_inverse with (lg := 1 - tanh x ^ 2); [apply deriv_tanh|assumption|].
    field. assumption.
  - apply derive_pt_eq_1 with (pr := derivable_pt_asin x H). rewrite derive_pt_asin.
    now rewrite Rsqr_pow2.
  - apply derive_pt_eq_1 with (pr := derivable_pt_acos x H). rewrite derive_pt_acos.
    now rewrite Rsqr_pow2.
  - eapply derivable_pt_lim_eq; [|apply derivable_pt_lim_atan]. unfold Rdiv. now rewrite Rmult_1_l.
  - apply derivable_pt_lim_exp.
  - eapply derivable_pt_lim_eq; [|now apply derivable_pt_lim_ln]. unfold Rdiv. now rewrite Rmult_1_l.
  - unfold np_log10. pose proof ln10_pos.
    apply (deriv_quotient ln (fun _ => ln 10) x (/ x) 0).
    + now apply derivable_pt_lim_ln.
    + apply derivable_pt_lim_const.
    + lra.
    + field. lra.
Qed.

(** the values *)
Lemma elem_values : forall e x, elem_dom e x -> elem_rel e x (elem_f e x).
Proof.
  intros e x H.
  assert (Hs : forall x, exp x - exp (- x) = 2 * sinh x) by (intros; unfold sinh; field).
  assert (Hc : forall x, exp x + exp (- x) = 2 * cosh x) by (intros; unfold cosh; field).
  pose proof (cosh_pos x) as Hcp.
  destruct e; cbn [elem_f elem_rel elem_dom] in *; rewrite ?Hs, ?Hc;
    try reflexivity.
  - unfold tan. field. exact H.
  - field. exact H.
  - field. exact H.
  - unfold tan. field. exact H.
  - unfold tanh. field. lra.
  - field. lra.
  - pose proof (sinh_nonzero x H). field. assumption.
  - pose proof (sinh_nonzero x H). unfold tanh. field. split; lra.
  - split; [apply asin_bound|apply sin_asin; lra].
  - split; [apply acos_bound|apply cos_acos; lra].
  - pose proof (atan_bound x) as Hb. split; [lra|].
    pose proof (tan_atan x) as Ht. unfold tan in Ht. rewrite <- Ht at 2. field.
    pose proof (cos_gt_0 (atan x)) as Hg. lra.
  - now apply exp_ln.
  - unfold np_log10. pose proof ln10_pos. replace (ln x / ln 10 * ln 10) with (ln x) by (field; lra).
    now apply exp_ln.
Qed.

Lemma elem_dom_open : forall e, open_set (elem_dom e).
Proof.
  assert (Ct : continuity cos) by apply continuity_cos.
  assert (St : continuity sin) by apply continuity_sin.
  intros e. destruct e; cbn [elem_dom];
    try exact open_true; try exact open_nonzero; try exact open_pos;
    try apply open_between; try (now apply open_cont_nonzero).
  apply open_and; now apply open_cont_nonzero.
Qed.

Lemma as_sparse_diag : forall s d, shp d = [size s] ->
  as_sparse (sparse_partials (np_arange (size s)) (np_arange (size s)) d) =
  Some (Sparse (Coo (size s) (fun k => k) (fun k => k) (dat d))).
Proof. intros s d H. rewrite sparse_partials_vec with (n := size s) by (assumption || reflexivity). reflexivity. Qed.

Theorem elem_correct : forall e s,
  any_rank e = true \/ length s = 1%nat ->
  correct_within (all_entries (size s) (elem_dom e)) (elem_comp e s)
                 (entries1 (fun _ => elem_rel e)).
Proof.
  intros e s Hr.
  apply elementwise_correct with (s := s) (n := 1%nat)
    (G := fun o x => elem_f e (x 0%nat)) (D := fun v p o => elem_d e (v 0%nat o)).
  - reflexivity.
  - reflexivity.
  - apply open_dom_entries. apply elem_dom_open.
  - intros o x x' H. now rewrite H by lia.
  - intros v Hv. cbn [repeat inputs_of length seq map nth elem_comp c_compute].
    destruct (elem_value_dat e (Nd s (v 0%nat)) 0) as [Hs _]. cbn [shp] in Hs.
    unfold assign_output. rewrite Hs, Nat.eqb_refl. eexists. split; [reflexivity|].
    cbn [np_reshape shp dat]. split; [reflexivity|]. intros o Ho.
    now destruct (elem_value_dat e (Nd s (v 0%nat)) o) as [_ ->].
  - intros v y Hv Hs Hd. cbn [repeat inputs_of length seq map nth].
    eexists. split; [reflexivity|]. cbn [shp]. split; [exact Hs|].
    intros idx Hi. rewrite Hs in Hi. unfold get. rewrite Hs. cbn [shp dat].
    rewrite Hd by now apply ravel_lt. apply elem_values. apply Hv. now apply ravel_lt.
  - intros v p Hv Hp. replace p with 0%nat by lia.
    cbn [repeat inputs_of length seq map nth elem_comp c_partials].
    destruct (elem_partial_dat e (Nd s (v 0%nat)) Hr) as (d & E & Hs & Hd). cbn [shp dat] in *.
    rewrite E, as_sparse_diag by exact Hs. eexists. split; [reflexivity|]. cbn [nnz rows cols vals].
    splits; auto.
  - intros v p o Hv Hp Ho. replace p with 0%nat by lia.
    apply elem_deriv. now apply Hv.
Qed.

(** sech and arcsin of an array with two or more axes: no derivatives *)
Theorem elem_rank2_raises : forall e s v, any_rank e = false -> (2 <= length s)%nat ->
  c_partials (elem_comp e s) (inputs_of [s] v) 0%nat = None.
Proof.
  intros e s v He Hs.
  assert (Hne : forall d : nd R, (2 <= length (shp d))%nat ->
    as_sparse (sparse_partials (np_arange (size s)) (np_arange (size s)) d) = None).
  { intros d Hd. unfold sparse_partials. cbn [np_arange shp].
    destruct (list_eq_dec Nat.eq_dec _ _); [|reflexivity].
    destruct (list_eq_dec Nat.eq_dec _ _); [|reflexivity].
    destruct (list_eq_dec Nat.eq_dec (shp d) _) as [E|_]; [rewrite E in Hd; cbn in Hd; lia|].
    destruct (list_eq_dec Nat.eq_dec (shp d) []) as [E|_]; [rewrite E in Hd; cbn in Hd; lia|].
    reflexivity. }
  cbn [inputs_of length seq map nth elem_comp c_partials].
  destruct e; try discriminate; cbn [elem_partial].
  - unfold np_bcast2. cbn [np_map np_flatten shp].
    destruct (bcast s [size s]) as [r|] eqn:E; [|reflexivity].
    apply Hne. cbn [of_fun shp]. apply bcast_length in E. rewrite E. cbn. lia.
  - apply Hne. exact Hs.
Qed.

(** A concrete case: arcsin of (1/2, -1/2). *)
Example elem_instance :
  all_entries (size [2%nat]) (elem_dom Arcsin) (fun _ o => if Nat.eqb o 0 then 1/2 else -1/2) /\
  c_ins (elem_comp Arcsin [2%nat]) = [[2%nat]].
Proof.
  split; [|reflexivity]. intros o Ho. cbn [elem_dom]. destruct (Nat.eqb o 0); lra.
Qed.
