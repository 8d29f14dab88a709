(** Proofs about the arithmetic operators. *)
From Coq Require Import Reals Lra Lia Arith List Bool ZArith.
From Verif Require Import PyBase RSum NdArray Component JacSpec JacOpen CompReorder CompElem SpecElem
  ElemProofs.
Import ListNotations.
Local Open Scope R_scope.

(** ---- linear combinations ---- *)

Fixpoint lcomb (o : nat) (l : list (nd R * R)) : R :=
  match l with
  | [] => 0
  | (x, k) :: l' => k * dat x o + lcomb o l'
  end.

Lemma linear_loop_spec : forall l acc,
  shp (linear_loop acc l) = shp acc /\
  forall o, dat (linear_loop acc l) o = dat acc o + lcomb o l.
Proof.
  induction l as [|[x k] l IH]; intros acc; cbn [linear_loop lcomb].
  - split; [reflexivity|]. intros. lra.
  - destruct (IH (np_map2 Rplus acc (np_map (fun t => k * t) x))) as [H1 H2].
    split; [exact H1|]. intros o. rewrite H2. cbn [np_map2 np_map dat]. lra.
Qed.

Lemma inputs1 : forall s v, inputs_of (repeat s 1) v = [Nd s (v 0%nat)].
Proof. reflexivity. Qed.
Lemma inputs2 : forall s v, inputs_of (repeat s 2) v = [Nd s (v 0%nat); Nd s (v 1%nat)].
Proof. reflexivity. Qed.

Lemma scalar_partials : forall s k,
  as_sparse (sparse_partials (np_arange (size s)) (np_arange (size s)) (scalar k)) =
  Some (Sparse (Coo (size s) (fun i => i) (fun i => i) (fun _ => k))).
Proof. intros s k. rewrite sparse_partials_scalar with (n := size s) by reflexivity. reflexivity. Qed.

Lemma linear1_correct : forall s n k const kf (meaning : list (nd R) -> nd R -> Prop),
  assign_output s const = Some (Nd s kf) ->
  (forall v y, shp y = s -> (forall o, (o < size s)%nat -> dat y o = kf o + k * v 0%nat o) ->
     meaning [Nd s (v 0%nat)] y) ->
  exists c, linear_comp s [n] [k] const = Some c /\ c_ins c = [s] /\ c_out c = s /\ correct c meaning.
Proof.
  intros s n k const kf meaning Ha Hm. unfold linear_comp. cbn [names_ok existsb negb andb].
  eexists. split; [reflexivity|]. split; [reflexivity|]. split; [reflexivity|].
  apply correct_within_true.
  apply elementwise_correct with (s := s) (n := 1%nat)
    (G := fun o x => kf o + k * x 0%nat) (D := fun v p o => k); cbn [c_ins c_out c_compute c_partials length].
  - reflexivity.
  - reflexivity.
  - apply open_dom_true.
  - intros o x x' H. now rewrite H by lia.
  - intros v _. rewrite inputs1, Ha. eexists. split; [reflexivity|].
    destruct (linear_loop_spec (combine [Nd s (v 0%nat)] [k]) (Nd s kf)) as [H1 H2].
    split; [exact H1|]. intros o _. rewrite H2. cbn [combine lcomb dat]. lra.
  - intros v y _ Hs Hd. rewrite inputs1. now apply Hm.
  - intros v p _ Hp. replace p with 0%nat by lia. cbn [nth_error]. rewrite scalar_partials.
    eexists. split; [reflexivity|]. cbn [nnz rows cols vals]. splits; auto.
  - intros v p o _ Hp Ho. replace p with 0%nat by lia.
    apply derivable_pt_lim_ext with (f := fun t => kf o + k * t); [reflexivity|].
    eapply derivable_pt_lim_eq; [|apply derivable_pt_lim_plus;
      [apply derivable_pt_lim_const|apply derivable_pt_lim_scal, derivable_pt_lim_id]]. lra.
Qed.

Lemma linear2_correct : forall s n m k0 k1 (meaning : list (nd R) -> nd R -> Prop), n <> m ->
  (forall v y, shp y = s ->
     (forall o, (o < size s)%nat -> dat y o = k0 * v 0%nat o + k1 * v 1%nat o) ->
     meaning [Nd s (v 0%nat); Nd s (v 1%nat)] y) ->
  exists c, linear_comp s [n; m] [k0; k1] (scalar 0) = Some c /\
    c_ins c = [s; s] /\ c_out c = s /\ correct c meaning.
Proof.
  intros s n m k0 k1 meaning Hnm Hm. unfold linear_comp. cbn [names_ok existsb orb negb andb].
  apply Nat.eqb_neq in Hnm. rewrite Hnm. cbn [negb andb].
  eexists. split; [reflexivity|]. split; [reflexivity|]. split; [reflexivity|].
  apply correct_within_true.
  apply elementwise_correct with (s := s) (n := 2%nat)
    (G := fun o x => k0 * x 0%nat + k1 * x 1%nat)
    (D := fun v p o => if Nat.eqb p 0 then k0 else k1); cbn [c_ins c_out c_compute c_partials length].
  - reflexivity.
  - reflexivity.
  - apply open_dom_true.
  - intros o x x' H. now rewrite !H by lia.
  - intros v _. rewrite inputs2.
    assert (Ha : exists y0, assign_output s (scalar 0) = Some y0 /\ shp y0 = s /\
                 forall o, (o < size s)%nat -> dat y0 o = 0).
    { unfold assign_output. cbn [scalar shp size]. destruct (Nat.eqb 1 (size s)); cbn [Nat.eqb];
        eexists; (split; [reflexivity|]); split; reflexivity. }
    destruct Ha as (y0 & -> & Hs0 & Hd0). eexists. split; [reflexivity|].
    destruct (linear_loop_spec (combine [Nd s (v 0%nat); Nd s (v 1%nat)] [k0; k1]) y0) as [H1 H2].
    split; [congruence|]. intros o Ho. rewrite H2, Hd0 by assumption. cbn [combine lcomb dat]. lra.
  - intros v y _ Hs Hd. rewrite inputs2. now apply Hm.
  - intros v p _ Hp. assert (Hp2 : p = 0%nat \/ p = 1%nat) by lia.
    destruct Hp2; subst p; cbn [nth_error]; rewrite scalar_partials;
      (eexists; split; [reflexivity|]); cbn [nnz rows cols vals Nat.eqb]; splits; auto.
  - intros v p o _ Hp Ho. assert (Hp2 : p = 0%nat \/ p = 1%nat) by lia. destruct Hp2; subst p.
    + apply derivable_pt_lim_ext with (f := fun t => k0 * t + k1 * v 1%nat o); [reflexivity|].
      eapply derivable_pt_lim_eq; [|apply derivable_pt_lim_plus;
        [apply derivable_pt_lim_scal, derivable_pt_lim_id|apply derivable_pt_lim_const]]. cbn. lra.
    + apply derivable_pt_lim_ext with (f := fun t => k0 * v 0%nat o + k1 * t); [reflexivity|].
      eapply derivable_pt_lim_eq; [|apply derivable_pt_lim_plus;
        [apply derivable_pt_lim_const|apply derivable_pt_lim_scal, derivable_pt_lim_id]]. cbn. lra.
Qed.

Lemma assign_scalar : forall s c,
  exists kf, assign_output s (scalar c) = Some (Nd s kf) /\
    forall o, (o < size s)%nat -> kf o = c.
Proof.
  intros s c. unfold assign_output. cbn [scalar shp size]. destruct (Nat.eqb 1 (size s)); cbn [Nat.eqb];
    eexists; (split; [reflexivity|]); reflexivity.
Qed.

Lemma assign_array : forall s a, shp a = s -> assign_output s a = Some (Nd s (dat a)).
Proof. intros s a H. unfold assign_output. rewrite H, Nat.eqb_refl. reflexivity. Qed.

Lemma entries1_intro : forall s x y (rel : list nat -> R -> R -> Prop), shp y = s ->
  (forall o, (o < size s)%nat -> rel (unravel s o) (x o) (dat y o)) ->
  entries1 rel [Nd s x] y.
Proof.
  intros s x y rel Hs H. exists (Nd s x). split; [reflexivity|]. split; [exact Hs|].
  intros idx Hi. rewrite Hs in Hi. unfold get. rewrite Hs. cbn [shp dat].
  pose proof (H (ravel s idx) (ravel_lt _ _ Hi)) as H'. now rewrite unravel_ravel in H'.
Qed.

Lemma entries2_intro : forall s x0 x1 y (rel : R -> R -> R -> Prop), shp y = s ->
  (forall o, (o < size s)%nat -> rel (x0 o) (x1 o) (dat y o)) ->
  entries2 rel [Nd s x0; Nd s x1] y.
Proof.
  intros s x0 x1 y rel Hs H. exists (Nd s x0), (Nd s x1). splits; auto.
  intros idx Hi. rewrite Hs in Hi. unfold get. rewrite Hs. cbn [shp dat].
  apply H. now apply ravel_lt.
Qed.

(** x + y and x - y *)
Theorem linear_exprs : forall op n m s, op = Add \/ op = Sub -> n <> m ->
  exists c, py_binop op (OVar n s) (OVar m s) = Expr s (Some (Some c)) /\
    c_ins c = [s; s] /\ c_out c = s /\ correct c (entries2 (op_rel op)).
Proof.
  intros op n m s Hop Hnm.
  destruct Hop; subst op; cbn [py_binop elementwise addition subtraction];
    (destruct (list_eq_dec Nat.eq_dec s s) as [_|F]; [|congruence]).
  - destruct (linear2_correct s n m 1 1 (entries2 (op_rel Add)) Hnm) as (c & -> & H).
    + intros v y Hs Hd. apply entries2_intro; [exact Hs|]. intros o Ho. cbn [op_rel].
      rewrite Hd by assumption. lra.
    + now exists c.
  - destruct (linear2_correct s n m 1 (-1) (entries2 (op_rel Sub)) Hnm) as (c & -> & H).
    + intros v y Hs Hd. apply entries2_intro; [exact Hs|]. intros o Ho. cbn [op_rel].
      rewrite Hd by assumption. lra.
    + now exists c.
Qed.

(** x + c, x - c *)
Theorem linear_right_number : forall op n s k, op = Add \/ op = Sub ->
  exists c, py_binop op (OVar n s) (ONum k) = Expr s (Some (Some c)) /\
    c_ins c = [s] /\ c_out c = s /\ correct c (entries1 (fun _ x y => op_rel op x k y)).
Proof.
  intros op n s k Hop. destruct Hop; subst op; cbn [py_binop elementwise addition subtraction].
  - destruct (assign_scalar s k) as (kf & Ha & Hk).
    destruct (linear1_correct s n 1 (scalar k) kf (entries1 (fun _ x y => op_rel Add x k y)) Ha)
      as (c & -> & H).
    + intros v y Hs Hd. apply entries1_intro; [exact Hs|]. intros o Ho. cbn [op_rel].
      rewrite Hd, Hk by assumption. lra.
    + now exists c.
  - destruct (assign_scalar s (- k)) as (kf & Ha & Hk).
    destruct (linear1_correct s n 1 (scalar (- k)) kf (entries1 (fun _ x y => op_rel Sub x k y)) Ha)
      as (c & -> & H).
    + intros v y Hs Hd. apply entries1_intro; [exact Hs|]. intros o Ho. cbn [op_rel].
      rewrite Hd, Hk by assumption. lra.
    + now exists c.
Qed.

(** c + x, c - x *)
Theorem linear_left_number : forall op n s k, op = Add \/ op = Sub ->
  exists c, py_binop op (ONum k) (OVar n s) = Expr s (Some (Some c)) /\
    c_ins c = [s] /\ c_out c = s /\ correct c (entries1 (fun _ x y => op_rel op k x y)).
Proof.
  intros op n s k Hop. destruct (assign_scalar s k) as (kf & Ha & Hk).
  destruct Hop; subst op; cbn [py_binop elementwise addition subtraction].
  - destruct (linear1_correct s n 1 (scalar k) kf (entries1 (fun _ x y => op_rel Add k x y)) Ha)
      as (c & -> & H).
    + intros v y Hs Hd. apply entries1_intro; [exact Hs|]. intros o Ho. cbn [op_rel].
      rewrite Hd, Hk by assumption. lra.
    + now exists c.
  - destruct (linear1_correct s n (-1) (scalar k) kf (entries1 (fun _ x y => op_rel Sub k x y)) Ha)
      as (c & -> & H).
    + intros v y Hs Hd. apply entries1_intro; [exact Hs|]. intros o Ho. cbn [op_rel].
      rewrite Hd, Hk by assumption. lra.
    + now exists c.
Qed.

(** x + A, x - A *)
Theorem linear_right_array : forall op n s a, op = Add \/ op = Sub -> shp a = s ->
  exists c, py_binop op (OVar n s) (OArr a) = Expr s (Some (Some c)) /\
    c_ins c = [s] /\ c_out c = s /\ correct c (entries1 (fun idx x y => op_rel op x (get a idx) y)).
Proof.
  intros op n s a Hop Hs. destruct Hop; subst op; cbn [py_binop elementwise addition subtraction].
  - pose proof (assign_array s a Hs) as Ha.
    destruct (linear1_correct s n 1 a (dat a) (entries1 (fun idx x y => op_rel Add x (get a idx) y)) Ha)
      as (c & -> & H).
    + intros v y Hy Hd. apply entries1_intro; [exact Hy|]. intros o Ho. cbn [op_rel].
      unfold get. rewrite Hs, ravel_unravel, Hd by assumption. lra.
    + now exists c.
  - pose proof (assign_array s (np_map Ropp a) Hs) as Ha.
    destruct (linear1_correct s n 1 (np_map Ropp a) (dat (np_map Ropp a))
                (entries1 (fun idx x y => op_rel Sub x (get a idx) y)) Ha) as (c & -> & H).
    + intros v y Hy Hd. apply entries1_intro; [exact Hy|]. intros o Ho. cbn [op_rel].
      unfold get. rewrite Hs, ravel_unravel, Hd by assumption. cbn [np_map dat]. lra.
    + now exists c.
Qed.

(** ---- powers of one number ---- *)

Lemma expo_of_int : forall z, expo_of (IZR z) = EInt z.
Proof.
  intros z. unfold expo_of. assert (E : up (IZR z - 1) = z).
  { symmetry. apply tech_up; lra. }
  rewrite E. destruct (Req_EM_T (IZR z) (IZR z)); [reflexivity|congruence].
Qed.

Lemma expo_of_cases : forall c, (exists z, c = IZR z /\ expo_of c = EInt z) \/
  ((forall z, c <> IZR z) /\ expo_of c = EReal c).
Proof.
  intros c. destruct (Req_EM_T (IZR (up (c - 1))) c) as [E|E].
  - left. exists (up (c - 1)). split; [now symmetry|]. rewrite <- E at 1. apply expo_of_int.
  - right. split.
    + intros z Hz. subst c. apply E. f_equal. symmetry. apply tech_up; lra.
    + unfold expo_of. destruct (Req_EM_T (IZR (up (c - 1))) c); [contradiction|reflexivity].
Qed.

Lemma z_cases : forall z, (exists n, z = Z.of_nat n) \/ (exists n, z = (- Z.of_nat (S n))%Z).
Proof.
  intros z. destruct (Z_le_gt_dec 0 z).
  - left. exists (Z.to_nat z). lia.
  - right. exists (Z.to_nat (- z - 1)). lia.
Qed.

Lemma powerRZ_nat : forall x n, powerRZ x (Z.of_nat n) = x ^ n.
Proof. intros. now rewrite <- pow_powerRZ. Qed.

Lemma powerRZ_negnat : forall x n, powerRZ x (- Z.of_nat (S n)) = / x ^ S n.
Proof.
  intros x n. cbn [Z.of_nat Z.opp]. cbn [powerRZ]. now rewrite SuccNat2Pos.id_succ.
Qed.

Lemma is_zero_spec : forall x, is_zero x = true <-> x = 0.
Proof. intros x. unfold is_zero. destruct (Req_EM_T x 0); split; congruence. Qed.

(** the entries where [x ** p] and its derivative make sense *)
Definition pow_dom (p : expo) (x : R) : Prop :=
  match p with
  | EInt z => (0 < z)%Z \/ x <> 0
  | EReal r => 0 < x
  end.

Lemma pow_dom_defined : forall p x, pow_dom p x ->
  pow_defined x p = true /\ pow_defined x (expo_pred p) = true.
Proof.
  intros [z|r] x H; cbn [pow_dom pow_defined expo_pred] in *.
  - destruct (is_zero x) eqn:E; cbn [andb negb]; [|auto].
    apply is_zero_spec in E. destruct H as [H|H]; [|contradiction].
    split; apply negb_true_iff; apply Z.ltb_ge; lia.
  - destruct (Rlt_dec 0 x); [auto|contradiction].
Qed.

Lemma np_pow_deriv : forall p x, pow_dom p x ->
  derivable_pt_lim (fun t => np_pow t p) x (expo_val p * np_pow x (expo_pred p)).
Proof.
  intros [z|r] x H; cbn [pow_dom np_pow expo_val expo_pred] in *.
  - destruct (z_cases z) as [[n ->]|[n ->]].
    + apply derivable_pt_lim_ext with (f := fun t => t ^ n); [intros t; now rewrite powerRZ_nat|].
      eapply derivable_pt_lim_eq; [|apply derivable_pt_lim_pow].
      destruct n as [|n].
      * cbn. lra.
      * replace (Z.of_nat (S n) - 1)%Z with (Z.of_nat n) by lia.
        rewrite powerRZ_nat, <- INR_IZR_INZ. reflexivity.
    + assert (Hx : x <> 0) by (destruct H as [H|H]; [lia|assumption]).
      apply derivable_pt_lim_ext with (f := fun t => 1 / t ^ S n).
      { intros t. rewrite powerRZ_negnat. unfold Rdiv. now rewrite Rmult_1_l. }
      eapply deriv_inverse.
      * apply derivable_pt_lim_pow.
      * now apply pow_nonzero.
      * replace (- Z.of_nat (S n) - 1)%Z with (- Z.of_nat (S (S n)))%Z by lia.
        rewrite powerRZ_negnat, opp_IZR, <- INR_IZR_INZ. cbn [Init.Nat.pred pow].
        pose proof (pow_nonzero x n Hx). field. auto.
  - pose proof (derivable_pt_lim_power x r H) as D.
    destruct (Rlt_dec 0 x) as [_|F]; [|contradiction].
    eapply derivable_pt_lim_ext_loc; [exact H| |exact D].
    intros t Ht. apply Rabs_def2 in Ht. cbn beta. destruct (Rlt_dec 0 t); [reflexivity|lra].
Qed.

Lemma np_power_ok : forall x p,
  (forall k, (k < size (shp x))%nat -> pow_defined (dat x k) p = true) ->
  np_power x p = Some (np_map (fun t => np_pow t p) x).
Proof.
  intros x p H. unfold np_power, np_all.
  assert (E : forallb (fun k => pow_defined (dat x k) p) (seq 0 (size (shp x))) = true).
  { apply forallb_forall. intros k Hk. apply in_seq in Hk. apply H. lia. }
  now rewrite E.
Qed.

Lemma no_exit : forall x p,
  (forall k, (k < size (shp x))%nat -> pow_defined (dat x k) p = true) ->
  negb (np_all (fun t => negb (is_zero t)) x) && expo_neg p = false.
Proof.
  intros x p H. destruct (expo_neg p) eqn:En; [|apply andb_false_r].
  rewrite andb_true_r. apply negb_false_iff. unfold np_all. apply forallb_forall.
  intros k Hk. apply in_seq in Hk. specialize (H k ltac:(lia)).
  destruct (is_zero (dat x k)) eqn:Ez; [|reflexivity]. exfalso.
  destruct p as [z|r]; cbn [pow_defined expo_neg] in *.
  - rewrite Ez, En in H. discriminate.
  - apply is_zero_spec in Ez as Ez'. rewrite Ez' in H. destruct (Rlt_dec 0 0); [lra|].
    rewrite Ez' in Ez. rewrite Ez in H. destruct (Rlt_dec 0 r); [|discriminate].
    destruct (Rlt_dec r 0); [lra|discriminate].
Qed.

(** ---- the loops of PowerCombinationComp ---- *)

Fixpoint pprod (o : nat) (l : list (nd R * expo)) : R :=
  match l with
  | [] => 1
  | (x, p) :: l' => np_pow (dat x o) p * pprod o l'
  end.

Fixpoint dprod (me q o : nat) (l : list (nd R * expo)) : R :=
  match l with
  | [] => 1
  | (x, p) :: l' =>
      (if Nat.eqb me q then expo_val p * np_pow (dat x o) (expo_pred p) else np_pow (dat x o) p)
      * dprod me (S q) o l'
  end.

Definition all_dom (s : list nat) (l : list (nd R * expo)) : Prop :=
  forall x p, In (x, p) l -> shp x = s /\ forall k, (k < size s)%nat -> pow_dom p (dat x k).

Lemma all_dom_cons : forall s x p l, all_dom s ((x, p) :: l) ->
  shp x = s /\ (forall k, (k < size s)%nat -> pow_dom p (dat x k)) /\ all_dom s l.
Proof.
  intros s x p l H. destruct (H x p (or_introl eq_refl)) as [H1 H2]. splits; auto.
  intros y q Hy. apply H. now right.
Qed.

Lemma power_loop_spec : forall s l acc, shp acc = s -> all_dom s l ->
  exists y, power_loop acc l = Some y /\ shp y = s /\
    forall o, (o < size s)%nat -> dat y o = dat acc o * pprod o l.
Proof.
  intros s. induction l as [|[x p] l IH]; intros acc Ha Hl.
  - exists acc. splits; auto. intros. cbn. lra.
  - apply all_dom_cons in Hl. destruct Hl as (Hx & Hd & Hl). cbn [power_loop].
    assert (Hdef : forall k, (k < size (shp x))%nat -> pow_defined (dat x k) p = true).
    { intros k Hk. rewrite Hx in Hk. now apply pow_dom_defined, Hd. }
    rewrite no_exit by assumption. rewrite np_power_ok by assumption.
    destruct (inplace_mul_same acc (np_map (fun t => np_pow t p) x) s Ha Hx) as (r & -> & Hs & Hr).
    destruct (IH r Hs Hl) as (y & E & Hy & Hyd). exists y. splits; auto.
    intros o Ho. rewrite Hyd, Hr by assumption. cbn [np_map dat pprod]. ring.
Qed.

Lemma value_loop_spec : forall s l acc, shp acc = s -> all_dom s l ->
  exists y, value_loop acc l = Some y /\ shp y = s /\
    forall o, (o < size s)%nat -> dat y o = dat acc o * pprod o l.
Proof.
  intros s. induction l as [|[x p] l IH]; intros acc Ha Hl.
  - exists acc. splits; auto. intros. cbn. lra.
  - apply all_dom_cons in Hl. destruct Hl as (Hx & Hd & Hl). cbn [value_loop].
    assert (Hdef : forall k, (k < size (shp x))%nat -> pow_defined (dat x k) p = true).
    { intros k Hk. rewrite Hx in Hk. now apply pow_dom_defined, Hd. }
    rewrite np_power_ok by assumption.
    destruct (inplace_mul_same acc (np_map (fun t => np_pow t p) x) s Ha Hx) as (r & -> & Hs & Hr).
    destruct (IH r Hs Hl) as (y & E & Hy & Hyd). exists y. splits; auto.
    intros o Ho. rewrite Hyd, Hr by assumption. cbn [np_map dat pprod]. ring.
Qed.

Lemma deriv_loop_spec : forall s me l q d, shp d = s -> all_dom s l ->
  exists y, deriv_loop me q d l = Some y /\ shp y = s /\
    forall o, (o < size s)%nat -> dat y o = dat d o * dprod me q o l.
Proof.
  intros s me. induction l as [|[x p] l IH]; intros q d Ha Hl.
  - exists d. splits; auto. intros. cbn. lra.
  - apply all_dom_cons in Hl. destruct Hl as (Hx & Hd & Hl). cbn [deriv_loop].
    set (a := if Nat.eqb me q then expo_val p else 1).
    set (b := if Nat.eqb me q then expo_pred p else p).
    rewrite np_power_ok.
    + destruct (inplace_mul_same d (np_map (fun t => a * t) (np_map (fun t => np_pow t b) x)) s Ha Hx)
        as (r & -> & Hs & Hr).
      destruct (IH (S q) r Hs Hl) as (y & E & Hy & Hyd). exists y. splits; auto.
      intros o Ho. rewrite Hyd, Hr by assumption. cbn [np_map dat dprod].
      unfold a, b. destruct (Nat.eqb me q); ring.
    + intros k Hk. rewrite Hx in Hk. destruct (pow_dom_defined p (dat x k) (Hd k Hk)) as [H1 H2].
      unfold b. now destruct (Nat.eqb me q).
Qed.

Lemma power_partials_number : forall s powers k ins me, all_dom s (combine ins powers) ->
  exists c, power_partials s powers (CNum k) ins me = Some (Sparse c) /\
    nnz c = size s /\ rows c = (fun i => i) /\ cols c = (fun i => i) /\
    forall o, (o < size s)%nat -> vals c o = k * dprod me 0 o (combine ins powers).
Proof.
  intros s powers k ins me Hl. unfold power_partials. cbn [coeff_after coeff_nd].
  destruct (np_bcast2_scalar Rmult k (Nd s (fun _ => 1))) as (d & -> & Hs & Hd). cbn [shp dat] in *.
  destruct (deriv_loop_spec s me (combine ins powers) 0 d Hs Hl) as (y & -> & Hy & Hyd).
  rewrite as_sparse_diag by (cbn [np_flatten shp]; now rewrite Hy).
  eexists. split; [reflexivity|]. cbn [nnz rows cols vals np_flatten dat]. splits; auto.
  intros o Ho. rewrite Hyd, Hd by assumption. ring.
Qed.

Lemma power1_correct : forall s n p k (P : R -> Prop) (meaning : list (nd R) -> nd R -> Prop),
  open_set P -> (forall x, P x -> pow_dom p x) ->
  (forall v y, (forall o, (o < size s)%nat -> P (v 0%nat o)) -> shp y = s ->
     (forall o, (o < size s)%nat -> dat y o = k * np_pow (v 0%nat o) p) ->
     meaning [Nd s (v 0%nat)] y) ->
  exists c, power_comp s [n] [p] (CNum k) = Some c /\ c_ins c = [s] /\ c_out c = s /\
    correct_within (all_entries (size s) P) c meaning.
Proof.
  intros s n p k P meaning HP Hdom Hm. unfold power_comp. cbn [names_ok existsb negb andb].
  eexists. split; [reflexivity|]. split; [reflexivity|]. split; [reflexivity|].
  assert (Hall : forall v : nat -> nat -> R, all_entries (size s) P v ->
            all_dom s (combine [Nd s (v 0%nat)] [p])).
  { intros v Hv x q [E|[]]. inversion E; subst. split; [reflexivity|]. intros j Hj. cbn. auto. }
  apply elementwise_correct with (s := s) (n := 1%nat)
    (G := fun o x => k * np_pow (x 0%nat) p)
    (D := fun v p0 o => k * (expo_val p * np_pow (v 0%nat o) (expo_pred p)));
    cbn [c_ins c_out c_compute c_partials length].
  - reflexivity.
  - reflexivity.
  - apply open_dom_entries. exact HP.
  - intros o x x' H. now rewrite H by lia.
  - intros v Hv. rewrite inputs1. unfold power_compute. cbn [coeff_nd].
    destruct (assign_scalar s k) as (kf & -> & Hk).
    destruct (power_loop_spec s (combine [Nd s (v 0%nat)] [p]) (Nd s kf) eq_refl (Hall v Hv))
      as (y & -> & Hy & Hyd).
    exists y. splits; auto. intros o Ho. rewrite Hyd by assumption. cbn [dat combine pprod].
    rewrite Hk by assumption. ring.
  - intros v y Hv Hs Hd. rewrite inputs1. now apply Hm.
  - intros v q Hv Hq. replace q with 0%nat by lia. rewrite inputs1.
    destruct (power_partials_number s [p] k [Nd s (v 0%nat)] 0 (Hall v Hv))
      as (c & -> & H1 & H2 & H3 & H4).
    exists c. splits; auto. intros o Ho. rewrite H4 by assumption.
    cbn [combine dprod Nat.eqb dat]. ring.
  - intros v q o Hv Hq Ho. replace q with 0%nat by lia.
    apply derivable_pt_lim_ext with (f := fun t => k * np_pow t p); [reflexivity|].
    apply derivable_pt_lim_scal. apply np_pow_deriv. apply Hdom. now apply Hv.
Qed.

Lemma power2_correct : forall s n m p0 p1 (meaning : list (nd R) -> nd R -> Prop) (P : R -> Prop),
  n <> m -> open_set P -> (forall x, pow_dom p0 x) -> (forall x, P x -> pow_dom p1 x) ->
  (forall v y, (forall o, (o < size s)%nat -> P (v 1%nat o)) -> shp y = s ->
     (forall o, (o < size s)%nat -> dat y o = np_pow (v 0%nat o) p0 * np_pow (v 1%nat o) p1) ->
     meaning [Nd s (v 0%nat); Nd s (v 1%nat)] y) ->
  exists c, power_comp s [n; m] [p0; p1] (CNum 1) = Some c /\ c_ins c = [s; s] /\ c_out c = s /\
    correct_within (fun v => forall o, (o < size s)%nat -> P (v 1%nat o)) c meaning.
Proof.
  intros s n m p0 p1 meaning P Hnm HP Hd0 Hd1 Hm. unfold power_comp.
  cbn [names_ok existsb orb negb andb]. apply Nat.eqb_neq in Hnm. rewrite Hnm. cbn [negb andb].
  eexists. split; [reflexivity|]. split; [reflexivity|]. split; [reflexivity|].
  assert (Hall : forall v : nat -> nat -> R, (forall o, (o < size s)%nat -> P (v 1%nat o)) ->
            all_dom s (combine [Nd s (v 0%nat); Nd s (v 1%nat)] [p0; p1])).
  { intros v Hv x q [E|[E|[]]]; inversion E; subst; (split; [reflexivity|]); intros j Hj; cbn; auto. }
  apply elementwise_correct with (s := s) (n := 2%nat)
    (G := fun o x => np_pow (x 0%nat) p0 * np_pow (x 1%nat) p1)
    (D := fun v p o => if Nat.eqb p 0
       then expo_val p0 * np_pow (v 0%nat o) (expo_pred p0) * np_pow (v 1%nat o) p1
       else np_pow (v 0%nat o) p0 * (expo_val p1 * np_pow (v 1%nat o) (expo_pred p1)));
    cbn [c_ins c_out c_compute c_partials length].
  - reflexivity.
  - reflexivity.
  - apply open_dom_entries. exact HP.
  - intros o x x' H. now rewrite !H by lia.
  - intros v Hv. rewrite inputs2. unfold power_compute. cbn [coeff_nd].
    destruct (assign_scalar s 1) as (kf & -> & Hk).
    destruct (power_loop_spec s (combine [Nd s (v 0%nat); Nd s (v 1%nat)] [p0; p1]) (Nd s kf)
                eq_refl (Hall v Hv)) as (y & -> & Hy & Hyd).
    exists y. splits; auto. intros o Ho. rewrite Hyd by assumption. cbn [dat combine pprod].
    rewrite Hk by assumption. ring.
  - intros v y Hv Hs Hd. rewrite inputs2. now apply Hm.
  - intros v q Hv Hq. rewrite inputs2.
    destruct (power_partials_number s [p0; p1] 1 [Nd s (v 0%nat); Nd s (v 1%nat)] q (Hall v Hv))
      as (c & -> & H1 & H2 & H3 & H4).
    exists c. splits; auto. intros o Ho. rewrite H4 by assumption.
    cbn [combine dprod dat]. assert (Hq2 : q = 0%nat \/ q = 1%nat) by lia.
    destruct Hq2; subst q; cbn [Nat.eqb]; ring.
  - intros v q o Hv Hq Ho. assert (Hq2 : q = 0%nat \/ q = 1%nat) by lia. destruct Hq2; subst q; cbn [Nat.eqb].
    + apply derivable_pt_lim_ext with (f := fun t => np_pow (v 1%nat o) p1 * np_pow t p0).
      { intros t. cbn. ring. }
      eapply derivable_pt_lim_eq; [|apply derivable_pt_lim_scal, np_pow_deriv, Hd0]. ring.
    + apply derivable_pt_lim_ext with (f := fun t => np_pow (v 0%nat o) p0 * np_pow t p1).
      { intros t. reflexivity. }
      apply derivable_pt_lim_scal, np_pow_deriv, Hd1. now apply Hv.
Qed.

Lemma np_pow_1 : forall x, np_pow x (EInt 1) = x.
Proof. intros x. cbn [np_pow]. change 1%Z with (Z.of_nat 1). rewrite powerRZ_nat. ring. Qed.

Lemma np_pow_m1 : forall x, np_pow x (EInt (-1)) = / x.
Proof.
  intros x. cbn [np_pow]. change (-1)%Z with (- Z.of_nat 1)%Z. rewrite powerRZ_negnat.
  now rewrite pow_1.
Qed.

Lemma all_true : forall n v, all_entries n (fun _ => True) v.
Proof. intros n v o _. exact I. Qed.

Lemma within_all_true : forall n c meaning,
  correct_within (all_entries n (fun _ => True)) c meaning -> correct c meaning.
Proof.
  intros n c meaning (_ & F & H1 & H2). exists F.
  split; [intros v; exact (H1 v (all_true n v))|intros v p _; exact (H2 v p (all_true n v))].
Qed.

(** x * y *)
Theorem mul_exprs : forall n m s, n <> m ->
  exists c, py_binop Mul (OVar n s) (OVar m s) = Expr s (Some (Some c)) /\
    c_ins c = [s; s] /\ c_out c = s /\ correct c (entries2 (op_rel Mul)).
Proof.
  intros n m s Hnm. cbn [py_binop elementwise multiplication].
  destruct (list_eq_dec Nat.eq_dec s s) as [_|F]; [|congruence].
  destruct (power2_correct s n m (EInt 1) (EInt 1) (entries2 (op_rel Mul)) (fun _ => True) Hnm)
    as (c & -> & Hi & Ho & Hc).
  - exact open_true.
  - intros x. left. lia.
  - intros x _. left. lia.
  - intros v y _ Hs Hd. apply entries2_intro; [exact Hs|]. intros o Ho. cbn [op_rel].
    rewrite Hd by assumption. rewrite ?np_pow_1, ?np_pow_m1. ring.
  - exists c. splits; auto. destruct Hc as (_ & G & H1 & H2). exists G.
    split; [intros v; apply (H1 v); auto|intros v p _; apply (H2 v p); auto].
Qed.

(** x / y where no entry of y is zero *)
Theorem div_exprs : forall n m s, n <> m ->
  exists c, py_binop Div (OVar n s) (OVar m s) = Expr s (Some (Some c)) /\
    c_ins c = [s; s] /\ c_out c = s /\
    correct_within (fun v => forall o, (o < size s)%nat -> v 1%nat o <> 0) c (entries2 (op_rel Div)).
Proof.
  intros n m s Hnm. cbn [py_binop elementwise division].
  destruct (list_eq_dec Nat.eq_dec s s) as [_|F]; [|congruence].
  destruct (power2_correct s n m (EInt 1) (EInt (-1)) (entries2 (op_rel Div)) (fun x => x <> 0) Hnm)
    as (c & -> & Hc).
  - exact open_nonzero.
  - intros x. left. lia.
  - intros x Hx. right. exact Hx.
  - intros v y Hv Hs Hd. apply entries2_intro; [exact Hs|]. intros o Ho. cbn [op_rel].
    rewrite Hd by assumption. rewrite ?np_pow_1, ?np_pow_m1. field. now apply Hv.
  - now exists c.
Qed.

(** x * c, c * x, x / c *)
Theorem scale_number : forall op n s k, op = Mul \/ (op = Div /\ k <> 0) ->
  exists c, py_binop op (OVar n s) (ONum k) = Expr s (Some (Some c)) /\
    c_ins c = [s] /\ c_out c = s /\ correct c (entries1 (fun _ x y => op_rel op x k y)).
Proof.
  intros op n s k Hop. destruct Hop as [->|[-> Hk]]; cbn [py_binop elementwise multiplication division].
  - destruct (power1_correct s n (EInt 1) k (fun _ => True) (entries1 (fun _ x y => op_rel Mul x k y)))
      as (c & -> & Hi & Ho & Hc).
    + exact open_true.
    + intros x _. left. lia.
    + intros v y _ Hs Hd. apply entries1_intro; [exact Hs|]. intros o Ho. cbn [op_rel].
      rewrite Hd by assumption. rewrite ?np_pow_1, ?np_pow_m1. ring.
    + exists c. splits; auto. eapply within_all_true. exact Hc.
  - destruct (Req_EM_T k 0) as [F|_]; [contradiction|].
    destruct (power1_correct s n (EInt 1) (1 / k) (fun _ => True) (entries1 (fun _ x y => op_rel Div x k y)))
      as (c & -> & Hi & Ho & Hc).
    + exact open_true.
    + intros x _. left. lia.
    + intros v y _ Hs Hd. apply entries1_intro; [exact Hs|]. intros o Ho. cbn [op_rel].
      rewrite Hd by assumption. rewrite ?np_pow_1, ?np_pow_m1. field. exact Hk.
    + exists c. splits; auto. eapply within_all_true. exact Hc.
Qed.

Theorem scale_left_number : forall n s k,
  exists c, py_binop Mul (ONum k) (OVar n s) = Expr s (Some (Some c)) /\
    c_ins c = [s] /\ c_out c = s /\ correct c (entries1 (fun _ x y => op_rel Mul k x y)).
Proof.
  intros n s k. cbn [py_binop elementwise multiplication].
  destruct (power1_correct s n (EInt 1) k (fun _ => True) (entries1 (fun _ x y => op_rel Mul k x y)))
      as (c & -> & Hi & Ho & Hc).
  - exact open_true.
  - intros x _. left. lia.
  - intros v y _ Hs Hd. apply entries1_intro; [exact Hs|]. intros o Ho. cbn [op_rel].
    rewrite Hd by assumption. rewrite ?np_pow_1, ?np_pow_m1. ring.
  - exists c. splits; auto. eapply within_all_true. exact Hc.
Qed.

(** c / x *)
Theorem div_left_number : forall n s k,
  exists c, py_binop Div (ONum k) (OVar n s) = Expr s (Some (Some c)) /\
    c_ins c = [s] /\ c_out c = s /\
    correct_within (all_entries (size s) (fun x => x <> 0)) c
                   (entries1 (fun _ x y => op_rel Div k x y)).
Proof.
  intros n s k. cbn [py_binop elementwise division].
  destruct (power1_correct s n (EInt (-1)) k (fun x => x <> 0) (entries1 (fun _ x y => op_rel Div k x y)))
      as (c & -> & H).
  - exact open_nonzero.
  - intros x Hx. right. exact Hx.
  - intros v y Hv Hs Hd. apply entries1_intro; [exact Hs|]. intros o Ho. cbn [op_rel].
    rewrite Hd by assumption. rewrite ?np_pow_1, ?np_pow_m1. field. now apply Hv.
  - now exists c.
Qed.

(** - x *)
Theorem neg_expr : forall n s,
  exists c, py_neg (OVar n s) = Expr s (Some (Some c)) /\
    c_ins c = [s] /\ c_out c = s /\ correct c (entries1 (fun _ x y => y = - x)).
Proof.
  intros n s. cbn [py_neg multiplication].
  destruct (power1_correct s n (EInt 1) (-1) (fun _ => True) (entries1 (fun _ x y => y = - x)))
      as (c & E & Hi & Ho & Hc).
  - exact open_true.
  - intros x _. left. lia.
  - intros v y _ Hs Hd. apply entries1_intro; [exact Hs|]. intros o Ho.
    rewrite Hd by assumption. rewrite ?np_pow_1, ?np_pow_m1. ring.
  - exists c. unfold py_neg. cbn [multiplication]. rewrite E. splits; auto. eapply within_all_true. exact Hc.
Qed.

(** x ** c *)
Lemma power_rel_ok : forall c x, power_dom c x -> power_rel c x (np_pow x (expo_of c)).
Proof.
  intros c x H. unfold power_rel. destruct (expo_of_cases c) as [(z & -> & ->)|[Hz ->]].
  - cbn [np_pow]. splits.
    + intros n E. rewrite INR_IZR_INZ in E. apply eq_IZR in E. subst z. apply powerRZ_nat.
    + intros n E. rewrite INR_IZR_INZ, <- opp_IZR in E. apply eq_IZR in E. subst z.
      destruct n as [|n]; [cbn; ring|]. rewrite powerRZ_negnat. apply Rinv_l, pow_nonzero.
      destruct H as [H|[[H _]|[m H]]]; [lra|exact H|].
      rewrite INR_IZR_INZ in H. apply eq_IZR in H. lia.
    + intros Hx. now rewrite powerRZ_Rpower.
  - cbn [np_pow]. splits.
    + intros n E. exfalso. apply (Hz (Z.of_nat n)). now rewrite E, INR_IZR_INZ.
    + intros n E. exfalso. apply (Hz (- Z.of_nat n)%Z). now rewrite E, INR_IZR_INZ, opp_IZR.
    + intros Hx. destruct (Rlt_dec 0 x); [reflexivity|contradiction].
Qed.

Lemma power_dom_open : forall c, open_set (power_dom c).
Proof.
  intros c x H. destruct H as [H|[[H Hz]|Hn]].
  - destruct (open_pos x H) as (d & Hd & K). exists d. split; [assumption|]. intros t Ht. left. now apply K.
  - destruct (open_nonzero x H) as (d & Hd & K). exists d. split; [assumption|].
    intros t Ht. right. left. split; [now apply K|assumption].
  - exists 1. split; [lra|]. intros t _. right. now right.
Qed.

Theorem power_number : forall n s k,
  exists c, py_binop Pow (OVar n s) (ONum k) = Expr s (Some (Some c)) /\
    c_ins c = [s] /\ c_out c = s /\
    correct_within (all_entries (size s) (power_dom k)) c (entries1 (fun _ => power_rel k)).
Proof.
  intros n s k. cbn [py_binop elementwise power].
  destruct (power1_correct s n (expo_of k) 1 (power_dom k) (entries1 (fun _ => power_rel k)))
      as (c & -> & H).
  - apply power_dom_open.
  - intros x Hx. destruct (expo_of_cases k) as [(z & -> & ->)|[Hz ->]]; cbn [pow_dom].
    + destruct Hx as [Hx|[[Hx _]|[m Hx]]]; [right; lra|now right|].
      left. rewrite INR_IZR_INZ in Hx. apply eq_IZR in Hx. lia.
    + destruct Hx as [Hx|[[_ [z Hx]]|[m Hx]]]; [exact Hx| |].
      * exfalso. now apply (Hz z).
      * exfalso. apply (Hz (Z.of_nat (S m))). now rewrite Hx, INR_IZR_INZ.
  - intros v y Hv Hs Hd. apply entries1_intro; [exact Hs|]. intros o Ho.
    rewrite Hd, Rmult_1_l by assumption. apply power_rel_ok. now apply Hv.
  - now exists c.
Qed.
