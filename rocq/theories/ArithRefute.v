(** What the operators do where they do not do what they should. *)
From Coq Require Import Reals Lra Lia Arith List Bool ZArith.
From Verif Require Import PyBase RSum NdArray Component JacSpec JacOpen CompReorder CompElem SpecElem
  ElemProofs ArithProofs.
Import ListNotations.
Local Open Scope R_scope.

(** ---- constant arrays as coefficients ---- *)

Lemma one_dom : forall s (x : nat -> R), all_dom s (combine [Nd s x] [EInt 1]).
Proof.
  intros s x y q [E|[]]. inversion E; subst. split; [reflexivity|]. intros k _. left. lia.
Qed.

Lemma array_value : forall s a x, shp a = s ->
  exists a', coeff_after [EInt 1] (CArr a) [Nd s x] = Some (CArr a') /\ shp a' = s /\
    forall o, (o < size s)%nat -> dat a' o = dat a o * x o.
Proof.
  intros s a x Ha. unfold coeff_after.
  destruct (value_loop_spec s _ a Ha (one_dom s x)) as (y & -> & Hs & Hd).
  exists y. splits; auto. intros o Ho. rewrite Hd by assumption. cbn [combine pprod dat].
  rewrite np_pow_1. ring.
Qed.

Theorem array_coeff_history : forall s (a : nd R) (xs : list (nat -> R)), shp a = s ->
  exists a', coeffs_after [EInt 1] (CArr a) (map (fun x => [Nd s x]) xs) = Some (CArr a') /\
    shp a' = s /\
    forall o, (o < size s)%nat -> dat a' o = dat a o * fold_right Rmult 1 (map (fun x => x o) xs).
Proof.
  intros s a xs. revert a. induction xs as [|x xs IH]; intros a Ha; cbn [map coeffs_after].
  - exists a. splits; auto. intros o _. cbn. ring.
  - destruct (array_value s a x Ha) as (a1 & -> & Hs1 & Hd1).
    destruct (IH a1 Hs1) as (a2 & E & Hs2 & Hd2). exists a2. splits; auto.
    intros o Ho. rewrite Hd2, Hd1 by assumption. cbn [map fold_right]. ring.
Qed.

Lemma array_compute : forall s a x, shp a = s ->
  exists y, power_compute s [EInt 1] (CArr a) [Nd s x] = Some y /\ shp y = s /\
    forall o, (o < size s)%nat -> dat y o = dat a o * x o.
Proof.
  intros s a x Ha. unfold power_compute. cbn [coeff_nd]. rewrite (assign_array s a Ha).
  destruct (power_loop_spec s _ (Nd s (dat a)) eq_refl (one_dom s x)) as (y & -> & Hs & Hd).
  exists y. splits; auto. intros o Ho. rewrite Hd by assumption. cbn [combine pprod dat].
  rewrite np_pow_1. ring.
Qed.

Lemma array_partials : forall s a x, shp a = s ->
  exists c, power_partials s [EInt 1] (CArr a) [Nd s x] 0 = Some (Sparse c) /\
    nnz c = size s /\ rows c = (fun i => i) /\ cols c = (fun i => i) /\
    forall o, (o < size s)%nat -> vals c o = dat a o * x o.
Proof.
  intros s a x Ha. unfold power_partials.
  destruct (array_value s a x Ha) as (a1 & -> & Hs1 & Hd1). cbn [coeff_nd].
  destruct (np_bcast2_same Rmult a1 (Nd s (fun _ => 1)) s Hs1 eq_refl) as (d & -> & Hs & Hd).
  destruct (deriv_loop_spec s 0 _ 0 d Hs (one_dom s x)) as (y & -> & Hy & Hyd).
  rewrite as_sparse_diag by (cbn [np_flatten shp]; now rewrite Hy).
  eexists. split; [reflexivity|]. cbn [nnz rows cols vals np_flatten dat]. splits; auto.
  intros o Ho. rewrite Hyd, Hd, Hd1 by assumption. cbn [combine dprod Nat.eqb dat expo_val expo_pred].
  cbn. ring.
Qed.

(** [vals o] on the diagonal *)
Definition diag_jac (s : list nat) (d : nat -> R) (j : option jac) : Prop :=
  exists c, j = Some (Sparse c) /\
    forall o i, (o < size s)%nat -> (i < size s)%nat ->
      coo_entry c o i = if Nat.eqb o i then d o else 0.

Lemma diag_entry : forall n c o i, nnz c = n -> rows c = (fun i => i) -> cols c = (fun i => i) ->
  (o < n)%nat -> (i < n)%nat -> coo_entry c o i = if Nat.eqb o i then vals c o else 0.
Proof.
  intros n c o i Hn Hr Hc Ho Hi. unfold coo_entry. rewrite Hn, Hr, Hc.
  destruct (Nat.eqb_spec o i) as [->|Hne].
  - rewrite rsum_single with (j := i); [now rewrite !Nat.eqb_refl|assumption|].
    intros k Hk Hne. destruct (Nat.eqb_spec k i); [contradiction|reflexivity].
  - apply rsum_zero. intros k Hk.
    destruct (Nat.eqb_spec k o); destruct (Nat.eqb_spec k i); subst; cbn; congruence.
Qed.

(** The component of x * A after linearizations at [xs], then evaluated and
    linearized at [x]: the coefficient has become A times all the earlier x's,
    and the reported derivative has one factor x too many. *)
Theorem mul_array_actual : forall n s (a : nd R) (xs : list (nat -> R)) (x : nat -> R), shp a = s ->
  py_binop Mul (OVar n s) (OArr a) = Expr s (Some (power_comp s [n] [EInt 1] (CArr a))) /\
  exists a', coeffs_after [EInt 1] (CArr a) (map (fun x => [Nd s x]) xs) = Some (CArr a') /\
    (exists y, power_compute s [EInt 1] (CArr a') [Nd s x] = Some y /\ shp y = s /\
       forall o, (o < size s)%nat ->
         dat y o = dat a o * fold_right Rmult 1 (map (fun x => x o) xs) * x o) /\
    diag_jac s (fun o => dat a o * fold_right Rmult 1 (map (fun x => x o) xs) * x o)
      (power_partials s [EInt 1] (CArr a') [Nd s x] 0).
Proof.
  intros n s a xs x Ha. split; [reflexivity|].
  destruct (array_coeff_history s a xs Ha) as (a' & E & Hs & Hd). exists a'. split; [exact E|]. split.
  - destruct (array_compute s a' x Hs) as (y & Ey & Hy & Hyd). exists y. splits; auto.
    intros o Ho. now rewrite Hyd, Hd by assumption.
  - destruct (array_partials s a' x Hs) as (c & Ec & H1 & H2 & H3 & H4). exists c. split; [exact Ec|].
    intros o i Ho Hi. rewrite (diag_entry (size s)) by assumption.
    now rewrite H4, Hd by assumption.
Qed.

(** Already the first derivative is wrong, whatever the component is meant to
    compute. *)
Theorem mul_array_wrong : forall n s (a : nd R) o, shp a = s -> (o < size s)%nat -> dat a o <> 0 ->
  exists c, py_binop Mul (OVar n s) (OArr a) = Expr s (Some (Some c)) /\
    forall meaning : list (nd R) -> nd R -> Prop, ~ correct c meaning.
Proof.
  intros n s a o Ha Ho Hne. cbn [py_binop elementwise multiplication]. unfold power_comp.
  cbn [names_ok existsb negb andb]. eexists. split; [reflexivity|]. intros meaning (F & H1 & H2).
  cbn [c_ins c_out c_compute c_partials length] in *.
  assert (HF : forall v, F v o = dat a o * v 0%nat o).
  { intros v. destruct (H1 v) as [E _]. rewrite inputs1 in E.
    destruct (array_compute s a (v 0%nat) Ha) as (y & Ey & _ & Hd). rewrite E in Ey.
    inversion Ey; subst y. now apply Hd. }
  set (v0 := fun (_ _ : nat) => 0).
  destruct (H2 v0 0%nat I ltac:(cbn; lia)) as (j & Ej & Hj). rewrite inputs1 in Ej.
  destruct (array_partials s a (v0 0%nat) Ha) as (c & Ec & Hn & Hr & Hc & Hv).
  rewrite Ec in Ej. inversion Ej; subst j. destruct Hj as [_ Hj].
  specialize (Hj o o Ho Ho). unfold partial_at in Hj.
  rewrite (diag_entry (size s)), Nat.eqb_refl, Hv in Hj by assumption.
  apply Hne. transitivity (dat a o * v0 0%nat o); [|unfold v0; ring].
  eapply uniqueness_limite; [|exact Hj].
  apply derivable_pt_lim_ext with (f := fun t => dat a o * t).
  { intros t. rewrite HF. unfold set_op, upd. now rewrite !Nat.eqb_refl. }
  eapply derivable_pt_lim_eq; [|apply derivable_pt_lim_scal, derivable_pt_lim_id]. ring.
Qed.

Example mul_array_instance : let a := Nd [2%nat] (fun _ => 5) in
  shp a = [2%nat] /\ (1 < size [2])%nat /\ dat a 1%nat <> 0.
Proof. cbn. splits; [reflexivity|lia|lra]. Qed.

(** ---- exponent arrays ---- *)

Theorem power_array_first : forall n m (p : nd R), shp p = [m] -> (0 < m)%nat ->
  exists c c0, py_binop Pow (OVar n [m]) (OArr p) = Expr [m] (Some (Some c)) /\
    py_binop Pow (OVar n [m]) (ONum (dat p 0%nat)) = Expr [m] (Some (Some c0)) /\
    c_ins c = c_ins c0 /\ c_out c = c_out c0 /\
    forall x, c_compute c [x] = c_compute c0 [x] /\ c_partials c [x] 0%nat = c_partials c0 [x] 0%nat.
Proof.
  intros n m p Hp Hm. cbn [py_binop elementwise power]. rewrite Hp.
  destruct (list_eq_dec Nat.eq_dec [m] [m]) as [_|F]; [|congruence].
  unfold np_list. rewrite Hp. replace (size [m]) with (S (m - 1)) by (cbn; lia).
  cbn [length Nat.eqb seq map]. unfold power_comp. cbn [names_ok existsb negb andb].
  eexists. eexists. split; [reflexivity|]. split; [reflexivity|].
  split; [reflexivity|]. split; [reflexivity|]. intros x. cbn [c_compute c_partials]. split; reflexivity.
Qed.

(** The result is wrong as soon as some exponent differs from the first. *)
Theorem power_array_wrong : forall n m (p : nd R) o, shp p = [m] -> (o < m)%nat ->
  dat p o <> dat p 0%nat ->
  exists c, py_binop Pow (OVar n [m]) (OArr p) = Expr [m] (Some (Some c)) /\
    ~ correct_within (all_entries m (fun x => 0 < x)) c (entries1 (fun idx => power_rel (get p idx))).
Proof.
  intros n m p o Hp Ho Hne.
  destruct (power_array_first n m p Hp ltac:(lia)) as (c & c0 & E & E0 & Hi & Hout & Hx).
  exists c. split; [exact E|]. intros (_ & F & H1 & _).
  destruct (power_number n [m] (dat p 0%nat)) as (c1 & E1 & Hi1 & Ho1 & (_ & F1 & K1 & _)).
  assert (c1 = c0) by congruence. subst c1.
  set (v := fun (_ _ : nat) => exp 1).
  assert (Hpos : 0 < exp 1) by apply exp_pos.
  destruct (H1 v ltac:(intros k _; exact Hpos)) as [A1 A2].
  destruct (K1 v ltac:(intros k _; now left)) as [B1 B2].
  rewrite Hi, Hi1, Hout, Ho1 in *.
  change (inputs_of [[m]] v) with [Nd [m] (v 0%nat)] in *.
  destruct (Hx (Nd [m] (v 0%nat))) as [Hc _]. rewrite Hc, B1 in A1. injection A1 as A1.
  destruct A2 as (x & Ex & _ & A2). injection Ex as Ex. subst x.
  destruct B2 as (x & Ex & _ & B2). injection Ex as Ex. subst x.
  assert (Hin : inb [m] [o]) by (cbn; auto).
  specialize (A2 [o] Hin). specialize (B2 [o] Hin).
  destruct A2 as (_ & _ & A2). destruct B2 as (_ & _ & B2).
  assert (Hg : forall f : nat -> R, get (Nd [m] f) [o] = f o).
  { intros f. unfold get. cbn [shp dat]. f_equal. cbn. lia. }
  assert (Hgp : get p [o] = dat p o).
  { unfold get. rewrite Hp. f_equal. cbn. lia. }
  rewrite !Hg in A2, B2. rewrite Hgp in A2. rewrite A1 in B2. specialize (A2 Hpos). specialize (B2 Hpos).
  rewrite A2 in B2. unfold v in B2. apply exp_inv in B2. rewrite ln_exp in B2. apply Hne. lra.
Qed.

Example power_array_instance : let p := Nd [2%nat] (fun k => INR k + 1) in
  shp p = [2%nat] /\ (1 < 2)%nat /\ dat p 1%nat <> dat p 0%nat.
Proof. cbn. splits; [reflexivity|lia|lra]. Qed.

(** ---- unsupported operands, shapes, zero ---- *)

Theorem other_operands : forall op n s,
  py_binop op (OVar n s) OOther = Expr (match op with Pow => [1%nat] | _ => s end) None /\
  py_binop op OOther (OVar n s) = Raises /\
  forall m t, py_binop Pow (OVar n s) (OVar m t) = Expr [1%nat] None.
Proof. intros op n s. destruct op; repeat split; reflexivity. Qed.

Theorem shapes_accepted : forall op n m s t, op <> Pow ->
  (py_binop op (OVar n s) (OVar m t) <> Raises <-> s = t) /\
  (s = t -> exists b, py_binop op (OVar n s) (OVar m t) = Expr s b).
Proof.
  intros op n m s t Hop.
  destruct op; try congruence;
    cbn [py_binop elementwise addition subtraction multiplication division];
    destruct (list_eq_dec Nat.eq_dec s t) as [->|Hne]; split; try (split; congruence);
    try (intros; eexists; reflexivity); intros; congruence.
Qed.

Theorem divide_by_number : forall n s c,
  (c = 0 -> py_binop Div (OVar n s) (ONum c) = Raises) /\
  (c <> 0 -> exists k, py_binop Div (OVar n s) (ONum c) = Expr s (Some (Some k))).
Proof.
  intros n s c. cbn [py_binop elementwise division]. destruct (Req_EM_T c 0) as [E|E].
  - split; [reflexivity|contradiction].
  - split; [contradiction|]. intros _. eexists. reflexivity.
Qed.

(** an expression combined with itself *)
Theorem same_operand : forall op n s, op <> Pow ->
  py_binop op (OVar n s) (OVar n s) = Expr s (Some None).
Proof.
  intros op n s Hop.
  destruct op; try congruence;
    cbn [py_binop elementwise addition subtraction multiplication division];
    (destruct (list_eq_dec Nat.eq_dec s s) as [_|F]; [|congruence]);
    unfold linear_comp, power_comp; cbn [names_ok existsb]; rewrite Nat.eqb_refl; reflexivity.
Qed.

(** constant arrays on the left, and as divisors *)
Theorem array_operands : forall n s a,
  (forall op, op <> Pow -> py_binop op (OArr a) (OVar n s) = ArrayOfExprs) /\
  (size (shp a) <> 1%nat -> py_binop Div (OVar n s) (OArr a) = Raises).
Proof.
  intros n s a. split.
  - intros op Hop. destruct op; try congruence; reflexivity.
  - intros H. cbn [py_binop elementwise division]. apply Nat.eqb_neq in H. now rewrite H.
Qed.

(** which operands give an expression that computes nothing *)
Theorem unsupported_exact : forall op a b,
  (exists s, py_binop op a b = Expr s None) <->
  (exists n s, a = OVar n s) /\ (b = OOther \/ op = Pow /\ exists m t, b = OVar m t).
Proof.
  intros op a b. split.
  - intros [s' H]. destruct a as [n s|c|c|]; destruct b as [m t|d|d|]; destruct op; cbn in H; try discriminate;
      repeat match goal with H : context [if ?c then _ else _] |- _ => destruct c; try discriminate end; split; eauto 6.
  - intros [(n & s & ->) [->|[-> (m & t & ->)]]]; [|eexists; reflexivity].
    destruct op; eexists; reflexivity.
Qed.

(** constant arrays on the right *)
Theorem arrays_right : forall n s a,
  (forall op, op = Add \/ op = Sub \/ op = Mul -> exists k, py_binop op (OVar n s) (OArr a) = Expr s (Some (Some k))) /\
  (py_binop Div (OVar n s) (OArr a) <> Raises <-> size (shp a) = 1%nat /\ dat a 0%nat <> 0) /\
  (py_binop Div (OVar n s) (OArr a) <> Raises -> exists k, py_binop Div (OVar n s) (OArr a) = Expr s (Some (Some k))) /\
  py_binop Pow (OArr a) (OVar n s) = Raises.
Proof.
  intros n s a. splits; [|cbn [py_binop elementwise division]|cbn [py_binop elementwise division]|reflexivity].
  - intros op [->|[->| ->]]; eexists; reflexivity.
  - destruct (Nat.eqb_spec (size (shp a)) 1) as [E|E]; [|split; [congruence|tauto]].
    destruct (Req_EM_T (dat a 0%nat) 0) as [Z|Z]; [split; [congruence|tauto]|]. split; [auto|discriminate].
  - destruct (Nat.eqb (size (shp a)) 1); [|congruence].
    destruct (Req_EM_T (dat a 0%nat) 0); [congruence|]. intros _. eexists. reflexivity.
Qed.

Example arith_instance :
  (2 <> 3)%nat /\ (3 : R) <> 0 /\ power_dom (-2) 5 /\ power_dom (/ 2) 4 /\ power_dom (INR 3) (-1) /\
  ~ power_dom (-2) 0.
Proof.
  splits; [lia|lra|left; lra|left; lra|right; right; now exists 2%nat|].
  intros [H|[[H _]|[n H]]]; [lra|now apply H|].
  pose proof (pos_INR (S n)). lra.
Qed.
