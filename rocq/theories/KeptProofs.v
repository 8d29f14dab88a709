(** The calls max, min and pnorm; values kept between compute and
    compute_partials. *)
From Coq Require Import Reals Lra Lia Arith List Bool ZArith.
From Verif Require Import PyBase RSum NdArray NdEinsum Component CompReorder CompReduce CompElem CompExtremum
  CompNorm JacSpec JacOpen SpecReduce SpecExtremum SpecNorm ReduceProofs ArithProofs ExpandEinsum KsMath ExtremumProofs
  NormProofs.
Import ListNotations.
Local Open Scope R_scope.

(** ---- max and min ---- *)

Lemma all_shapes_true : forall s l, Forall (fun e => snd e = s) l -> all_shapes s l = true.
Proof.
  intros s l H. unfold all_shapes. apply forallb_forall. intros e He.
  rewrite Forall_forall in H. rewrite (H e He). destruct (list_eq_dec Nat.eq_dec s s); congruence.
Qed.

Theorem extremum_elementwise : forall neg exprs s rho,
  (2 <= length exprs)%nat -> NoDup (map fst exprs) -> Forall (fun e => snd e = s) exprs -> 0 < rho ->
  exists c, extremum neg exprs None rho = Some (s, Some c) /\
    c_ins c = repeat s (length exprs) /\ c_out c = s /\
    correct c (ext_elementwise neg rho) /\ convex_weights c.
Proof.
  intros neg exprs s rho Hl Hn Hs Hr.
  destruct exprs as [|[n1 s1] [|[n2 s2] l]]; cbn [length] in Hl; try lia.
  assert (E1 : s1 = s) by (now inversion Hs). subst s1.
  assert (Hlen : (0 < length (map fst ((n1, s) :: (n2, s2) :: l)))%nat) by (cbn; lia).
  destruct (elementwise_ext_correct neg rho s _ Hlen Hn Hr) as (c & E & Hi & Ho & Hc & Hw).
  exists c. unfold extremum. rewrite all_shapes_true by assumption.
  rewrite E. splits; auto. rewrite Hi. now rewrite map_length.
Qed.

Lemma norm_axis_named : forall r z a, axis_named r z a -> norm_axis r z = Some a.
Proof.
  intros r z a H. pose proof (norm_axes_named r [z] [a] (Forall2_cons _ _ H (Forall2_nil _))) as E.
  cbn [norm_axes] in E. destruct (norm_axis r z); congruence.
Qed.

Theorem extremum_axis : forall neg n s z a rho,
  axis_named (length s) z a -> (0 < nth a s 0)%nat -> (length s <= 12)%nat -> 0 < rho ->
  exists c, extremum neg [(n, s)] (Some z) rho = Some (drop_axes [a] s, Some c) /\
    c_ins c = [s] /\ c_out c = drop_axes [a] s /\
    correct c (ext_axis neg rho a) /\ convex_weights c.
Proof.
  intros neg n s z a rho Hz Hpos Hl Hr.
  destruct (axis_ext_correct neg rho s a Hl (proj1 Hz) Hpos Hr) as (c & E & Hi & Ho & Hc & Hw).
  exists c. cbn [extremum]. rewrite (norm_axis_named _ _ _ Hz), E, delete_drop. splits; auto.
Qed.

Theorem extremum_all : forall neg n s rho, (0 < size s)%nat -> 0 < rho ->
  exists c, extremum neg [(n, s)] None rho = Some ([1%nat], Some c) /\
    c_ins c = [s] /\ c_out c = [1%nat] /\
    correct c (ext_all neg rho) /\ convex_weights c.
Proof.
  intros neg n s rho Hpos Hr. destruct (scalar_ext_correct neg rho s Hpos Hr) as [Hc Hw].
  eexists. cbn [extremum]. splits; [reflexivity|reflexivity|reflexivity|exact Hc|exact Hw].
Qed.

Theorem extremum_rejects : forall neg exprs axis rho,
  (2 <= length exprs)%nat ->
  axis <> None \/ (exists e e', In e exprs /\ In e' exprs /\ snd e <> snd e') ->
  extremum neg exprs axis rho = None.
Proof.
  intros neg exprs axis rho Hl H.
  destruct exprs as [|[n1 s1] [|[n2 s2] l]]; cbn [length] in Hl; try lia.
  destruct axis as [z|]; [reflexivity|].
  destruct H as [H|(e & e' & He & He' & Hne)]; [congruence|].
  unfold extremum. destruct (all_shapes s1 ((n1, s1) :: (n2, s2) :: l)) eqn:E; [|reflexivity].
  exfalso. unfold all_shapes in E. rewrite forallb_forall in E.
  pose proof (E e He) as H1. pose proof (E e' He') as H2. cbn beta in H1, H2.
  destruct (list_eq_dec Nat.eq_dec s1 (snd e)); destruct (list_eq_dec Nat.eq_dec s1 (snd e')); congruence.
Qed.

(** the same expression among the operands twice *)
Theorem extremum_repeated : forall neg n s rho l, In n (map fst l) -> Forall (fun e => snd e = s) l ->
  extremum neg ((n, s) :: l) None rho = Some (s, None).
Proof.
  intros neg n s rho l Hin Hs. destruct l as [|e l]; [contradiction|].
  unfold extremum. rewrite all_shapes_true by now constructor.
  unfold elementwise_ext. change (map fst ((n, s) :: e :: l)) with (n :: map fst (e :: l)).
  set (m := map fst (e :: l)) in *. cbn [names_ok].
  assert (E : existsb (Nat.eqb n) m = true).
  { apply existsb_exists. exists n. split; [assumption|apply Nat.eqb_refl]. }
  now rewrite E.
Qed.

(** ---- pnorm ---- *)

Lemma order_test : forall p, negb (Z.eqb (p mod 2) 0) || Z.leb p 0 = false <->
  exists m, (1 <= m)%nat /\ p = order m.
Proof.
  intros p. rewrite orb_false_iff, negb_false_iff, Z.eqb_eq, Z.leb_gt. split.
  - intros [H1 H2]. exists (Z.to_nat (p / 2)). pose proof (Z.div_mod p 2 ltac:(lia)). unfold order. split; lia.
  - intros (m & Hm & ->). unfold order. rewrite Nat2Z.inj_mul. split; [|lia].
    change (Z.of_nat 2) with 2%Z. rewrite Z.mul_comm. now apply Z.mod_mul.
Qed.

Theorem pnorm_accepts : forall s p axis,
  pnorm s p axis <> None <->
  (exists m, (1 <= m)%nat /\ p = Z.of_nat (2 * m)) /\
  match axis with
  | NormAll => True
  | NormAxes zs => exists axes, Forall2 (axis_named (length s)) zs axes
  | NormAxisOther => False
  end.
Proof.
  intros s p axis. unfold pnorm.
  assert (Hax : forall zs, norm_axes (length s) zs <> None <-> exists axes, Forall2 (axis_named (length s)) zs axes).
  { intros zs. split.
    - induction zs as [|z zs IH]; cbn [norm_axes]; intros H; [exists []; constructor|].
      destruct (norm_axis (length s) z) as [a|] eqn:Ea; [|congruence].
      destruct (norm_axes (length s) zs) as [l|] eqn:El; [|congruence].
      destruct IH as [axes Haxes]; [discriminate|]. exists (a :: axes). constructor; [|assumption].
      unfold norm_axis in Ea.
      destruct ((0 <=? z) && (z <? Z.of_nat (length s)))%Z eqn:E1.
      + injection Ea as <-. apply andb_prop in E1. rewrite Z.leb_le, Z.ltb_lt in E1. split; [lia|left; lia].
      + destruct ((- Z.of_nat (length s) <=? z) && (z <? 0))%Z eqn:E2; [|discriminate].
        injection Ea as <-. apply andb_prop in E2. rewrite Z.leb_le, Z.ltb_lt in E2. split; [lia|right; lia].
    - intros [axes H]. rewrite (norm_axes_named _ _ _ H). discriminate. }
  destruct axis as [|zs|].
  - destruct (negb (Z.eqb (p mod 2) 0) || Z.leb p 0) eqn:E.
    + split; [congruence|]. intros [H _]. apply (proj2 (order_test p)) in H. congruence.
    + split; [|discriminate]. intros _. split; [|exact I]. now apply order_test.
  - destruct (negb (Z.eqb (p mod 2) 0) || Z.leb p 0) eqn:E.
    + split; [congruence|]. intros [H _]. apply (proj2 (order_test p)) in H. congruence.
    + rewrite <- Hax. split.
      * intros H. split; [now apply order_test|]. destruct (norm_axes (length s) zs); [discriminate|now elim H].
      * intros [_ H]. destruct (norm_axes (length s) zs); [discriminate|now elim H].
  - split; [congruence|]. now intros [_ []].
Qed.

Theorem pnorm_all : forall s m, (1 <= m)%nat ->
  exists c, pnorm s (Z.of_nat (2 * m)) NormAll = Some ([1%nat], Some c) /\
    c_ins c = [s] /\ c_out c = [1%nat] /\ computes c (norm_meaning m) /\
    correct_within (norm_nonzero s) c (norm_meaning m).
Proof.
  intros s m Hm. destruct (norm_comp_correct m s Hm) as [H1 H2].
  exists (norm_comp (order m) s). unfold pnorm.
  rewrite (proj2 (order_test (Z.of_nat (2 * m)))) by now exists m.
  splits; auto.
Qed.

Theorem pnorm_axes : forall s m zs axes, (1 <= m)%nat ->
  Forall2 (axis_named (length s)) zs axes -> NoDup axes -> (length axes < length s <= 26)%nat ->
  exists c, pnorm s (Z.of_nat (2 * m)) (NormAxes zs) = Some (drop_axes axes s, Some c) /\
    c_ins c = [s] /\ c_out c = drop_axes axes s /\ computes c (axis_norm_meaning m axes) /\
    correct_within (axis_norm_nonzero s axes) c (axis_norm_meaning m axes).
Proof.
  intros s m zs axes Hm Hz Hd [Hk Hl]. destruct (axis_norm_correct m s axes Hm Hd) as [H1 H2].
  exists (axis_norm_comp (order m) s axes). unfold pnorm.
  rewrite (proj2 (order_test (Z.of_nat (2 * m)))) by now exists m.
  rewrite (norm_axes_named _ _ _ Hz), (proj2 (Nat.leb_le _ _) Hl), axis_left_some, delete_drop by assumption.
  cbn [andb].
  splits; auto. cbn [axis_norm_comp c_out]. apply delete_drop.
Qed.

(** ---- kept values ---- *)

Lemma jac_unique : forall nout nin f x j j',
  exact_jac nout nin f x j -> exact_jac nout nin f x j' ->
  forall o i, (o < nout)%nat -> (i < nin)%nat -> jac_entry nin j o i = jac_entry nin j' o i.
Proof.
  intros nout nin f x j j' H H' o i Ho Hi.
  assert (G : forall k, exact_jac nout nin f x k -> partial_at (fun x' => f x' o) x i (jac_entry nin k o i)).
  { intros [k|k] [_ Hk]; cbn [jac_entry]; now apply Hk. }
  unfold partial_at in G. eapply uniqueness_limite; [apply (G j H)|apply (G j' H')].
Qed.

Lemma exact_jac_ext : forall nout nin f g x j, (forall x' o, (o < nout)%nat -> f x' o = g x' o) ->
  exact_jac nout nin f x j -> exact_jac nout nin g x j.
Proof.
  intros nout nin f g x j E H.
  assert (K : forall J, jacobian_at nout nin f x J -> jacobian_at nout nin g x J).
  { intros J HJ o i Ho Hi. unfold partial_at. eapply derivable_pt_lim_ext; [|exact (HJ o i Ho Hi)].
    intros t. cbn beta. now apply E. }
  destruct j; destruct H as [H1 H2]; split; auto.
Qed.

(** a correct component, asked for derivatives where it computed its value *)
Lemma right_fresh : forall c meaning s x, correct c meaning -> c_ins c = [s] ->
  exists j, c_partials c [Nd s x] 0 = Some j /\ right_at c x j.
Proof.
  intros c meaning s x (F & H1 & H2) Hi. unfold right_at. rewrite Hi. rewrite Hi in H1, H2. cbn [nth].
  assert (HF : forall v, value_of c v = F v).
  { intros v. unfold value_of. rewrite Hi. destruct (H1 v) as [E _]. now rewrite E. }
  destruct (H2 (fun _ => x) 0%nat I ltac:(cbn; lia)) as (j & Ej & He).
  exists j. split; [exact Ej|]. cbn [nth] in He.
  apply exact_jac_ext with (f := fun x0 => F (set_op (fun _ => x) 0 x0)); [|exact He].
  intros x' o Ho. rewrite HF.
  pose proof (proj1 (H1 (set_op (fun _ => x) 0 x'))) as E1. pose proof (proj1 (H1 (fun _ => x'))) as E2.
  change (inputs_of [s] (set_op (fun _ => x) 0 x')) with [Nd s x'] in E1.
  change (inputs_of [s] (fun _ => x')) with [Nd s x'] in E2. congruence.
Qed.

(** axis-wise extremum: whatever the current point, the derivatives of the point
    computed last; they need not be those of the current point *)
Theorem axis_ext_kept : forall neg rho s a old now,
  (length s <= 12)%nat -> (a < length s)%nat -> (0 < nth a s 0)%nat -> 0 < rho ->
  exists c j, axis_ext neg rho s a = Some c /\
    axis_ext_partials_after neg rho s a (Some (Nd s old)) now = Some j /\ right_at c old j.
Proof.
  intros neg rho s a old now Hl Ha Hpos Hr.
  destruct (axis_ext_correct neg rho s a Hl Ha Hpos Hr) as (c & E & Hi & Ho & Hc & Hw).
  destruct (right_fresh c _ s old Hc Hi) as (j & Ej & Hj). exists c, j. splits; auto.
  unfold axis_ext in E. rewrite (proj2 (Nat.leb_le _ _) Hl) in E. injection E as <-. exact Ej.
Qed.

Theorem scalar_ext_kept : forall neg rho s old now, (0 < size s)%nat -> 0 < rho ->
  exists j, scalar_ext_partials_after neg rho (Some (Nd s old)) now = Some j /\
    right_at (scalar_ext neg rho s) old j.
Proof.
  intros neg rho s old now Hpos Hr.
  destruct (scalar_ext_correct neg rho s Hpos Hr) as [Hc Hw].
  destruct (right_fresh _ _ s old Hc eq_refl) as (j & Ej & Hj). exists j. split; [exact Ej|exact Hj].
Qed.

(** the smooth maximum of two entries *)
Definition two (a b : R) : nat -> R := fun k => match k with 0%nat => a | _ => b end.

Lemma scalar_weight : forall rho a b j, 0 < rho ->
  scalar_ext_partials_after false rho (Some (Nd [2%nat] (two a b))) (Nd [2%nat] (two a b)) = Some j ->
  jac_entry 2 j 0 0 = exp (rho * a) / (exp (rho * a) + exp (rho * b)).
Proof.
  intros rho a b j Hr E. unfold scalar_ext_partials_after in E.
  destruct (scalar_run_spec false rho [2%nat] (two a b) ltac:(cbn; lia) ltac:(lra))
    as (y & kept & E1 & _ & _ & Hk).
  rewrite E1 in E. injection E as <-. cbn [jac_entry]. unfold dense_entry. cbn [np_flatten dat Nat.mul Nat.add].
  rewrite Hk. unfold ks_weight, bsum. change (size [2%nat]) with 2%nat. cbn [rsum all_true_b two sgn].
  replace (1 * a) with a by ring. replace (1 * b) with b by ring. f_equal. ring.
Qed.

Theorem scalar_ext_stale : forall rho, 0 < rho ->
  exists old now j,
    scalar_ext_partials_after false rho (Some (Nd [2%nat] old)) (Nd [2%nat] now) = Some j /\
    ~ right_at (scalar_ext false rho [2%nat]) now j.
Proof.
  intros rho Hr. exists (two 0 0), (two 1 0).
  destruct (scalar_ext_kept false rho [2%nat] (two 0 0) (Nd [2%nat] (two 1 0)) ltac:(cbn; lia) Hr) as (j & Ej & _).
  destruct (scalar_ext_kept false rho [2%nat] (two 1 0) (Nd [2%nat] (two 1 0)) ltac:(cbn; lia) Hr) as (j' & Ej' & Hj').
  exists j. split; [exact Ej|]. intros H.
  pose proof (jac_unique _ _ _ _ _ _ H Hj' 0%nat 0%nat ltac:(cbn; lia) ltac:(cbn; lia)) as U.
  change (size (nth 0 (c_ins (scalar_ext false rho [2%nat])) [])) with 2%nat in U.
  rewrite (scalar_weight rho 1 0 j' Hr Ej') in U.
  assert (Ej0 : scalar_ext_partials_after false rho (Some (Nd [2%nat] (two 0 0))) (Nd [2%nat] (two 0 0)) = Some j)
    by exact Ej.
  rewrite (scalar_weight rho 0 0 j Hr Ej0) in U.
  rewrite Rmult_0_r, Rmult_1_r, exp_0 in U.
  assert (E1 : 1 < exp rho) by (rewrite <- exp_0; now apply exp_increasing).
  assert (U' : (1 + 1) * exp rho = exp rho + 1).
  { apply (f_equal (fun z => z * (exp rho + 1) * (1 + 1))) in U. field_simplify in U; lra. }
  lra.
Qed.

Lemma axis_weight : forall rho a b j, 0 < rho ->
  axis_ext_partials_after false rho [2; 1]%nat 0 (Some (Nd [2; 1]%nat (two a b))) (Nd [2; 1]%nat (two a b)) = Some j ->
  jac_entry 2 j 0 0 = exp (rho * a) / (exp (rho * a) + exp (rho * b)).
Proof.
  intros rho a b j Hr E. unfold axis_ext_partials_after in E.
  destruct (axis_run_spec false rho [2; 1]%nat 0 (two a b) ltac:(cbn; lia) ltac:(cbn; lia) ltac:(lra))
    as (y & kept & E1 & _ & Hs & _ & Hk).
  rewrite E1 in E.
  destruct (axis_coo [2; 1]%nat 0 kept ltac:(cbn; lia) Hs) as (c & Ec & _ & Hent).
  rewrite Ec in E. injection E as <-. cbn [jac_entry]. rewrite Hent by (cbn; lia).
  change (in_row [2; 1]%nat 0 0 0) with true. cbn iota. rewrite Hk by (cbn; lia).
  unfold ks_weight, bsum. change (size [2; 1]%nat) with 2%nat. cbn [rsum].
  change (in_row [2; 1]%nat 0 (row_of [2; 1]%nat [0%nat] 0) 0) with true.
  change (in_row [2; 1]%nat 0 (row_of [2; 1]%nat [0%nat] 0) 1) with true.
  cbn [two sgn]. cbn iota.
  replace (1 * a) with a by ring. replace (1 * b) with b by ring. f_equal. ring.
Qed.

Theorem axis_ext_stale : forall rho, 0 < rho ->
  exists c old now j, axis_ext false rho [2; 1]%nat 0 = Some c /\
    axis_ext_partials_after false rho [2; 1]%nat 0 (Some (Nd [2; 1]%nat old)) (Nd [2; 1]%nat now) = Some j /\
    ~ right_at c now j.
Proof.
  intros rho Hr.
  destruct (axis_ext_kept false rho [2; 1]%nat 0 (two 0 0) (Nd [2; 1]%nat (two 1 0)) ltac:(cbn; lia) ltac:(cbn; lia)
              ltac:(cbn; lia) Hr) as (c & j & Ec & Ej & _).
  destruct (axis_ext_kept false rho [2; 1]%nat 0 (two 1 0) (Nd [2; 1]%nat (two 1 0)) ltac:(cbn; lia) ltac:(cbn; lia)
              ltac:(cbn; lia) Hr) as (c' & j' & Ec' & Ej' & Hj').
  exists c, (two 0 0), (two 1 0), j. splits; [exact Ec|exact Ej|]. intros H.
  assert (c' = c) by congruence. subst c'.
  assert (Hi : c_ins c = [[2; 1]%nat] /\ c_out c = [1%nat]) by (injection Ec as <-; split; reflexivity).
  destruct Hi as [Hi Ho].
  pose proof (jac_unique _ _ _ _ _ _ H Hj' 0%nat 0%nat) as U. rewrite Hi, Ho in U. cbn [nth] in U.
  specialize (U ltac:(cbn; lia) ltac:(cbn; lia)).
  change (size [2; 1]%nat) with 2%nat in U. rewrite (axis_weight rho 1 0 j' Hr Ej') in U.
  assert (Ej0 : axis_ext_partials_after false rho [2; 1]%nat 0 (Some (Nd [2; 1]%nat (two 0 0)))
                  (Nd [2; 1]%nat (two 0 0)) = Some j) by exact Ej.
  rewrite (axis_weight rho 0 0 j Hr Ej0) in U.
  rewrite Rmult_0_r, Rmult_1_r, exp_0 in U.
  assert (E1 : 1 < exp rho) by (rewrite <- exp_0; now apply exp_increasing).
  assert (U' : (1 + 1) * exp rho = exp rho + 1).
  { apply (f_equal (fun z => z * (exp rho + 1) * (1 + 1))) in U. field_simplify in U; lra. }
  lra.
Qed.

(** p-norm: the derivatives at [now] are computed with the norm of [old]; they
    are right exactly when the two norms agree *)
Lemma pow_lt_strict : forall n a b, 0 <= a < b -> a ^ S n < b ^ S n.
Proof.
  induction n as [|n IH]; intros a b H; [cbn; lra|].
  specialize (IH a b H). pose proof (pow_le a (S n) (proj1 H)) as HA.
  change (a ^ S (S n)) with (a * a ^ S n). change (b ^ S (S n)) with (b * b ^ S n).
  apply Rle_lt_trans with (a * b ^ S n).
  - apply Rmult_le_compat_l; lra.
  - apply Rmult_lt_compat_r; lra.
Qed.

Lemma pow_inj : forall n a b, 0 <= a -> 0 <= b -> a ^ S n = b ^ S n -> a = b.
Proof.
  intros n a b Ha Hb E. destruct (Rtotal_order a b) as [H|[H|H]]; [|assumption|].
  - pose proof (pow_lt_strict n a b ltac:(lra)). lra.
  - pose proof (pow_lt_strict n b a ltac:(lra)). lra.
Qed.

Lemma norm_of_unique : forall m n b x y y', (1 <= m)%nat -> norm_of m n b x y -> norm_of m n b x y' -> y = y'.
Proof.
  intros m n b x y y' Hm [H1 H2] [H3 H4]. replace (2 * m)%nat with (S (2 * m - 1)) in * by lia.
  apply (pow_inj (2 * m - 1)); auto. now rewrite H2, H4.
Qed.

Lemma powerRZ_neg_inj : forall m a b, 0 < a -> 0 < b -> (1 <= m)%nat ->
  powerRZ a (1 - order m) = powerRZ b (1 - order m) -> a = b.
Proof.
  intros m a b Ha Hb Hm E.
  assert (P : forall x, 0 < x -> powerRZ x (1 - order m) * x ^ S (2 * m - 2) = 1).
  { intros x Hx. rewrite pow_powerRZ, <- powerRZ_add by lra.
    replace (1 - order m + Z.of_nat (S (2 * m - 2)))%Z with 0%Z by (unfold order; lia). reflexivity. }
  apply (pow_inj (2 * m - 2)); [lra|lra|].
  pose proof (P a Ha) as Pa. pose proof (P b Hb) as Pb. rewrite E in Pa.
  assert (powerRZ b (1 - order m) <> 0) by (intros Z; rewrite Z in Pb; lra).
  apply (Rmult_eq_reg_l (powerRZ b (1 - order m))); [|assumption]. lra.
Qed.

Lemma right_fresh_within : forall dom c meaning s x, correct_within dom c meaning -> c_ins c = [s] ->
  (forall v, dom v -> dom (fun _ => v 0%nat)) -> dom (fun _ => x) ->
  exists j, c_partials c [Nd s x] 0 = Some j /\ right_at c x j.
Proof.
  intros dom c meaning s x (Ho & F & H1 & H2) Hi Hdom Hd. unfold right_at. rewrite Hi in *. cbn [nth].
  assert (HF : forall v, dom v -> value_of c (fun _ => v 0%nat) = F v).
  { intros v Hv. unfold value_of. rewrite Hi. destruct (H1 v Hv) as [E _].
    change (inputs_of [s] (fun _ => v 0%nat)) with (inputs_of [s] v). now rewrite E. }
  destruct (H2 (fun _ => x) 0%nat Hd ltac:(cbn; lia)) as (j & Ej & He).
  exists j. split; [exact Ej|]. cbn [nth] in He.
  assert (K : forall J,
    jacobian_at (size (c_out c)) (size s) (fun x0 => F (set_op (fun _ => x) 0 x0)) x J ->
    jacobian_at (size (c_out c)) (size s) (fun x' => value_of c (fun _ => x')) x J).
  { intros J HJ o i Hoo Hii. specialize (HJ o i Hoo Hii). unfold partial_at in *.
    destruct (Ho (fun _ => x) 0%nat i Hd ltac:(cbn; lia) Hii) as (d & Hdp & Hnear).
    eapply derivable_pt_lim_ext_loc; [exact Hdp| |exact HJ].
    intros t Ht. cbn beta. specialize (Hnear t Ht).
    rewrite <- (HF _ Hnear). rewrite set_op_same. reflexivity. }
  destruct j; destruct He as [He1 He2]; split; auto.
Qed.

Theorem norm_kept : forall m s old now no nn, (1 <= m)%nat ->
  norm_of m (size s) (fun _ => true) old no -> norm_of m (size s) (fun _ => true) now nn ->
  no <> 0 -> nn <> 0 ->
  exists j, norm_partials_after (Z.of_nat (2 * m)) (Some (Nd s old)) (Nd s now) = Some j /\
    (right_at (norm_comp (Z.of_nat (2 * m)) s) now j <-> no = nn).
Proof.
  intros m s old now no nn Hm Ho Hn Hno Hnn. fold (order m).
  pose proof (norm_of_unique m _ _ _ _ _ Hm Ho (pn_value m (size s) all_true_b old Hm)) as Eo.
  pose proof (norm_of_unique m _ _ _ _ _ Hm Hn (pn_value m (size s) all_true_b now Hm)) as En.
  assert (Hz : exists k, (k < size s)%nat /\ now k <> 0).
  { destruct (existsb (fun k => negb (is_zero (now k))) (seq 0 (size s))) eqn:E.
    - apply existsb_exists in E. destruct E as (k & Hk & E). apply in_seq in Hk. exists k. split; [lia|].
      intros Z. rewrite (proj2 (is_zero_spec (now k)) Z) in E. discriminate.
    - exfalso. apply Hnn. destruct Hn as [H1 H2]. replace (2 * m)%nat with (S (2 * m - 1)) in H2 by lia.
      apply (pow_inj (2 * m - 1)); [assumption|lra|]. rewrite H2, pow_ne_zero by lia.
      apply rsum_zero. intros k Hk.
      destruct (is_zero (now k)) eqn:Ez.
      + apply is_zero_spec in Ez. rewrite Ez. apply pow_ne_zero. lia.
      + exfalso. assert (existsb (fun k => negb (is_zero (now k))) (seq 0 (size s)) = true); [|congruence].
        apply existsb_exists. exists k. split; [apply in_seq; lia|now rewrite Ez]. }
  assert (Hj : forall x, no = pn m (size s) all_true_b old -> pn m (size s) all_true_b x <> 0 ->
    norm_partials (order m) (norm_run (order m) (Nd s x)) (Nd s now) =
    Some (Dense (np_map (Rmult (powerRZ (pn m (size s) all_true_b x) (1 - order m)))
            (np_map (fun t => np_pow t (EInt (order m - 1))) (Nd s now))))).
  { intros x _ Hx. unfold norm_partials, norm_run. rewrite np_norm_pn. rewrite !np_power_ok; [reflexivity| |].
    - intros k _. apply pow_def_int. right. unfold order. lia.
    - intros k _. apply pow_def_int. now left. }
  unfold norm_partials_after. rewrite Hj by congruence. eexists. split; [reflexivity|].
  rewrite <- Eo.
  destruct (right_fresh_within (norm_nonzero s) (norm_comp (order m) s) (norm_meaning m) s now
              (proj2 (norm_comp_correct m s Hm)) eq_refl) as (j & Ej & Hright).
  { intros v Hv. exact Hv. }
  { exact Hz. }
  cbn [norm_comp c_partials] in Ej. rewrite Hj in Ej by congruence. injection Ej as <-.
  rewrite <- En in Hright. split.
  - intros H. destruct Hz as (k & Hk & Hnk).
    pose proof (jac_unique _ _ _ _ _ _ H Hright 0%nat k ltac:(cbn; lia) Hk) as U.
    cbn [jac_entry] in U. unfold dense_entry in U. cbn [np_map dat Nat.mul Nat.add np_pow] in U.
    apply Rmult_eq_reg_r in U.
    + apply (powerRZ_neg_inj m); auto; destruct Ho as [? _]; destruct Hn as [? _]; lra.
    + now apply powerRZ_NOR.
  - intros <-. exact Hright.
Qed.

(** along axes: right exactly when none of the norms changed *)
Lemma axis_norm_entries : forall m s axes y x, (1 <= m)%nat -> shp y = delete axes s ->
  (forall o, (o < size (delete axes s))%nat -> dat y o <> 0) ->
  exists c, axis_norm_partials (order m) s axes y (Nd s x) = Some (Sparse c) /\
    coo_pattern_ok (size (delete axes s)) (size s) c /\
    forall o i, (o < size (delete axes s))%nat -> (i < size s)%nat ->
      coo_entry c o i = if in_rows s axes o i
                        then powerRZ (dat y o) (1 - order m) * powerRZ (x i) (order m - 1) else 0.
Proof.
  intros m s axes y x Hm Hs Hy. unfold axis_norm_partials. rewrite !np_power_ok.
  - destruct (axis_norm_einsum s axes (np_map (fun t => np_pow t (EInt (1 - order m))) y)
                (np_map (fun t => np_pow t (EInt (order m - 1))) (Nd s x)) Hs eq_refl) as [Hes Hed].
    rewrite sparse_partials_vec with (n := size s);
      [|reflexivity|reflexivity|cbn [np_flatten shp]; now rewrite Hes].
    eexists. split; [reflexivity|]. cbn [axis_rows np_arange np_flatten dat shp].
    split; [exact (axis_ok s axes 0)|].
    intros o i Ho Hi. unfold coo_entry. cbn [nnz rows cols vals].
    rewrite rsum_single with (j := i).
    + rewrite Nat.eqb_refl, andb_true_r, Hed by assumption. unfold in_rows.
      change (ravel (delete axes s) (delete axes (unravel s i))) with (row_of s axes i).
      destruct (Nat.eqb_spec (row_of s axes i) o) as [<-|]; reflexivity.
    + assumption.
    + intros k Hk Hne. apply Nat.eqb_neq in Hne. now rewrite Hne, andb_false_r.
  - intros j _. apply pow_def_int. right. unfold order. lia.
  - intros o Ho. rewrite Hs in Ho. apply pow_def_int. left. now apply Hy.
Qed.

Theorem axis_norm_kept : forall s m zs axes old now no nn, (1 <= m)%nat ->
  Forall2 (axis_named (length s)) zs axes -> NoDup axes -> (length axes < length s <= 26)%nat ->
  (forall idx, inb (drop_axes axes s) idx ->
     norm_of m (size s) (belongs axes (Nd s old) idx) old (no idx) /\ no idx <> 0 /\
     norm_of m (size s) (belongs axes (Nd s now) idx) now (nn idx) /\ nn idx <> 0) ->
  exists c j, pnorm s (Z.of_nat (2 * m)) (NormAxes zs) = Some (drop_axes axes s, Some c) /\
    axis_norm_partials_after (Z.of_nat (2 * m)) s axes (Some (Nd s old)) (Nd s now) = Some j /\
    (right_at c now j <-> forall idx, inb (drop_axes axes s) idx -> no idx = nn idx).
Proof.
  intros s m zs axes old now no nn Hm Hz Hd [Hk Hl] H.
  exists (axis_norm_comp (order m) s axes).
  assert (Ep : pnorm s (Z.of_nat (2 * m)) (NormAxes zs) =
               Some (drop_axes axes s, Some (axis_norm_comp (order m) s axes))).
  { unfold pnorm. rewrite (proj2 (order_test (Z.of_nat (2 * m)))) by now exists m.
    rewrite (norm_axes_named _ _ _ Hz), (proj2 (Nat.leb_le _ _) Hl), axis_left_some, delete_drop by assumption.
    reflexivity. }
  fold (order m). rewrite <- delete_drop in H |- *.
  assert (P : forall x f idx, inb (delete axes s) idx ->
    norm_of m (size s) (belongs axes (Nd s x) idx) x (f idx) ->
    f idx = pn m (size s) (in_rows s axes (ravel (delete axes s) idx)) x).
  { intros x f idx Hi [H1 H2]. apply (norm_of_unique m (size s) (in_rows s axes (ravel (delete axes s) idx)) x);
      [assumption| |now apply pn_value].
    split; [assumption|]. rewrite H2. apply rsum_ext. intros k Hkk. now rewrite belongs_row. }
  assert (Po : forall o, (o < size (delete axes s))%nat ->
    let idx := unravel (delete axes s) o in inb (delete axes s) idx /\
    no idx = pn m (size s) (in_rows s axes o) old /\ nn idx = pn m (size s) (in_rows s axes o) now).
  { intros o Ho idx. pose proof (unravel_inb (delete axes s) o Ho) as Hi. fold idx in Hi.
    destruct (H idx Hi) as (A & _ & B & _). split; [assumption|].
    rewrite (P old no idx Hi A), (P now nn idx Hi B). unfold idx. now rewrite ravel_unravel. }
  destruct (axis_norm_run_spec m s axes old Hm Hd) as (yo & Eo & Hso & Hyo).
  destruct (axis_norm_run_spec m s axes now Hm Hd) as (yn & En & Hsn & Hyn).
  destruct (axis_norm_entries m s axes yo now Hm Hso) as (jo & Ejo & Hok & Hjo).
  { intros o Ho. rewrite Hyo by assumption. destruct (Po o Ho) as (Hi & <- & _). now destruct (H _ Hi) as (_ & ? & _). }
  destruct (axis_norm_entries m s axes yn now Hm Hsn) as (jn & Ejn & _ & Hjn).
  { intros o Ho. rewrite Hyn by assumption. destruct (Po o Ho) as (Hi & _ & <-). now destruct (H _ Hi) as (_ & _ & _ & ?). }
  exists (Sparse jo). split; [rewrite delete_drop; exact Ep|].
  split; [cbn [axis_norm_partials_after]; rewrite Eo; exact Ejo|].
  assert (Hnz : forall idx, inb (delete axes s) idx ->
    exists k, (k < size s)%nat /\ belongs axes (Nd s now) idx k = true /\ now k <> 0).
  { intros idx Hi. destruct (H idx Hi) as (_ & _ & [H1 H2] & Hne).
    set (t := fun k => belongs axes (Nd s now) idx k && negb (is_zero (now k))).
    destruct (existsb t (seq 0 (size s))) eqn:E.
    - apply existsb_exists in E. destruct E as (k & Hin & E). apply in_seq in Hin. exists k.
      apply andb_true_iff in E. destruct E as [E1 E2]. splits; [lia|exact E1|].
      intros Z. rewrite (proj2 (is_zero_spec (now k)) Z) in E2. discriminate.
    - exfalso. apply Hne. replace (2 * m)%nat with (S (2 * m - 1)) in H2 by lia.
      apply (pow_inj (2 * m - 1)); [assumption|lra|]. rewrite H2, pow_ne_zero by lia.
      apply rsum_zero. intros k Hkk.
      destruct (belongs axes (Nd s now) idx k) eqn:Eb; [|reflexivity].
      destruct (is_zero (now k)) eqn:Ez.
      + apply is_zero_spec in Ez. rewrite Ez. apply pow_ne_zero. lia.
      + exfalso. assert (existsb t (seq 0 (size s)) = true); [|congruence].
        apply existsb_exists. exists k. split; [apply in_seq; lia|]. unfold t. now rewrite Eb, Ez. }
  destruct (right_fresh_within (axis_norm_nonzero s axes) (axis_norm_comp (order m) s axes)
              (axis_norm_meaning m axes) s now (proj2 (axis_norm_correct m s axes Hm Hd)) eq_refl) as (j & Ej & Hright).
  { intros v Hv. exact Hv. }
  { intros idx Hi. apply Hnz. now rewrite delete_drop. }
  assert (Ej' : Some j = Some (Sparse jn)).
  { rewrite <- Ej, <- Ejn. cbn [axis_norm_comp c_partials]. now rewrite En. }
  injection Ej' as ->. clear Ej. split.
  - intros HR idx Hi. pose proof (ravel_lt _ _ Hi) as Ho. set (o := ravel (delete axes s) idx) in *.
    destruct (Hnz idx Hi) as (k & Hkk & Hb & Hnk).
    pose proof (jac_unique _ _ _ _ _ _ HR Hright o k Ho Hkk) as U. cbn [jac_entry] in U.
    rewrite Hjo, Hjn in U by assumption. rewrite belongs_row in Hb by assumption. fold o in Hb. rewrite Hb in U.
    rewrite Hyo, Hyn in U by assumption. destruct (H idx Hi) as (A & A' & B & B').
    apply P in A as A2; [|assumption]. apply P in B as B2; [|assumption]. fold o in A2, B2. rewrite <- A2, <- B2 in U.
    apply Rmult_eq_reg_r in U; [|now apply powerRZ_NOR].
    apply (powerRZ_neg_inj m); auto; destruct A as [? _]; destruct B as [? _]; lra.
  - intros E. destruct Hright as [_ HJ]. split; [exact Hok|].
    intros o i Ho Hi. specialize (HJ o i Ho Hi).
    cbn [axis_norm_comp c_out] in Ho. cbn [axis_norm_comp c_ins nth] in Hi.
    replace (coo_entry jo o i) with (coo_entry jn o i); [exact HJ|].
    rewrite Hjo, Hjn, Hyo, Hyn by assumption. destruct (Po o Ho) as (Hidx & Eo' & En').
    rewrite <- Eo', <- En'. now rewrite (E _ Hidx).
Qed.

(** no value computed yet: the attribute is missing *)
Theorem nothing_kept : forall neg rho p s a axes now,
  norm_partials_after p None now = None /\ axis_norm_partials_after p s axes None now = None /\
  axis_ext_partials_after neg rho s a None now = None /\ scalar_ext_partials_after neg rho None now = None.
Proof. intros. splits; reflexivity. Qed.

(** ---- concrete cases ---- *)

Example elements_instance :
  elements_over [1%nat] (Nd [2; 3]%nat INR) [1%nat] = [INR 3; INR 4; INR 5] /\
  axis_named 2 (-1) 1 /\ drop_axes [1%nat] [2; 3]%nat = [2%nat].
Proof. splits; try reflexivity; unfold axis_named; lia. Qed.

(** 3-4-5 *)
Example norm_instance : norm_of 1 2 (fun _ => true) (two 3 4) 5 /\ norm_nonzero [2%nat] (fun _ => two 3 4) /\
  norm_of 1 2 (fun _ => true) (two 6 8) 10.
Proof.
  unfold norm_of, norm_nonzero. cbn. splits; try lra. exists 0%nat. split; [lia|cbn; lra].
Qed.

(** the maximum of 0 and 0 with rho = 1 is ln 2, at the upper bound *)
Example smooth_instance : smooth_max 1 [0; 0] (ln 2) /\ smooth_min 1 [0; 0] (- ln 2).
Proof.
  assert (L : 0 < ln 2) by (rewrite <- ln_1; apply ln_increasing; lra).
  assert (E2 : INR (length [0; 0]) = 2) by (cbn; lra).
  unfold smooth_max, smooth_min. rewrite E2. unfold rlist_sum. cbn [map fold_right]. splits.
  - intros x [<-|[<-|[]]]; lra.
  - exists 0. split; [now left|]. lra.
  - rewrite Rmult_1_l, exp_ln by lra. rewrite Rmult_0_r, exp_0. lra.
  - intros x [<-|[<-|[]]]; lra.
  - exists 0. split; [now left|]. lra.
  - rewrite Rmult_1_l, Ropp_involutive, exp_ln by lra. rewrite Rmult_0_r, Ropp_0, exp_0. lra.
Qed.

(** 3-4-5 in the only row of a matrix, then the row doubled *)
Example axis_norm_instance :
  Forall2 (axis_named 2) [(-1)%Z] [1%nat] /\
  forall idx, inb (drop_axes [1%nat] [1; 2]%nat) idx ->
    norm_of 1 (size [1; 2]%nat) (belongs [1%nat] (Nd [1; 2]%nat (two 3 4)) idx) (two 3 4) 5 /\ 5 <> 0 /\
    norm_of 1 (size [1; 2]%nat) (belongs [1%nat] (Nd [1; 2]%nat (two 6 8)) idx) (two 6 8) 10 /\ 10 <> 0.
Proof.
  split; [repeat constructor; unfold axis_named; cbn; lia|].
  intros idx Hi. change (drop_axes [1%nat] [1; 2]%nat) with [1%nat] in Hi.
  destruct idx as [|i [|j r]]; cbn in Hi; try tauto.
  replace i with 0%nat by lia. unfold norm_of. splits; try lra; cbn; lra.
Qed.
