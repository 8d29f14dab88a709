(** The chain rule of einsum, the smooth extremum, the p-norm, indexing, indexed
    assignment and copying. *)
From Coq Require Import Reals Lra Lia Arith List Bool ZArith Rpower.
From Verif Require Import PyBase RSum NdArray NdIndex Component JacSpec JacOpen Indexing SpecIndex Setitem SpecSetitem
  SpecReduce SpecEinsum SpecNorm SpecExtremum SpecTotal TotalCalc TotalElem TotalLinear SpecShapes IndexProofs.
Import ListNotations.
Local Open Scope R_scope.

(** ---- einsum ---- *)

Definition named_inputs (ss : list (list nat)) (ks : list nat) (u : nat -> nat -> R) : list (nd R) :=
  map (fun k => Nd (nth k ss []) (u k)) ks.

Lemma named_unique args : NoDup args -> forall names ks ss u xs,
  Forall2 (fun n k => nth_error args k = Some n /\ (k < length ss)%nat) names ks ->
  operands_named args names (inputs_of ss u) xs -> xs = named_inputs ss ks u.
Proof.
  intros ND names ks ss u xs H. revert xs. induction H as [|n k names ks [H1 H2] H IH]; intros xs O; inversion O; subst.
  - reflexivity.
  - cbn. f_equal; [|now apply IH]. destruct H4 as (k' & A & B).
    assert (k' = k).
    { apply (proj1 (NoDup_nth_error args) ND); [|congruence]. apply nth_error_Some. congruence. }
    subst k'. assert (E : nth k (inputs_of ss u) y = y) by now apply nth_error_nth.
    rewrite inputs_of_nth in E by assumption. now symmetry.
Qed.

Lemma smooth_term ss v : forall subs ks (e ext : nat -> nat),
  Forall2 (fun s k => (k < length ss)%nat /\ nth k ss [] = map ext s) subs ks ->
  (forall l, In l (concat subs) -> (e l < ext l)%nat) ->
  smooth_at ss (fun u => product subs (named_inputs ss ks u) e) v.
Proof.
  intros subs ks e ext H. induction H as [|s k subs ks [H1 H2] H IH]; intros B; cbn [product named_inputs map].
  - apply smooth_const.
  - apply smooth_mult.
    + apply smooth_get; [assumption|reflexivity|]. rewrite H2.
      assert (B' : forall l, In l s -> (e l < ext l)%nat) by (intros; apply B; cbn; apply in_or_app; auto).
      clear - B'. induction s as [|l s IHs]; cbn; auto. split; [apply B'; cbn; auto|]. apply IHs.
      intros; apply B'; cbn; auto.
    + apply IH. intros l Hl. apply B. cbn. apply in_or_app. auto.
Qed.

Lemma smooth_letters ss v subs ks ext :
  Forall2 (fun s k => (k < length ss)%nat /\ nth k ss [] = map ext s) subs ks ->
  forall ls e,
  (forall l, In l (concat subs) -> In l ls \/ (e l < ext l)%nat) ->
  smooth_at ss (fun u => sum_letters ls ext e (product subs (named_inputs ss ks u))) v.
Proof.
  intros H. induction ls as [|l ls IH]; intros e B; cbn [sum_letters].
  - apply smooth_term with (ext := ext); [assumption|]. intros l Hl. destruct (B l Hl) as [[]|]. assumption.
  - apply smooth_rsum with (f := fun u i => sum_letters ls ext (assign e l i) (product subs (named_inputs ss ks u))).
    intros i Hi. apply IH. intros l' Hl'. unfold assign. destruct (Nat.eqb_spec l' l) as [->|NE]; [now right|].
    destruct (B l' Hl') as [[->|]|]; auto. contradiction.
Qed.

Lemma chain_einsum c subs out ext args names ks :
  NoDup args -> NoDup out ->
  Forall2 (fun n k => nth_error args k = Some n /\ (k < length (c_ins c))%nat) names ks ->
  Forall2 (fun s k => (k < length (c_ins c))%nat /\ nth k (c_ins c) [] = map ext s) subs ks ->
  c_out c = (match out with [] => [1%nat] | _ => map ext out end) ->
  correct c (einsum_meaning subs out ext args names) -> ruled (fun _ => True) c (einsum_meaning subs out ext args names).
Proof.
  intros ND NO HN HS Ho C.
  set (ls := nodup Nat.eq_dec (filter (fun l => if in_dec Nat.eq_dec l out then false else true) (concat subs))).
  assert (L1 : NoDup ls) by apply NoDup_nodup.
  assert (L2 : forall l, In l ls <-> In l (concat subs) /\ ~ In l out).
  { intros l. unfold ls. rewrite nodup_In, filter_In. destruct (in_dec Nat.eq_dec l out); intuition congruence. }
  apply chain_rule_correct with (1 := C). intros v o H.
  assert (exists e, (forall l, In l out -> (e l < ext l)%nat) /\
    unravel (c_out c) o = match out with [] => [0%nat] | _ => map e out end) as (e & B & E).
  { rewrite Ho in *. destruct out as [|l0 out'].
    - exists (fun _ => 0%nat). split; [intros l []|]. apply size_one in H. subst o. reflexivity.
    - pose proof (unravel_inb _ _ H) as IB.
      destruct (reads_index (l0 :: out') (unravel (map ext (l0 :: out')) o) NO) as (e & E).
      { rewrite unravel_length. now rewrite map_length. }
      exists e. split; [|now symmetry]. rewrite <- E in IB. clear - IB.
      induction (l0 :: out') as [|a t IH]; [intros l []|]. cbn in IB. destruct IB as [I1 I2].
      intros l [->|Hl]; auto. }
  exists (fun u => sum_letters ls ext e (product subs (named_inputs (c_ins c) ks u))). split.
  - apply smooth_letters; [assumption|]. intros l Hl.
    destruct (in_dec Nat.eq_dec l out) as [I|I]; [right; auto|left; apply L2; auto].
  - intros u y Hs (xs & N & _ & _ & M). rewrite (named_unique _ ND _ _ _ _ _ HN N) in M.
    rewrite dat_get by now rewrite Hs. rewrite Hs, E. now apply M.
Qed.

(** ---- the smooth extremum ---- *)

Lemma smooth_exps ss v r fs : (forall f, In f fs -> smooth_at ss f v) ->
  smooth_at ss (fun u => rlist_sum (map (fun f : (nat -> nat -> R) -> R => exp (r * f u)) fs)) v.
Proof.
  induction fs as [|f fs IH]; intros H; cbn [map rlist_sum fold_right].
  - apply smooth_const.
  - apply smooth_plus.
    + apply smooth_comp with (f := fun u => r * f u) (g := exp) (l := exp (r * f v)).
      * apply smooth_scal. apply H. now left.
      * apply derivable_pt_lim_exp.
    + apply IH. intros; apply H; now right.
Qed.

Definition sign_of (neg : bool) : R := if neg then -1 else 1.

Lemma smooth_extremum_sum neg rho xs y : smooth neg rho xs y ->
  exp (sign_of neg * rho * y) = rlist_sum (map (fun x => exp (sign_of neg * rho * x)) xs).
Proof.
  destruct neg; cbn; intros (_ & _ & H).
  - replace (-1 * rho * y) with (- (rho * y)) by ring. rewrite H. f_equal. apply map_ext. intros x. f_equal. ring.
  - replace (1 * rho * y) with (rho * y) by ring. rewrite H. f_equal. apply map_ext. intros x. f_equal. ring.
Qed.

Lemma chain_extremum c meaning neg rho (fs : nat -> list ((nat -> nat -> R) -> R)) :
  0 < rho -> correct c meaning ->
  (forall o f v, (o < size (c_out c))%nat -> In f (fs o) -> smooth_at (c_ins c) f v) ->
  (forall u y o, (o < size (c_out c))%nat -> shp y = c_out c -> meaning (inputs_of (c_ins c) u) y ->
     smooth neg rho (map (fun f => f u) (fs o)) (dat y o)) ->
  ruled (fun _ => True) c meaning.
Proof.
  intros Hr C SF M. apply chain_rule_correct with (1 := C). intros v o Ho.
  set (r := sign_of neg * rho). assert (Nr : r <> 0) by (unfold r; destruct neg; cbn; lra).
  set (S0 := fun u => rlist_sum (map (fun f : (nat -> nat -> R) -> R => exp (r * f u)) (fs o))).
  assert (K : forall u y, shp y = c_out c -> meaning (inputs_of (c_ins c) u) y -> exp (r * dat y o) = S0 u).
  { intros u y Hs Hm. unfold r. rewrite (smooth_extremum_sum _ _ _ _ (M u y o Ho Hs Hm)).
    unfold S0. now rewrite map_map. }
  assert (P : 0 < S0 v).
  { destruct C as (F & H1 & _). destruct (H1 v) as [_ H1']. rewrite <- (K v (Nd (c_out c) (F v)) eq_refl H1'). apply exp_pos. }
  exists (fun u => ln (S0 u) / r). split.
  - apply smooth_mult; [|apply smooth_const].
    apply smooth_comp with (f := S0) (g := ln) (l := / S0 v).
    + apply smooth_exps. intros f Hf. now apply SF with (o := o).
    + now apply derivable_pt_lim_ln.
  - intros u y Hs Hm. rewrite <- (K u y Hs Hm), ln_exp. now field.
Qed.

Lemma chain_ext_elementwise c s n neg rho : 0 < rho -> c_ins c = repeat s n -> c_out c = s ->
  correct c (ext_elementwise neg rho) -> ruled (fun _ => True) c (ext_elementwise neg rho).
Proof.
  intros Hr Hi Ho C.
  apply (chain_extremum c _ neg rho (fun o => map (fun p u => u p o) (seq 0 n)) Hr C).
  - rewrite Hi, Ho. intros o f v H Hf. apply in_map_iff in Hf as (p & <- & Hp). apply in_seq in Hp.
    apply smooth_entry; [now rewrite repeat_length|now rewrite nth_repeat_lt].
  - rewrite Hi, Ho. intros u y o H Hs [_ M]. pose proof (unravel_inb _ _ H) as IB.
    rewrite dat_get by now rewrite Hs. rewrite Hs. rewrite <- Hs in IB. specialize (M _ IB). rewrite Hs in M.
    rewrite map_map.
    replace (map (fun x => u x o) (seq 0 n)) with (map (fun x => get x (unravel s o)) (inputs_of (repeat s n) u));
      [exact M|].
    apply nth_ext with (d := 0) (d' := 0); rewrite !map_length, ?inputs_of_length, ?repeat_length, ?seq_length; [reflexivity|].
    intros p Hp.
    rewrite nth_indep with (d' := get (Nd [] (fun _ => 0)) (unravel s o))
      by now rewrite map_length, inputs_of_length, repeat_length.
    rewrite (map_nth (fun x => get x (unravel s o))), inputs_of_nth by now rewrite repeat_length.
    rewrite nth_repeat_lt by assumption.
    rewrite nth_indep with (d' := u 0%nat o) by now rewrite map_length, seq_length.
    rewrite (map_nth (fun x => u x o)), seq_nth by assumption. unfold get. cbn [shp dat].
    now rewrite ravel_unravel.
Qed.

Lemma chain_ext_axis c s neg rho a : 0 < rho -> c_ins c = [s] -> c_out c = drop_axes [a] s ->
  correct c (ext_axis neg rho a) -> ruled (fun _ => True) c (ext_axis neg rho a).
Proof.
  intros Hr Hi Ho C.
  apply (chain_extremum c _ neg rho (fun o => map (fun k u => u 0%nat k)
    (filter (belongs [a] (Nd s (fun _ => 0)) (unravel (c_out c) o)) (seq 0 (size s)))) Hr C).
  - rewrite Hi. intros o f v H Hf. apply in_map_iff in Hf as (k & <- & Hk). apply filter_In in Hk as [Hk _].
    apply in_seq in Hk. apply smooth_entry; cbn; lia.
  - rewrite Hi. intros u y o H Hs (x & Ex & _ & M). cbn in Ex. injection Ex as <-. pose proof (unravel_inb _ _ H) as IB.
    rewrite dat_get by now rewrite Hs. rewrite Hs. rewrite <- Hs in IB at 1. specialize (M _ IB).
    rewrite map_map. exact M.
Qed.

Lemma chain_ext_all c s neg rho : 0 < rho -> c_ins c = [s] -> c_out c = [1%nat] ->
  correct c (ext_all neg rho) -> ruled (fun _ => True) c (ext_all neg rho).
Proof.
  intros Hr Hi Ho C.
  apply (chain_extremum c _ neg rho (fun o => map (fun k u => u 0%nat k) (seq 0 (size s))) Hr C).
  - rewrite Hi. intros o f v H Hf. apply in_map_iff in Hf as (k & <- & Hk). apply in_seq in Hk.
    apply smooth_entry; cbn; lia.
  - rewrite Hi, Ho. intros u y o H Hs (x & Ex & _ & M). cbn in Ex. injection Ex as <-. apply size_one in H. subst o.
    rewrite get_one in M by assumption. rewrite map_map. exact M.
Qed.

(** ---- the p-norm ---- *)

Lemma stays_forall ss n (P : nat -> (nat -> nat -> R) -> Prop) : (forall o, (o < n)%nat -> stays ss (P o)) ->
  stays ss (fun v => forall o, (o < n)%nat -> P o v).
Proof.
  intros H g t0 D C. induction n as [|n IH].
  - exists 1. split; [lra|]. intros t _ o Ho. lia.
  - destruct IH as (e1 & He1 & H1); [intros; apply H; lia|intros; apply D; lia|].
    destruct (H n (Nat.lt_succ_diag_r n) g t0 (D n (Nat.lt_succ_diag_r n)) C) as (e & He & H2).
    exists (Rmin e1 e). split; [now apply Rmin_pos|]. intros t Ht o Ho.
    pose proof (Rmin_l e1 e). pose proof (Rmin_r e1 e).
    destruct (Nat.eq_dec o n) as [->|NE]; [apply H2; lra|apply H1; [lra|lia]].
Qed.

Lemma stays_iff ss (P Q : (nat -> nat -> R) -> Prop) : (forall v, P v <-> Q v) -> stays ss P -> stays ss Q.
Proof.
  intros H K g t0 D C. destruct (K g t0 (proj2 (H _) D) C) as (e & He & E). exists e. split; [assumption|].
  intros t Ht. apply H. now apply E.
Qed.

Lemma stays_nonzero ss (Q : nat -> Prop) n : (0 < length ss)%nat -> n = size (nth 0 ss []) ->
  stays ss (fun v => exists k, (k < n)%nat /\ Q k /\ v 0%nat k <> 0).
Proof.
  intros L -> g t0 (k & Hk & Hq & N) C.
  specialize (C 0%nat k L Hk). destruct (C (Rabs (g t0 0%nat k))) as (e & He & E).
  { now apply Rabs_pos_lt. }
  exists e. split; [exact He|]. intros t Ht. exists k. splits; auto.
  destruct (Req_dec t t0) as [->|NE]; [assumption|].
  assert (B : Rabs (g t 0%nat k - g t0 0%nat k) < Rabs (g t0 0%nat k)).
  { apply (E t). split; [|exact Ht]. split; [exact I|auto]. }
  intros Z. rewrite Z in B. rewrite Rminus_0_l, Rabs_Ropp in B. lra.
Qed.

Definition power_sum (m n : nat) (b : nat -> bool) (x : nat -> R) : R :=
  rsum n (fun k => if b k then x k ^ (2 * m) else 0).

Lemma even_pow_nonneg x m : 0 <= x ^ (2 * m).
Proof. rewrite pow_mult. apply pow_le. rewrite <- Rsqr_pow2. apply Rle_0_sqr. Qed.

Lemma even_pow_pos x m : x <> 0 -> 0 < x ^ (2 * m).
Proof. intros H. rewrite pow_mult. apply pow_lt. rewrite <- Rsqr_pow2. now apply Rlt_0_sqr. Qed.

Lemma power_sum_nonneg m n b x : 0 <= power_sum m n b x.
Proof.
  unfold power_sum. induction n as [|n IH]; cbn [rsum]; [lra|].
  destruct (b n); [pose proof (even_pow_nonneg (x n) m)|]; lra.
Qed.

Lemma power_sum_pos m n b x k : (k < n)%nat -> b k = true -> x k <> 0 -> 0 < power_sum m n b x.
Proof.
  intros Hk Hb Hx. induction n as [|n IH]; [lia|].
  unfold power_sum in *. cbn [rsum]. pose proof (power_sum_nonneg m n b x) as P. unfold power_sum in P.
  destruct (Nat.eq_dec k n) as [->|NE].
  - rewrite Hb. pose proof (even_pow_pos (x n) m Hx). lra.
  - assert (Hk' : (k < n)%nat) by lia. specialize (IH Hk').
    destruct (b n); [pose proof (even_pow_nonneg (x n) m)|]; lra.
Qed.

Lemma norm_closed m n b x y : (1 <= m)%nat -> norm_of m n b x y -> 0 < power_sum m n b x ->
  y = Rpower (power_sum m n b x) (/ INR (2 * m)).
Proof.
  intros Hm [H1 H2] P. fold (power_sum m n b x) in H2. rewrite <- H2 in *.
  assert (Y : 0 < y).
  { destruct H1 as [H1|H1]; [assumption|]. subst y. rewrite pow_ne_zero in P by lia. lra. }
  rewrite <- Rpower_pow by assumption. rewrite Rpower_mult.
  rewrite Rinv_r by (apply not_0_INR; lia). now rewrite Rpower_1.
Qed.

Lemma smooth_norm ss v m n b : (1 <= m)%nat -> (0 < length ss)%nat -> n = size (nth 0 ss []) ->
  0 < power_sum m n b (v 0%nat) ->
  smooth_at ss (fun u => Rpower (power_sum m n b (u 0%nat)) (/ INR (2 * m))) v.
Proof.
  intros Hm L -> P.
  apply smooth_comp with (f := fun u => power_sum m (size (nth 0 ss [])) b (u 0%nat))
    (g := fun x => Rpower x (/ INR (2 * m)))
    (l := / INR (2 * m) * Rpower (power_sum m (size (nth 0 ss [])) b (v 0%nat)) (/ INR (2 * m) - 1)).
  - unfold power_sum.
    apply smooth_rsum with (f := fun (u : nat -> nat -> R) k => if b k then u 0%nat k ^ (2 * m) else 0).
    intros k Hk. apply smooth_if; [|apply smooth_const].
    apply smooth_comp with (f := fun u => u 0%nat k) (g := fun x => x ^ (2 * m))
      (l := INR (2 * m) * v 0%nat k ^ pred (2 * m)).
    + now apply smooth_entry.
    + apply derivable_pt_lim_pow.
  - now apply derivable_pt_lim_power.
Qed.

Lemma chain_norm_all c s m : (1 <= m)%nat -> c_ins c = [s] -> c_out c = [1%nat] ->
  correct_within (norm_nonzero s) c (norm_meaning m) -> ruled (norm_nonzero s) c (norm_meaning m).
Proof.
  intros Hm Hi Ho C. apply chain_rule_intro with (1 := C).
  - rewrite Hi. apply stays_iff with (P := fun v => exists k, (k < size s)%nat /\ True /\ v 0%nat k <> 0).
    + intros v. unfold norm_nonzero. firstorder.
    + apply stays_nonzero; cbn; auto.
  - rewrite Hi, Ho. intros v o D H. apply size_one in H. subst o.
    exists (fun u => Rpower (power_sum m (size s) (fun _ => true) (u 0%nat)) (/ INR (2 * m))). split.
    + apply smooth_norm; cbn [length nth]; auto. destruct D as (k & Hk & Nk). now apply power_sum_pos with (k := k).
    + intros u y (k & Hk & Nk) Hs (x & Ex & _ & M). cbn in Ex. injection Ex as <-. cbn [shp dat] in M.
      rewrite get_one in M by assumption. apply norm_closed; auto. now apply power_sum_pos with (k := k).
Qed.

Lemma chain_norm_axes c s m axes : (1 <= m)%nat -> c_ins c = [s] -> c_out c = drop_axes axes s ->
  correct_within (axis_norm_nonzero s axes) c (axis_norm_meaning m axes) -> ruled (axis_norm_nonzero s axes) c (axis_norm_meaning m axes).
Proof.
  intros Hm Hi Ho C. apply chain_rule_intro with (1 := C).
  - rewrite Hi. apply stays_iff with (P := fun v => forall o, (o < size (drop_axes axes s))%nat ->
      exists k, (k < size s)%nat /\ belongs axes (Nd s (fun _ => 0)) (unravel (drop_axes axes s) o) k = true /\ v 0%nat k <> 0).
    + intros v. unfold axis_norm_nonzero. split.
      * intros H idx IB. destruct (H (ravel _ idx) (ravel_lt _ _ IB)) as (k & K1 & K2 & K3).
        rewrite unravel_ravel in K2 by assumption. exists k. auto.
      * intros H o Hlt. destruct (H _ (unravel_inb _ _ Hlt)) as (k & K1 & K2 & K3). exists k. auto.
    + apply stays_forall. intros o Hlt. apply stays_nonzero; cbn; auto.
  - rewrite Hi, Ho. intros v o D H. pose proof (unravel_inb _ _ H) as IB.
    set (b := belongs axes (Nd s (fun _ => 0)) (unravel (drop_axes axes s) o)).
    exists (fun u => Rpower (power_sum m (size s) b (u 0%nat)) (/ INR (2 * m))). split.
    + apply smooth_norm; cbn [length nth]; auto. destruct (D _ IB) as (k & Hk & Bk & Nk).
      now apply power_sum_pos with (k := k).
    + intros u y D' Hs (x & Ex & Es & M). cbn in Ex. injection Ex as <-. cbn [shp dat] in *.
      rewrite dat_get by now rewrite Hs. rewrite Hs. rewrite <- Hs in IB. specialize (M _ IB).
      rewrite Hs in M, IB. apply norm_closed; auto. destruct (D' _ IB) as (k & Hk & Bk & Nk).
      now apply power_sum_pos with (k := k).
Qed.

(** ---- copying ---- *)

Lemma chain_same c s : c_ins c = [s] -> c_out c = s -> correct c same_meaning -> ruled (fun _ => True) c same_meaning.
Proof.
  intros Hi Ho C. apply chain_moved with (1 := Hi) (2 := C). rewrite Ho. intros o H. exists o. split; [assumption|].
  intros u y Hs [_ M]. now apply M.
Qed.

(** ---- indexing ---- *)

Lemma range_elements a b st e l : py_range a b st = Some l -> In e l ->
  (0 < st /\ a <= e < b)%Z \/ (st < 0 /\ b < e <= a)%Z.
Proof.
  unfold py_range. destruct (Z.eqb_spec st 0) as [|NZ]; [discriminate|]. intros H. injection H as <-.
  intros He. apply in_map_iff in He as (k & <- & Hk). apply in_seq in Hk. unfold range_len in Hk.
  destruct (Z.ltb_spec 0 st) as [P|P].
  - left. split; [assumption|].
    assert (Hz : (Z.of_nat k < (b - a + st - 1) / st)%Z) by lia.
    assert (st * ((b - a + st - 1) / st) <= b - a + st - 1)%Z by (apply Z.mul_div_le; lia). nia.
  - right. split; [lia|].
    assert (Hz : (Z.of_nat k < (a - b - st - 1) / - st)%Z) by lia.
    assert (- st * ((a - b - st - 1) / - st) <= a - b - st - 1)%Z by (apply Z.mul_div_le; lia). nia.
Qed.

Lemma positions_in_range n s l : sl_positions n s = Some l -> forall i, In i l -> (i < n)%nat.
Proof.
  unfold sl_positions. intros H i Hi.
  destruct (py_range _ _ _) as [r|] eqn:E; [|discriminate]. injection H as <-.
  apply in_map_iff in Hi as (e & <- & He). apply (range_elements _ _ _ _ _ E) in He. clear E.
  destruct He as [[P He]|[P He]].
  - assert (F : (or_else (sl_step s) 1 <? 0)%Z = false) by (apply Z.ltb_ge; lia). rewrite F in He.
    unfold sl_clip in He. rewrite F in He.
    destruct (sl_start s) as [a|], (sl_stop s) as [b|];
      repeat match type of He with context [(?x <? 0)%Z] => destruct (Z.ltb_spec x 0) end; lia.
  - assert (F : (or_else (sl_step s) 1 <? 0)%Z = true) by (apply Z.ltb_lt; lia). rewrite F in He.
    unfold sl_clip in He. rewrite F in He.
    destruct (sl_start s) as [a|], (sl_stop s) as [b|];
      repeat match type of He with context [(?x <? 0)%Z] => destruct (Z.ltb_spec x 0) end; lia.
Qed.

Lemma index_in_range : forall s l ls, index_positions s l = Some ls -> in_range s ls = true.
Proof.
  assert (A : forall n s l, sl_positions n s = Some l -> forallb (fun i => (i <? n)%nat) l = true).
  { intros n s l H. apply forallb_forall. intros i Hi. apply Nat.ltb_lt. eapply positions_in_range; eauto. }
  induction s as [|n s IH]; intros [|k l] ls H; cbn [index_positions] in H; try discriminate.
  - now injection H as <-.
  - destruct (sl_positions n sl_all) eqn:E1; [|discriminate]. destruct (index_positions s []) eqn:E2; [|discriminate].
    injection H as <-. cbn [in_range]. rewrite (A _ _ _ E1), (IH _ _ E2). reflexivity.
  - destruct (sl_positions n k) eqn:E1; [|discriminate]. destruct (index_positions s l) eqn:E2; [|discriminate].
    injection H as <-. cbn [in_range]. rewrite (A _ _ _ E1), (IH _ _ E2). reflexivity.
Qed.

Lemma chain_selects c s k : c_ins c = [s] -> correct c (selects k) -> ruled (fun _ => True) c (selects k).
Proof.
  intros Hi C. apply chain_moved with (1 := Hi) (2 := C). intros o H.
  destruct (index_positions s (map as_slice (key_entries k))) as [ls|] eqn:E.
  2: { destruct C as (F & H1 & _). destruct (H1 (fun _ _ => 0)) as [_ (x & y' & Ex & Ey & _)].
       rewrite Hi in Ex. cbn in Ex. injection Ex as <-. unfold np_index in Ey. cbn [shp] in Ey.
       rewrite E in Ey. discriminate. }
  assert (SH : c_out c = map (@length nat) ls).
  { destruct C as (F & H1 & _). destruct (H1 (fun _ _ => 0)) as [_ (x & y' & Ex & Ey & Es & _)].
    rewrite Hi in Ex. cbn in Ex. injection Ex as <-. unfold np_index in Ey. cbn [shp] in Ey.
    rewrite E in Ey. injection Ey as <-. exact Es. }
  pose proof (unravel_inb _ _ H) as IB. rewrite SH in IB.
  exists (ravel s (pick ls (unravel (c_out c) o))). split.
  - apply ravel_lt. apply pick_inb; [now apply index_in_range with (1 := E)|]. now rewrite SH.
  - intros u y Hs (x & y' & Ex & Ey & Es & M). injection Ex as <-. unfold np_index in Ey. cbn [shp] in Ey.
    rewrite E in Ey. injection Ey as <-. cbn [shp of_fun] in Es.
    rewrite dat_get by now rewrite Hs. rewrite M by (rewrite Hs; now apply unravel_inb). rewrite Hs.
    unfold get at 1. unfold of_fun. cbn [shp dat]. rewrite unravel_ravel by now rewrite SH.
    reflexivity.
Qed.

(** ---- indexed assignment ---- *)

Lemma names_dec s k z : {names_position s k z} + {~ names_position s k z}.
Proof.
  unfold names_position. destruct (index_positions s (map as_slice (key_entries k))) as [ls|].
  2: { right. intros (ls & idx & E & _). discriminate. }
  set (sh := map (@length nat) ls).
  destruct (in_dec Nat.eq_dec z (map (fun j => ravel s (pick ls (unravel sh j))) (seq 0 (size sh)))) as [I|I].
  - left. apply in_map_iff in I as (j & <- & Hj). apply in_seq in Hj. exists ls, (unravel sh j). splits; auto.
    apply unravel_inb. lia.
  - right. intros (ls' & idx & E & IB & ->). injection E as <-. apply I. apply in_map_iff.
    exists (ravel sh idx). split; [now rewrite unravel_ravel|]. apply in_seq. pose proof (ravel_lt _ _ IB). unfold sh. lia.
Qed.

Lemma some_names_dec s z : forall l : list Setitem.assignment,
  (exists p a, nth_error l p = Some a /\ names_position s (as_key a) z) \/
  forall a, In a l -> ~ names_position s (as_key a) z.
Proof.
  induction l as [|a l IH]; [right; intros a []|].
  destruct (names_dec s (as_key a) z) as [H|H].
  - left. exists 0%nat, a. auto.
  - destruct IH as [(p & b & Hp & Hb)|IH]; [left; exists (S p), b; auto|].
    right. intros b [<-|Hb]; auto.
Qed.

Lemma chain_assembles c s y0 l : c_out c = s -> c_ins c = map as_shape l ->
  correct c (assembles s y0 l) -> ruled (fun _ => True) c (assembles s y0 l).
Proof.
  intros Ho Hi C. apply chain_rule_correct with (1 := C). intros v z Hz. rewrite Ho in Hz.
  destruct (some_names_dec s z l) as [(p & a & Hp & ls & idx & E & IB & Ez)|NO].
  - assert (Lp : (p < length (c_ins c))%nat).
    { rewrite Hi, map_length. apply nth_error_Some. congruence. }
    assert (K : forall u y, assembles s y0 l (inputs_of (c_ins c) u) y ->
      nth p (c_ins c) [] = map (@length nat) ls /\ dat y z = u p (ravel (nth p (c_ins c) []) idx)).
    { intros u y (Hs & M & _). destruct (M p a Hp) as (e & He & zz & Hzz & Hsh & G).
      unfold np_index in Hzz. rewrite Hs, E in Hzz. injection Hzz as <-. cbn [shp of_fun] in Hsh, G.
      assert (EE : e = Nd (nth p (c_ins c) []) (u p)).
      { apply nth_error_nth with (d := e) in He. rewrite inputs_of_nth in He by assumption. now symmetry. }
      subst e. cbn [shp] in Hsh. split; [now symmetry|].
      specialize (G idx IB). unfold get in G. unfold of_fun in G. cbn [shp dat] in G.
      rewrite unravel_ravel in G by assumption. fold (get y (pick ls idx)) in G.
      unfold get in G. rewrite Hs in G. rewrite Ez. exact G. }
    exists (fun u => u p (ravel (nth p (c_ins c) []) idx)). split.
    + assert (SH : nth p (c_ins c) [] = map (@length nat) ls).
      { destruct C as (F & H1 & _). destruct (H1 (fun _ _ => 0)) as [_ H1']. exact (proj1 (K _ _ H1')). }
      apply smooth_entry; [assumption|]. rewrite SH. now apply ravel_lt.
    + intros u y _ M. exact (proj2 (K u y M)).
  - exists (fun _ => y0 z). split; [apply smooth_const|].
    intros u y _ (_ & _ & M). now apply M.
Qed.
