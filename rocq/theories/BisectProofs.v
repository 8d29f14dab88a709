(** The numerical methods of ImplicitComponent. *)
From Coq Require Import Reals Ranalysis5 Lra Psatz.
From Verif Require Import PyBase Graph GroupApi RSum NdArray Component CompElem Implicit SpecImplicit.
Import ListNotations.
Local Open Scope R_scope.

Lemma name_eqb_eq a b : name_eqb a b = true <-> a = b.
Proof.
  revert b. induction a; intros b; destruct b; simpl; rewrite ?Nat.eqb_eq, ?IHa; split; intros H;
    try discriminate; congruence.
Qed.
Lemma name_eqb_refl a : name_eqb a a = true.
Proof. now apply name_eqb_eq. Qed.
Lemma name_eqb_neq a b : name_eqb a b = false <-> a <> b.
Proof.
  destruct (name_eqb a b) eqn:E; split; intros H; try discriminate; auto.
  - apply name_eqb_eq in E. contradiction.
  - intros ->. rewrite name_eqb_refl in E. discriminate.
Qed.
Lemma name_dec (a b : name) : {a = b} + {a <> b}.
Proof. destruct (name_eqb a b) eqn:E; [left; now apply name_eqb_eq|right; now apply name_eqb_neq]. Qed.

(** A continuous function with f p >= 0 >= f n has a root between p and n. *)
Lemma root_between f p n : (forall z, between p n z -> continuity_pt f z) -> f p >= 0 -> f n <= 0 ->
  exists z, between p n z /\ f z = 0.
Proof.
  intros C P N.
  destruct (Req_dec (f p) 0) as [E|P0].
  { exists p. split; [|assumption]. split; [apply Rmin_l|apply Rmax_l]. }
  destruct (Req_dec (f n) 0) as [E|N0].
  { exists n. split; [|assumption]. split; [apply Rmin_r|apply Rmax_r]. }
  destruct (Rtotal_order p n) as [L|[E|L]].
  - (* p < n: use -f *)
    destruct (IVT_interv (fun x => - f x) p n) as (z & Hz & E); try lra.
    + intros a Ha. apply continuity_pt_opp. apply C. unfold between. rewrite Rmin_left, Rmax_right by lra. lra.
    + exists z. split; [|lra]. unfold between. rewrite Rmin_left, Rmax_right by lra. lra.
  - subst. lra.
  - destruct (IVT_interv f n p) as (z & Hz & E); try lra.
    + intros a Ha. apply C. unfold between. rewrite Rmin_right, Rmax_left by lra. lra.
    + exists z. split; [|assumption]. unfold between. rewrite Rmin_right, Rmax_left by lra. lra.
Qed.

Lemma between_trans a b p n z : between a b p -> between a b n -> between p n z -> between a b z.
Proof.
  unfold between. intros (A1 & A2) (B1 & B2) (C1 & C2). split.
  - eapply Rle_trans; [|exact C1]. apply Rmin_glb; assumption.
  - eapply Rle_trans; [exact C2|]. apply Rmax_lub; assumption.
Qed.
Lemma between_mid p n : between p n (0.5 * p + 0.5 * n).
Proof. unfold between. destruct (Rle_dec p n); [rewrite Rmin_left, Rmax_right|rewrite Rmin_right, Rmax_left]; lra. Qed.
Lemma between_l p n : between p n p.
Proof. split; [apply Rmin_l|apply Rmax_l]. Qed.
Lemma between_r p n : between p n n.
Proof. split; [apply Rmin_r|apply Rmax_r]. Qed.

Lemma mid_close p n z : between p n z -> Rabs (0.5 * p + 0.5 * n - z) <= Rabs (n - p) / 2.
Proof.
  unfold between. destruct (Rle_dec p n) as [L|L];
    [rewrite Rmin_left, Rmax_right by lra|rewrite Rmin_right, Rmax_left by lra]; intros [A B].
  - rewrite (Rabs_right (n - p)) by lra. apply Rabs_le. lra.
  - rewrite (Rabs_left (n - p)) by lra. apply Rabs_le. lra.
Qed.

(** One element of the bisection: the bracket stays inside [a,b], keeps the signs
    and halves. *)
Lemma bisect_root res s f a b i : (i < size s)%nat ->
  (forall x, shp x = s -> dat (res x) i = f (dat x i)) ->
  (forall z, between a b z -> continuity_pt f z) ->
  forall n xp xn, between a b (xp i) -> between a b (xn i) -> f (xp i) >= 0 -> f (xn i) <= 0 ->
  exists z, between a b z /\ f z = 0
    /\ Rabs (bisect res s n xp xn i - z) <= Rabs (xn i - xp i) / 2 ^ (S n).
Proof.
  intros Hi EL C. induction n as [|n IH]; intros xp xn Bp Bn Fp Fn.
  - destruct (root_between f (xp i) (xn i)) as (z & Bz & E); auto.
    { intros z Hz. apply C. now apply (between_trans a b (xp i) (xn i)). }
    exists z. splits; auto.
    + now apply (between_trans a b (xp i) (xn i)).
    + cbn [bisect]. replace (2 ^ 1) with 2 by lra. now apply mid_close.
  - cbn [bisect]. set (x := fun k => 0.5 * xp k + 0.5 * xn k).
    set (r := dat (res (Nd s x))).
    assert (Er : r i = f (x i)) by (apply (EL (Nd s x)); reflexivity).
    assert (Bx : between a b (x i)).
    { apply (between_trans a b (xp i) (xn i)); auto. apply between_mid. }
    destruct (IH (mask_ge r (fun _ => 0) x xp) (mask_ge r (fun _ => 0) xn x)) as (z & Bz & Ez & Q);
      try (unfold mask_ge; destruct (Rle_dec 0 (r i)) as [L|L]; auto; rewrite Er in L; lra).
    exists z. splits; auto. eapply Rle_trans; [exact Q|].
    assert (H : Rabs (mask_ge r (fun _ => 0) xn x i - mask_ge r (fun _ => 0) x xp i) = Rabs (xn i - xp i) / 2).
    { unfold mask_ge, x. destruct (Rle_dec 0 (r i)).
      - replace (xn i - (0.5 * xp i + 0.5 * xn i)) with ((xn i - xp i) / 2) by lra.
        unfold Rdiv. rewrite Rabs_mult, (Rabs_right (/ 2)) by lra. reflexivity.
      - replace (0.5 * xp i + 0.5 * xn i - xp i) with ((xn i - xp i) / 2) by lra.
        unfold Rdiv. rewrite Rabs_mult, (Rabs_right (/ 2)) by lra. reflexivity. }
    rewrite H. change (2 ^ S (S n)) with (2 * 2 ^ S n).
    right. field. apply pow_nonzero. lra.
Qed.

(** The start: ends ordered by the size of the residual. *)
Lemma start_signs (u v : R) : u * v <= 0 -> v <= u -> u >= 0 /\ v <= 0.
Proof. intros H L. split; nra. Qed.

Lemma bisect_start res s f x1 x2 i n : (i < size s)%nat ->
  (forall x, shp x = s -> dat (res x) i = f (dat x i)) ->
  shp x1 = s -> shp x2 = s ->
  (forall z, between (dat x1 i) (dat x2 i) z -> continuity_pt f z) ->
  f (dat x1 i) * f (dat x2 i) <= 0 ->
  exists z, between (dat x1 i) (dat x2 i) z /\ f z = 0
    /\ Rabs (bisect res s n (mask_ge (dat (res x1)) (dat (res x2)) (dat x1) (dat x2))
                            (mask_ge (dat (res x1)) (dat (res x2)) (dat x2) (dat x1)) i - z)
       <= Rabs (dat x2 i - dat x1 i) / 2 ^ (S n).
Proof.
  intros Hi EL S1 S2 C SG.
  assert (E1 : dat (res x1) i = f (dat x1 i)) by auto.
  assert (E2 : dat (res x2) i = f (dat x2 i)) by auto.
  assert (E : Rabs (mask_ge (dat (res x1)) (dat (res x2)) (dat x2) (dat x1) i
                    - mask_ge (dat (res x1)) (dat (res x2)) (dat x1) (dat x2) i)
              = Rabs (dat x2 i - dat x1 i)).
  { unfold mask_ge. destruct (Rle_dec _ _); [reflexivity|apply Rabs_minus_sym]. }
  rewrite <- E. apply bisect_root; auto; unfold mask_ge; rewrite E1, E2;
    destruct (Rle_dec (f (dat x2 i)) (f (dat x1 i))) as [L|L]; auto using between_l, between_r; nra.
Qed.

(** ---- Brackets ---- *)
Lemma bcast_rev_nil t : bcast_rev [] t = Some t.
Proof. destruct t; reflexivity. Qed.
Lemma bcast_rev_same t : bcast_rev t t = Some t.
Proof. induction t as [|a t IH]; [reflexivity|]. simpl. rewrite IH, Nat.eqb_refl. reflexivity. Qed.

Lemma clip_same s : forall idx, inb s idx -> clip s idx = idx.
Proof.
  induction s as [|n s IH]; intros [|i idx] H; simpl in H; try contradiction; [reflexivity|].
  destruct H as [H1 H2]. simpl. rewrite IH by assumption. destruct (Nat.eqb_spec n 1); [|reflexivity].
  f_equal. lia.
Qed.

Lemma bracket_ok b s x : stands_for b s x ->
  exists a, bracket_array b s = Some a /\ shp a = s /\ forall i, (i < size s)%nat -> dat a i = x i.
Proof.
  intros [[E H]|[E H]]; unfold bracket_array, np_bcast2, bcast; cbn [shp].
  - rewrite E. cbn [rev]. rewrite bcast_rev_nil, rev_involutive. unfold of_fun at 1. cbn [shp].
    destruct (list_eq_dec Nat.eq_dec s s) as [_|]; [|congruence].
    eexists. splits; [reflexivity|reflexivity|]. intros i Hi. unfold of_fun. cbn [dat].
    unfold bcast_get at 2. unfold get. cbn [dat]. rewrite Rmult_1_r.
    unfold bcast_get, get. rewrite E. cbn [clip]. simpl ravel. symmetry. apply H.
  - rewrite E, bcast_rev_same, rev_involutive. unfold of_fun at 1. cbn [shp].
    destruct (list_eq_dec Nat.eq_dec s s) as [_|]; [|congruence].
    eexists. splits; [reflexivity|reflexivity|]. intros i Hi. unfold of_fun. cbn [dat].
    unfold bcast_get at 2. unfold get. cbn [dat]. rewrite Rmult_1_r.
    unfold bcast_get, get. rewrite E.
    assert (IB : inb s (unravel s i)) by (now apply unravel_inb).
    rewrite (inb_length _ _ IB), Nat.sub_diag. cbn [skipn]. rewrite clip_same by assumption.
    rewrite ravel_unravel by assumption. symmetry. now apply H.
Qed.

(** ---- Linear solves ---- *)
Lemma set_out_same f o x : set_out f o x o = x.
Proof. unfold set_out. now rewrite name_eqb_refl. Qed.
Lemma set_out_other f o x n : n <> o -> set_out f o x n = f n.
Proof. intros H. unfold set_out. apply name_eqb_neq in H. now rewrite H. Qed.

Lemma apply_diagonal J sh v a i : forall os, NoDup os -> In a os -> (i < size (sh a))%nat ->
  (forall b j, In b os -> (j < size (sh b))%nat -> a <> b \/ i <> j -> J a b i j = 0) ->
  apply_system J os sh v a i = J a a i i * dat (v a) i.
Proof.
  assert (Z : forall os, ~ In a os ->
    (forall b j, In b os -> (j < size (sh b))%nat -> a <> b \/ i <> j -> J a b i j = 0) ->
    apply_system J os sh v a i = 0).
  { induction os as [|b os IH]; intros NI H; [reflexivity|]. unfold apply_system in *. cbn [fold_right].
    rewrite IH; [|intros Q; apply NI; now right|intros; apply H; [now right|assumption|assumption]].
    rewrite rsum_zero; [lra|]. intros j Hj. rewrite H; [lra|now left|assumption|].
    left. intros ->. apply NI. now left. }
  induction os as [|b os IH]; intros ND Ha Hi H; [contradiction|].
  inversion ND as [|? ? NI ND']; subst. unfold apply_system in *. cbn [fold_right].
  destruct (name_dec b a) as [->|Ne].
  - rewrite Z; [|assumption|intros; apply H; [now right|assumption|assumption]].
    rewrite (rsum_single _ _ i); [lra|assumption|]. intros j Hj Hji. rewrite H; [lra|now left|assumption|auto].
  - rewrite IH; [|assumption|destruct Ha; [contradiction|assumption]|assumption
                 |intros; apply H; [now right|assumption|assumption]].
    rewrite rsum_zero; [lra|]. intros j Hj. rewrite H; [lra|now left|assumption|auto].
Qed.

Lemma solve_linear_fwd dv : forall os d r,
  NoDup os ->
  let v := fold_left (fun v o => solve_linear1 Fwd (dv o) o v) os (d, r) in
  snd v = r /\ (forall n, ~ In n os -> fst v n = d n)
  /\ (forall n, In n os -> fst v n = np_map2 Rplus (d n)
        (np_map2 Rmult (np_map (fun t => 1 / t) (dv n)) (r n))).
Proof.
  induction os as [|o os IH]; intros d r ND; [simpl; splits; auto; intros; contradiction|].
  inversion ND as [|? ? NI ND']; subst. cbn [fold_left solve_linear1]. cbv zeta.
  destruct (IH (set_out d o (np_map2 Rplus (d o) (np_map2 Rmult (np_map (fun t => 1 / t) (dv o)) (r o)))) r ND')
    as (A & B & C). splits; auto.
  - intros n Hn. rewrite B by (intros Q; apply Hn; now right). apply set_out_other. intros ->. apply Hn. now left.
  - intros n [->|Hn].
    + rewrite B by assumption. apply set_out_same.
    + rewrite C by assumption. rewrite set_out_other; [reflexivity|]. intros ->. contradiction.
Qed.

Lemma solve_linear_rev dv : forall os d r,
  NoDup os ->
  let v := fold_left (fun v o => solve_linear1 Rev (dv o) o v) os (d, r) in
  fst v = d /\ (forall n, ~ In n os -> snd v n = r n)
  /\ (forall n, In n os -> snd v n = np_map2 Rplus (r n)
        (np_map2 Rmult (np_map (fun t => 1 / t) (dv n)) (d n))).
Proof.
  induction os as [|o os IH]; intros d r ND; [simpl; splits; auto; intros; contradiction|].
  inversion ND as [|? ? NI ND']; subst. cbn [fold_left solve_linear1]. cbv zeta.
  destruct (IH d (set_out r o (np_map2 Rplus (r o) (np_map2 Rmult (np_map (fun t => 1 / t) (dv o)) (d o)))) ND')
    as (A & B & C). splits; auto.
  - intros n Hn. rewrite B by (intros Q; apply Hn; now right). apply set_out_other. intros ->. apply Hn. now left.
  - intros n [->|Hn].
    + rewrite B by assumption. apply set_out_same.
    + rewrite C by assumption. rewrite set_out_other; [reflexivity|]. intros ->. contradiction.
Qed.

Lemma solve_linear_exact_fwd m J sh d r :
  let os := map snd m in
  NoDup os -> diagonal J os sh -> regular J os sh -> zeroed d os sh ->
  let d' := fst (solve_linear Fwd m (fun o => derivs (sh o) (J o o)) (d, r)) in
  (forall a, In a os -> shp (d' a) = sh a)
  /\ forall a i, In a os -> (i < size (sh a))%nat -> apply_system J os sh d' a i = dat (r a) i.
Proof.
  intros os ND DG RG ZR d'. unfold d', solve_linear.
  destruct (solve_linear_fwd (fun o => derivs (sh o) (J o o)) os d r ND) as (_ & _ & C).
  change (map snd m) with os.
  split.
  - intros a Ha. rewrite C by assumption. apply (proj1 (ZR a Ha)).
  - intros a i Ha Hi. rewrite (apply_diagonal J sh _ a i os ND Ha Hi) by (intros b j Hb Hj H; now apply DG).
    rewrite C by assumption. cbn [dat np_map2 np_map derivs]. rewrite (proj2 (ZR a Ha)).
    field. now apply RG.
Qed.

Lemma solve_linear_exact_rev m J sh d r :
  let os := map snd m in
  NoDup os -> diagonal J os sh -> regular J os sh -> zeroed r os sh ->
  let r' := snd (solve_linear Rev m (fun o => derivs (sh o) (J o o)) (d, r)) in
  (forall a, In a os -> shp (r' a) = sh a)
  /\ forall a i, In a os -> (i < size (sh a))%nat -> apply_system (transposed J) os sh r' a i = dat (d a) i.
Proof.
  intros os ND DG RG ZR r'. unfold r', solve_linear.
  destruct (solve_linear_rev (fun o => derivs (sh o) (J o o)) os d r ND) as (_ & _ & C).
  change (map snd m) with os.
  split.
  - intros a Ha. rewrite C by assumption. apply (proj1 (ZR a Ha)).
  - intros a i Ha Hi. rewrite apply_diagonal; auto.
    + rewrite C by assumption. cbn [dat np_map2 np_map derivs]. rewrite (proj2 (ZR a Ha)).
      unfold transposed. field. now apply RG.
    + intros b j Hb Hj H. unfold transposed. apply DG; auto. destruct H; auto.
Qed.
