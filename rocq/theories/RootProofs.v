(** The derivative of an implicit solution: proofs. *)
From Coq Require Import Reals Lra Arith List Lia.
From Verif Require Import PyBase GroupApi RSum NdArray CompElem Implicit SpecImplicit BisectProofs ImplicitProofs
  ImplicitSetup ImplicitSolve ImplicitWitness SpecRoot.
Import ListNotations.
Local Open Scope R_scope.

Lemma near_and t0 P Q : near t0 P -> near t0 Q -> near t0 (fun t => P t /\ Q t).
Proof.
  intros (d & Hd & H) (e & He & K). exists (Rmin d e). split; [now apply Rmin_glb_lt|]. intros t Ht. split.
  - apply H. eapply Rlt_le_trans; [exact Ht|apply Rmin_l].
  - apply K. eapply Rlt_le_trans; [exact Ht|apply Rmin_r].
Qed.
Lemma near_weaken t0 (P Q : R -> Prop) : (forall t, P t -> Q t) -> near t0 P -> near t0 Q.
Proof. intros H (d & Hd & K). exists d. split; auto. Qed.
Lemma near_at t0 (P : R -> Prop) : near t0 P -> P t0.
Proof. intros (d & Hd & K). apply K. rewrite Rminus_diag_eq, Rabs_R0; auto. Qed.

(** a straight line through a point inside the bracket stays inside for a while *)
Lemma line_inside a b z m t0 : between a b z -> z <> a -> z <> b ->
  near t0 (fun t => between a b (z + m * (t - t0))).
Proof.
  intros [B1 B2] Na Nb.
  assert (Rmin a b < z < Rmax a b) as [I1 I2].
  { unfold Rmin, Rmax in *. destruct (Rle_dec a b); lra. }
  set (e := Rmin (z - Rmin a b) (Rmax a b - z)). assert (He : 0 < e) by (unfold e; apply Rmin_glb_lt; lra).
  exists (e / (Rabs m + 1)). pose proof (Rabs_pos m) as Pm.
  split. { apply Rdiv_lt_0_compat; lra. }
  intros t Ht.
  assert (Hm : Rabs (m * (t - t0)) <= e).
  { rewrite Rabs_mult.
    assert (Rabs (t - t0) * (Rabs m + 1) < e).
    { apply Rmult_lt_reg_r with (/ (Rabs m + 1)); [apply Rinv_0_lt_compat; lra|].
      rewrite Rmult_assoc, Rinv_r by lra. rewrite Rmult_1_r. exact Ht. }
    pose proof (Rabs_pos (t - t0)). nra. }
  assert (E1 : e <= z - Rmin a b) by apply Rmin_l. assert (E2 : e <= Rmax a b - z) by apply Rmin_r.
  apply Rabs_def2b in Hm || (unfold Rabs in Hm; destruct (Rcase_abs (m * (t - t0)))).
  all: unfold between; lra.
Qed.

(** near a simple zero a function has the sign of its derivative *)
Lemma line_sign g t0 l : g t0 = 0 -> derivable_pt_lim g t0 l -> l <> 0 ->
  near t0 (fun t => t <> t0 -> 0 < g t * (l * (t - t0))).
Proof.
  intros E D NZ. destruct (D (Rabs l / 2)) as [d Hd]. { apply Rabs_pos_lt in NZ. lra. }
  exists d. split; [apply cond_pos|]. intros t Ht N.
  specialize (Hd (t - t0) ltac:(lra) Ht). replace (t0 + (t - t0)) with t in Hd by ring. rewrite E, Rminus_0_r in Hd.
  set (q := g t / (t - t0)) in *. assert (g t = q * (t - t0)) as -> by (unfold q; field; lra).
  assert (0 < q * l).
  { unfold Rabs in Hd. destruct (Rcase_abs (q - l)), (Rcase_abs l); nra. }
  assert (0 < (t - t0) * (t - t0)) by (destruct (Rtotal_order t t0) as [?|[?|?]]; [nra|contradiction|nra]).
  replace (q * (t - t0) * (l * (t - t0))) with ((q * l) * ((t - t0) * (t - t0))) by ring. nra.
Qed.

Theorem root_derivative f a b y t0 P D :
  near t0 (fun t => (forall z, between a b z -> continuity_pt (f t) z) /\ only_root (f t) a b (y t)) ->
  y t0 <> a -> y t0 <> b -> D <> 0 -> line_rates f t0 (y t0) P D ->
  derivable_pt_lim y t0 (- P / D).
Proof.
  intros NR Na Nb ND L e He. pose proof (near_at _ _ NR) as (_ & B0 & E0 & _).
  set (m := - P / D).
  assert (S1 := line_sign (fun t => f t (y t0 + (m + e / 2) * (t - t0))) t0 (P + D * (m + e / 2))).
  assert (S2 := line_sign (fun t => f t (y t0 + (m - e / 2) * (t - t0))) t0 (P + D * (m - e / 2))).
  cbv beta in S1, S2.
  assert (Z : forall k, y t0 + k * (t0 - t0) = y t0) by (intros; ring). rewrite !Z in S1, S2.
  assert (V1 : P + D * (m + e / 2) = D * e / 2) by (unfold m; field; auto).
  assert (V2 : P + D * (m - e / 2) = - (D * e / 2)) by (unfold m; field; auto).
  assert (NZ : D * e / 2 <> 0) by (intros Q; apply ND; nra).
  rewrite V1 in S1. rewrite V2 in S2.
  assert (L1 := L (m + e / 2)). assert (L2 := L (m - e / 2)). rewrite V1 in L1. rewrite V2 in L2.
  specialize (S1 E0 L1 NZ). specialize (S2 E0 L2 ltac:(lra)).
  assert (K := near_and _ _ _ NR (near_and _ _ _ S1 (near_and _ _ _ S2
                 (near_and _ _ _ (line_inside a b (y t0) (m + e / 2) t0 B0 Na Nb)
                                 (line_inside a b (y t0) (m - e / 2) t0 B0 Na Nb))))).
  destruct K as (d & Hd & K). exists (mkposreal d Hd). intros h Hh0 Hh. cbn [pos] in Hh.
  specialize (K (t0 + h)). replace (t0 + h - t0) with h in K by ring. specialize (K Hh).
  destruct K as ([C [Bt [Et U]]] & K1 & K2 & I1 & I2).
  specialize (K1 ltac:(lra)). specialize (K2 ltac:(lra)).
  set (p := y t0 + (m + e / 2) * h) in *. set (n := y t0 + (m - e / 2) * h) in *.
  assert (BR : exists z, between p n z /\ f (t0 + h) z = 0).
  { destruct (Rle_dec 0 (f (t0 + h) p)) as [G|G].
    - destruct (root_between (f (t0 + h)) p n) as (z & Z1 & Z2); try lra.
      + intros z Hz. apply C. exact (between_trans a b p n z I1 I2 Hz).
      + set (u := f (t0 + h) p) in *. set (v := f (t0 + h) n) in *. set (w := D * e / 2) in *.
        destruct (Rle_dec v 0); [assumption|]. exfalso. assert (0 < w * h) by nra. nra.
      + exists z. auto.
    - destruct (root_between (f (t0 + h)) n p) as (z & Z1 & Z2); try lra.
      + intros z Hz. apply C. exact (between_trans a b n p z I2 I1 Hz).
      + set (u := f (t0 + h) p) in *. set (v := f (t0 + h) n) in *. set (w := D * e / 2) in *.
        destruct (Rge_dec v 0); [assumption|]. exfalso. assert (w * h < 0) by nra. nra.
      + exists z. split; [|assumption]. unfold between in *. now rewrite Rmin_comm, Rmax_comm. }
  destruct BR as (z & Z1 & Z2).
  assert (z = y (t0 + h)) as ->. { apply U; [|assumption]. exact (between_trans a b p n z I1 I2 Z1). }
  replace ((y (t0 + h) - y t0) / h - m) with ((y (t0 + h) - y t0 - m * h) / h) by (field; auto).
  assert (Q : Rabs (y (t0 + h) - y t0 - m * h) <= e / 2 * Rabs h).
  { destruct Z1 as [Z1 Z3]. unfold p, n, Rmin, Rmax in Z1, Z3. unfold Rabs.
    destruct (Rle_dec (y t0 + (m + e / 2) * h) (y t0 + (m - e / 2) * h)),
      (Rcase_abs (y (t0 + h) - y t0 - m * h)), (Rcase_abs h); nra. }
  unfold Rdiv at 1. rewrite Rabs_mult, Rabs_inv.
  assert (Hp : 0 < Rabs h) by now apply Rabs_pos_lt.
  apply Rle_lt_trans with (e / 2 * Rabs h * / Rabs h).
  { apply Rmult_le_compat_r; [left; now apply Rinv_0_lt_compat|exact Q]. }
  rewrite Rmult_assoc, Rinv_r by lra. lra.
Qed.

(** Any number of outputs, each residual entry depending on its own output entry. *)
Theorem solution_rates (m : list (name * name)) (J : system) sh (d r : name -> nd R)
    (f : name -> nat -> R -> R -> R) (y : name -> nat -> R -> R) (x1 x2 P : name -> nat -> R) t0 :
  NoDup (map snd m) -> regular J (map snd m) sh -> zeroed d (map snd m) sh ->
  (forall o i, In o (map snd m) -> (i < size (sh o))%nat ->
     near t0 (fun t => (forall z, between (x1 o i) (x2 o i) z -> continuity_pt (f o i t) z)
                       /\ only_root (f o i t) (x1 o i) (x2 o i) (y o i t))
     /\ y o i t0 <> x1 o i /\ y o i t0 <> x2 o i
     /\ line_rates (f o i) t0 (y o i t0) (P o i) (J o o i i)
     /\ dat (r o) i = - P o i) ->
  let d' := fst (solve_linear Fwd m (fun o => derivs (sh o) (J o o)) (d, r)) in
  forall o i, In o (map snd m) -> (i < size (sh o))%nat -> derivable_pt_lim (y o i) t0 (dat (d' o) i).
Proof.
  intros ND RG ZR H d' o i Ho Hi. destruct (H o i Ho Hi) as (N & Na & Nb & L & E).
  unfold d', solve_linear.
  destruct (solve_linear_fwd (fun o => derivs (sh o) (J o o)) (map snd m) d r ND) as (_ & _ & C).
  rewrite C by assumption. cbn [dat np_map2 np_map derivs]. rewrite (proj2 (ZR o Ho)), E.
  assert (R := RG o i Ho Hi).
  replace (0 + 1 / J o o i i * - P o i) with (- P o i / J o o i i) by (field; exact R).
  apply (root_derivative (f o i) (x1 o i) (x2 o i)); auto.
Qed.

(** the residual along a line, from its rates *)
Lemma elementwise_rates F outputs o rn s f y0 t0 P J i :
  near t0 (fun t => elementwise (F t) outputs o rn s (f t)) ->
  residual_rates F outputs o rn s y0 t0 P J -> (i < size s)%nat ->
  line_rates (fun t => f t i) t0 (y0 i) (P i) (J i i).
Proof.
  intros EL RR Hi m.
  set (X := fun t => Nd s (fun j => y0 j + (if Nat.eqb j i then m else 0) * (t - t0))).
  assert (H := RR X (fun j => if Nat.eqb j i then m else 0)).
  assert (HX : forall j, dat (X t0) j = y0 j) by (intros j; cbn; ring).
  specialize (H (fun _ => eq_refl) HX).
  assert (HD : forall j, (j < size s)%nat -> derivable_pt_lim (fun t => dat (X t) j) t0 (if Nat.eqb j i then m else 0)).
  { intros j _. cbn [X dat]. set (k := if Nat.eqb j i then m else 0).
    apply derivable_pt_lim_eq with (l := 0 + k * (1 - 0)); [ring|].
    apply (derivable_pt_lim_plus (fun _ => y0 j) (fun t => k * (t - t0))); [apply derivable_pt_lim_const|].
    apply (derivable_pt_lim_scal (fun t => t - t0)).
    apply (derivable_pt_lim_minus (fun t => t) (fun _ => t0)); [apply derivable_pt_lim_id|apply derivable_pt_lim_const]. }
  specialize (H HD i Hi). cbv beta in H.
  replace (rsum (size s) (fun j => J i j * (if Nat.eqb j i then m else 0))) with (J i i * m) in H.
  2:{ rewrite (rsum_single (size s) _ i) by (auto; intros j Hj N; apply Nat.eqb_neq in N; rewrite N; ring).
      now rewrite Nat.eqb_refl. }
  destruct EL as (e & He & EL). intros eps Heps. destruct (H eps Heps) as [d Hd].
  assert (Hm : 0 < Rmin d e) by (apply Rmin_glb_lt; [apply cond_pos|exact He]).
  exists (mkposreal _ Hm). intros h Hh0 Hh. cbn [pos] in Hh.
  specialize (Hd h Hh0 ltac:(eapply Rlt_le_trans; [exact Hh|apply Rmin_l])).
  assert (V : forall t, Rabs (t - t0) < e -> dat (F t (set_out outputs o (X t)) rn) i = f t i (y0 i + m * (t - t0))).
  { intros t Ht. rewrite (EL t Ht _ (X t)); auto.
    - cbn [X dat]. now rewrite Nat.eqb_refl.
    - apply set_out_same.
    - intros n Hn. now apply set_out_other. }
  rewrite !V in Hd; [exact Hd| |].
  - rewrite Rminus_diag_eq, Rabs_R0; auto.
  - replace (t0 + h - t0) with h by ring. eapply Rlt_le_trans; [exact Hh|apply Rmin_r].
Qed.

(** C97: a component with one bracketed output *)
Theorem implicit_derivative O fuel h G xs r c vs k out b1 b2 o s v x1 x2 F outputs f y t0 P J :
  run_iops O fuel igroup0 h = Some (G, xs) ->
  build_problem O fuel G = Some (Ok ([r], c, vs)) ->
  succeeded h xs k (DefineBracketed out r b1 b2) ->
  In (o, (s, v)) (ic_outs c) -> stands_for b1 s x1 -> stands_for b2 s x2 ->
  near t0 (fun t => elementwise (F t) outputs o (aname (ig_api G) r) s (f t)
    /\ forall j, (j < size s)%nat -> (forall z, between (x1 j) (x2 j) z -> continuity_pt (f t j) z)
         /\ f t j (x1 j) * f t j (x2 j) <= 0 /\ only_root (f t j) (x1 j) (x2 j) (y t j)) ->
  (forall j, (j < size s)%nat -> y t0 j <> x1 j /\ y t0 j <> x2 j) ->
  residual_rates F outputs o (aname (ig_api G) r) s (y t0) t0 P J ->
  (forall j, (j < size s)%nat -> J j j <> 0) ->
  (forall m, near t0 (fun t => exists outputs', solve_nonlinear m G [r] (F t) outputs = Ok outputs'
     /\ shp (outputs' o) = s
     /\ forall j, (j < size s)%nat -> Rabs (dat (outputs' o) j - y t j) <= Rabs (x2 j - x1 j) / 2 ^ 101))
  /\ (forall d e, shp (d o) = s -> (forall j, dat (d o) j = 0) -> (forall j, (j < size s)%nat -> dat (e o) j = - P j) ->
       let d' := fst (solve_linear Fwd (ig_map G) (fun _ => derivs s J) (d, e)) in
       shp (d' o) = s /\ forall j, (j < size s)%nat -> derivable_pt_lim (fun t => y t j) t0 (dat (d' o) j))
  /\ (forall d e, shp (e o) = s -> (forall j, dat (e o) j = 0) ->
       let e' := snd (solve_linear Rev (ig_map G) (fun _ => derivs s J) (d, e)) in
       shp (e' o) = s /\ derivable_pt_lim (fun t => rsum (size s) (fun j => dat (d o) j * y t j)) t0
         (rsum (size s) (fun j => dat (e' o) j * - P j))).
Proof.
  intros HR HB Q HO S1 S2 NR IN RR RG.
  assert (EM : ig_map G = [(aname (ig_api G) r, o)]).
  { destruct (single_def _ _ _ _ _ _ _ _ _ _ _ _ HR HB Q) as (o' & EM & _).
    apply (component_start O fuel G [r] c vs HB) in HO.
    destruct HO as (r' & [<-|[]] & _ & _ & DG & _).
    rewrite EM in DG. cbn [dict_get] in DG. rewrite name_eqb_refl in DG. injection DG as ->. exact EM. }
  assert (DY : forall j, (j < size s)%nat -> derivable_pt_lim (fun t => y t j) t0 (- P j / J j j)).
  { intros j Hj. apply (root_derivative (fun t => f t j) (x1 j) (x2 j)).
    - eapply near_weaken; [|exact NR]. intros t [_ H]. destruct (H j Hj) as (A & _ & B). auto.
    - now apply IN.
    - now apply IN.
    - now apply RG.
    - apply (elementwise_rates F outputs o (aname (ig_api G) r) s f (y t0) t0 P J j); auto.
      eapply near_weaken; [|exact NR]. now intros t [H _]. }
  splits.
  - intros m. eapply near_weaken; [|exact NR]. intros t [EL H].
    destruct (bracketed_root O fuel h G xs r c vs k out b1 b2 o s v x1 x2 (F t) outputs (f t) m HR HB Q HO S1 S2 EL)
      as (o' & H1 & _ & H2 & H3).
    { intros j Hj. destruct (H j Hj) as (A & B & _). auto. }
    exists o'. splits; auto. intros j Hj. destruct (H3 j Hj) as (z & Z1 & Z2 & Z3).
    destruct (H j Hj) as (_ & _ & _ & _ & U). now rewrite <- (U z Z1 Z2).
  - intros d e D1 D2 D3. cbv zeta. rewrite EM. cbn [solve_linear map snd fold_left solve_linear1 fst].
    rewrite set_out_same. cbn [shp np_map2 np_map derivs dat]. split; [exact D1|].
    intros j Hj. rewrite D2, D3 by assumption.
    replace (0 + 1 / J j j * - P j) with (- P j / J j j) by (field; now apply RG). now apply DY.
  - intros d e E1 E2. cbv zeta. rewrite EM. cbn [solve_linear map snd fold_left solve_linear1 fst].
    rewrite set_out_same. cbn [shp np_map2 np_map derivs dat]. split; [exact E1|].
    apply derivable_pt_lim_rsum. intros j Hj. rewrite E2.
    replace ((0 + 1 / J j j * dat (d o) j) * - P j) with (dat (d o) j * (- P j / J j j)) by (field; now apply RG).
    apply (derivable_pt_lim_scal (fun t => y t j)). now apply DY.
Qed.

(** The residual y^3 - x with x moving as (1 + t)^3: the solution is 1 + t. *)
Definition moving : R -> problem := fun t env _ => Nd [2%nat] (fun j => dat (env (User 1)) j ^ 3 - (1 + t) ^ 3)%R.

Lemma cube_root z a : 0 <= z -> 0 < a -> z ^ 3 - a ^ 3 = 0 -> z = a.
Proof.
  intros Hz Ha H. assert (Z : (z - a) * (z * z + z * a + a * a) = 0) by (rewrite <- H; ring).
  apply Rmult_integral in Z. destruct Z; nra.
Qed.

Example implicit_case : exists G c vs, forall outputs d e,
  run_iops W 9 igroup0 (h_one [2%nat] (vec [2%nat] 1%R) (num 0%R) ends) = Some (G, [Ok 1; Ok 2; Ok 3; Ok 1]%nat)
  /\ build_problem W 9 G = Some (Ok ([3%nat], c, vs))
  /\ (forall m, near 0 (fun t => exists outputs', solve_nonlinear m G [3%nat] (moving t) outputs = Ok outputs'
        /\ shp (outputs' (User 1)) = [2%nat]
        /\ forall j, (j < 2)%nat -> Rabs (dat (outputs' (User 1)) j - (1 + t)) <= Rabs (dat ends j - 0) / 2 ^ 101))
  /\ (shp (d (User 1)) = [2%nat] -> (forall j, dat (d (User 1)) j = 0) ->
      (forall j, (j < 2)%nat -> dat (e (User 1)) j = 3) ->
      let d' := fst (solve_linear Fwd (ig_map G) (fun _ => derivs [2%nat] (fun i j => if Nat.eqb i j then 3 else 0)) (d, e)) in
      shp (d' (User 1)) = [2%nat] /\ forall j, (j < 2)%nat -> derivable_pt_lim (fun t => 1 + t) 0 (dat (d' (User 1)) j)).
Proof.
  destruct (one_runs [2%nat] (vec [2%nat] 1%R) (num 0%R) ends) as (G & c & vs & HR & HB & HO & _ & HN & _).
  exists G, c, vs. intros outputs d e.
  destruct (implicit_derivative W 9 _ G _ 3%nat c vs 3%nat 1%nat (num 0%R) ends (User 1) [2%nat] one (fun _ => 0%R) (dat ends)
              moving outputs (fun t _ x => x ^ 3 - (1 + t) ^ 3)%R (fun t _ => 1 + t) 0 (fun _ => - 3)
              (fun i j => if Nat.eqb i j then 3 else 0) HR HB) as (A & B & _).
  - split; [reflexivity|]. exists 1%nat. reflexivity.
  - rewrite HO. now left.
  - left. split; reflexivity.
  - right. split; reflexivity.
  - exists (1 / 2). split; [lra|]. intros t Ht. rewrite Rminus_0_r in Ht. apply Rabs_def2 in Ht. split.
    + intros env x _ E _ j _. unfold moving. cbn [dat]. now rewrite E.
    + intros j _. splits.
      * intros z _. apply derivable_continuous_pt. reg.
      * unfold ends. cbn [dat]. assert (0 < (1 + t) ^ 3) by (apply pow_lt; lra).
        assert ((1 + t) * (1 + t) < 4) by nra. assert ((1 + t) ^ 3 < 8) by nra.
        destruct j; nra.
      * split; [|split; [ring|]].
        -- unfold between, ends. cbn [dat]. destruct j; rewrite Rmin_left, Rmax_right; lra.
        -- intros z [Hz _] E. apply cube_root; [|lra|exact E].
           unfold ends in Hz. cbn [dat] in Hz. destruct j; rewrite Rmin_left in Hz; lra.
  - intros j _. unfold ends. cbn [dat]. destruct j; split; lra.
  - intros X w HS H0 HD i Hi. rewrite (rsum_single _ _ i) by (auto; intros j _ N; apply Nat.eqb_neq in N; rewrite Nat.eqb_sym, N; ring).
    rewrite Nat.eqb_refl. unfold moving. cbn [dat].
    apply derivable_pt_lim_ext with (f := fun t => dat (X t) i ^ 3 - (1 + t) ^ 3).
    { intros t. now rewrite set_out_same. }
    specialize (HD i Hi). specialize (H0 i). cbn beta in H0.
    replace (- 3 + 3 * w i) with (INR 3 * dat (X 0) i ^ 2 * w i - INR 3 * (1 + 0) ^ 2 * (0 + 1))
      by (rewrite H0; cbn [INR]; ring).
    apply (derivable_pt_lim_minus (fun t => dat (X t) i ^ 3) (fun t => (1 + t) ^ 3)).
    + apply (derivable_pt_lim_comp (fun t => dat (X t) i) (fun x => x ^ 3)); [exact HD|]. apply derivable_pt_lim_pow.
    + apply (derivable_pt_lim_comp (fun t => 1 + t) (fun x => x ^ 3)).
      * apply (derivable_pt_lim_plus (fun _ => 1) (fun t => t)); [apply derivable_pt_lim_const|apply derivable_pt_lim_id].
      * apply derivable_pt_lim_pow.
  - intros j _. rewrite Nat.eqb_refl. lra.
  - splits; auto.
    intros D1 D2 D3. apply B; auto. intros j Hj. rewrite D3 by exact Hj. lra.
Qed.
