(** Implicit components as subsystems: their solutions obey the chain rule, and the
    equations of all subsystems together give the derivatives of all variables. *)
From Coq Require Import Reals Lra Lia Arith List Bool.
From Coq Require Import FunctionalExtensionality.
From Verif Require Import PyBase PySet SpecGraph GraphLemmas Graph SpecSetup Replace GroupApi SpecApi
  GroupApiProofs GroupApiAcyclic GroupApiShape GroupApiWired GroupApiSetup GroupApiUses Run SpecRun RunProofs
  GroupApiHistory ApiTheorems ApiCheck.
From Verif Require Import RSum NdArray Component JacSpec SpecNorm SpecExtremum SpecTotal TotalCalc StdCalls SpecDeriv
  DerivProofs SpecAdjoint AdjointProofs BisectProofs SpecTotals TotalsProofs InternalProofs Nested SpecNested NestedProofs
  Implicit SpecImplicit SpecRoot RootProofs ImplicitModel SpecImplicitModel.
Import ListNotations.
Local Open Scope nat_scope.

Lemma derivable_near f g t0 l : near t0 (fun t => f t = g t) -> derivable_pt_lim f t0 l -> derivable_pt_lim g t0 l.
Proof.
  intros N H eps He. destruct N as (e & He' & N). destruct (H eps He) as [d Hd].
  assert (Hm : (0 < Rmin d e)%R) by (apply Rmin_glb_lt; [apply cond_pos|assumption]).
  exists (mkposreal _ Hm). intros h H0 Hh. cbn [pos] in Hh.
  rewrite <- !N.
  - apply Hd; [assumption|]. eapply Rlt_le_trans; [exact Hh|apply Rmin_l].
  - rewrite Rminus_diag_eq, Rabs_R0; auto.
  - replace (t0 + h - t0)%R with h by ring. eapply Rlt_le_trans; [exact Hh|apply Rmin_r].
Qed.

Lemma near_lt t0 n (P : nat -> R -> Prop) : (forall k, k < n -> near t0 (P k)) -> near t0 (fun t => forall k, k < n -> P k t).
Proof.
  induction n as [|n IH]; intros H.
  - exists 1%R. split; [lra|]. intros t _ k Hk. lia.
  - assert (N := near_and _ _ _ (IH (fun k Hk => H k (Nat.lt_trans _ _ _ Hk (Nat.lt_succ_diag_r n)))) (H n (Nat.lt_succ_diag_r n))).
    revert N. apply near_weaken. intros t [A B] k Hk. destruct (Nat.eq_dec k n) as [->|]; [assumption|]. apply A. lia.
Qed.

Lemma near_move f t0 l e : (0 < e)%R -> derivable_pt_lim f t0 l -> near t0 (fun t => Rabs (f t - f t0) < e)%R.
Proof.
  intros He D. assert (C : continuity_pt f t0).
  { apply derivable_continuous_pt. exists l. exact D. }
  destruct (C e He) as (d & Hd & K). exists d. split; [assumption|]. intros t Ht.
  destruct (Req_dec t t0) as [->|NE]; [now rewrite Rminus_diag_eq, Rabs_R0|].
  apply K. split; [split; [exact I|auto]|exact Ht].
Qed.

Section One.
Variable m : implicit.
Hypothesis OK : implicit_ok m.
Local Notation inn := (im_model m).
Local Notation shape_of := (in_shape (im_model m)).
Local Notation extent x := (size (in_shape (im_model m) x)).
Local Notation len := (length (im_ins m)).

Lemma model_ok : inner_ok inn. Proof. exact (ik_model _ OK). Qed.

Lemma with_out_last v y : with_out m v y len = y.
Proof. unfold with_out. now rewrite Nat.eqb_refl. Qed.
Lemma with_out_in v y q : q < len -> with_out m v y q = v q.
Proof. intros H. unfold with_out. destruct (Nat.eqb_spec q len); [lia|reflexivity]. Qed.

Lemma given_cases q y : nth_error (in_inputs inn) q = Some y ->
  (q < len /\ nth_error (im_ins m) q = Some y) \/ (q = len /\ y = im_out m).
Proof.
  rewrite (ik_given _ OK). intros H. destruct (Nat.lt_ge_cases q len) as [L|L].
  - left. split; [assumption|]. now rewrite nth_error_app1 in H.
  - right. rewrite nth_error_app2 in H by assumption. destruct (q - len) as [|k] eqn:E; cbn in H.
    + injection H as <-. split; [lia|reflexivity].
    + destruct k; discriminate.
Qed.

(** moving given variables *)
Lemma model_moves (g : R -> nat -> values) (Y : R -> values) t0 d w T x i :
  (forall q y j, nth_error (im_ins m) q = Some y -> j < extent y -> derivable_pt_lim (fun t => g t q j) t0 (d q j)) ->
  (forall j, j < out_size m -> derivable_pt_lim (fun t => Y t j) t0 (w j)) ->
  inner_chained inn (with_out m (g t0) (Y t0)) -> inner_rates inn (with_out m (g t0) (Y t0)) (with_out m d w) T ->
  i < extent x -> derivable_pt_lim (fun t => inner_pass inn (with_out m (g t) (Y t)) x i) t0 (T x i).
Proof.
  intros HG HY CH IR Hi.
  refine (inner_derivative inn model_ok (fun t => with_out m (g t) (Y t)) t0 (with_out m d w) T _ CH IR x i Hi).
  intros q y j Ey Hj. destruct (given_cases q y Ey) as [[L E]|[-> ->]].
  - rewrite with_out_in by assumption. apply derivable_pt_lim_ext with (f := fun t => g t q j).
    + intros t. now rewrite with_out_in.
    + now apply (HG q y).
  - rewrite with_out_last. apply derivable_pt_lim_ext with (f := fun t => Y t j).
    + intros t. now rewrite with_out_last.
    + now apply HY.
Qed.

(** the rates are sums over the entries that move *)
Definition parts_rate (v : nat -> values) (y : values) (tot : nat -> nat -> name -> values) (d : nat -> values) (x : name) (o : nat) : R :=
  rsum len (fun q => rsum (extent (nth q (im_ins m) (Auto 0))) (fun i => (tot q i x o * d q i)%R)).

Lemma model_columns v y d w T (tot : nat -> nat -> name -> values) x o :
  inner_rates inn (with_out m v y) (with_out m d w) T ->
  (forall q i, entry_rates m v y q i (tot q i)) -> o < extent x ->
  T x o = (parts_rate v y tot d x o + rsum (out_size m) (fun i => tot len i x o * w i))%R.
Proof.
  intros IR TT Ho.
  rewrite (inner_columns inn model_ok (with_out m v y) (with_out m d w) T tot IR (fun q _ i _ _ => TT q i) x o Ho).
  rewrite (ik_given _ OK), app_length. cbn [length]. rewrite Nat.add_1_r. cbn [rsum]. f_equal.
  - apply rsum_ext. intros q Hq. rewrite app_nth1 by assumption. apply rsum_ext. intros i Hi. now rewrite with_out_in.
  - rewrite app_nth2 by lia. rewrite Nat.sub_diag. cbn [nth]. apply rsum_ext. intros i Hi. now rewrite with_out_last.
Qed.

Lemma entries_exist v y : exists tot : nat -> nat -> name -> values, forall q i, entry_rates m v y q i (tot q i).
Proof.
  exists (fun q i => rates_of inn (with_out m v y) (fun q' i' => if Nat.eqb q' q && Nat.eqb i' i then 1%R else 0%R)).
  intros q i. apply rates_of_solves. exact model_ok.
Qed.
Lemma entries_unique v y q i T T' x o : entry_rates m v y q i T -> entry_rates m v y q i T' -> o < extent x -> T x o = T' x o.
Proof. intros H H' Ho. exact (inner_unique inn model_ok _ _ T T' x o H H' Ho). Qed.

Lemma out_res i : i < out_size m -> i < extent (im_res m).
Proof. now rewrite (ik_size _ OK). Qed.

(** the residual as a function of one entry *)
Lemma entry_continuous v i z : one_solution m v -> i < out_size m -> between (im_lo m i) (im_hi m i) z ->
  continuity_pt (fun z => residual m v (fun _ => z) i) z.
Proof.
  intros (EL & _ & CH) Hi Hz.
  set (Y := fun z : R => fun j : nat => if Nat.eqb j i then z else im_lo m j).
  assert (BY : bracketed m (Y z)).
  { intros j Hj. unfold Y. destruct (Nat.eqb_spec j i) as [->|]; [assumption|]. split; [apply Rmin_l|apply Rmax_l]. }
  set (w := fun j : nat => if Nat.eqb j i then 1%R else 0%R).
  assert (D : derivable_pt_lim (fun z => residual m v (Y z) i) z
    (rates_of inn (with_out m v (Y z)) (with_out m (fun _ _ => 0%R) w) (im_res m) i)).
  { refine (model_moves (fun _ => v) Y z (fun _ _ => 0%R) w _ (im_res m) i _ _ (CH _ BY) _ (out_res i Hi)).
    - intros q y j _ _. apply derivable_pt_lim_const.
    - intros j _. unfold Y, w. destruct (Nat.eqb j i); [apply derivable_pt_lim_id|apply derivable_pt_lim_const].
    - apply rates_of_solves. exact model_ok. }
  apply derivable_continuous_pt. exists (rates_of inn (with_out m v (Y z)) (with_out m (fun _ _ => 0%R) w) (im_res m) i).
  apply derivable_pt_lim_ext with (2 := D). intros t. apply EL; [assumption|]. unfold Y. now rewrite Nat.eqb_refl.
Qed.

Lemma solution_root v y i : one_solution m v -> is_solution m v y -> i < out_size m ->
  only_root (fun z => residual m v (fun _ => z) i) (im_lo m i) (im_hi m i) (y i).
Proof.
  intros (EL & ON & _) [B Z] Hi.
  assert (E : residual m v (fun _ => y i) i = 0%R) by (rewrite <- (Z i Hi); now apply EL).
  destruct (ON i Hi) as (z & Hz & Ez & U). assert (y i = z) as Q by (apply U; auto).
  split; [auto|]. split; [assumption|]. intros z' Hz' E'. rewrite Q. auto.
Qed.

Variable c : component.
Hypothesis SR : stands_for_root m c.

Lemma ins_length : length (c_ins c) = len.
Proof. rewrite (sr_ins _ _ SR). apply map_length. Qed.
Lemma ins_nth q : q < len -> nth q (c_ins c) [] = shape_of (nth q (im_ins m) (Auto 0)).
Proof.
  intros Hq. rewrite (sr_ins _ _ SR). rewrite (nth_indep _ [] (shape_of (Auto 0))) by (now rewrite map_length). apply map_nth.
Qed.

(** what the partials of [c] do to a direction *)
Lemma applied_root v d tot o : (forall q i, entry_rates m v (value_of c v) q i (tot q i)) -> o < out_size m ->
  applied c v d o = (- parts_rate v (value_of c v) tot d (im_res m) o / tot len o (im_res m) o)%R.
Proof.
  intros TT Ho. unfold applied, along, parts_rate. rewrite ins_length.
  replace (- rsum len (fun q => rsum (extent (nth q (im_ins m) (Auto 0))) (fun i => tot q i (im_res m) o * d q i)) / tot len o (im_res m) o)%R
    with (rsum len (fun q => rsum (extent (nth q (im_ins m) (Auto 0))) (fun i => (tot q i (im_res m) o * d q i) * (- / tot len o (im_res m) o))))%R.
  2:{ unfold Rdiv. rewrite Ropp_mult_distr_l_reverse, <- Ropp_mult_distr_r_reverse, <- rsum_scal_r. apply rsum_ext. intros q Hq. now rewrite <- rsum_scal_r. }
  apply rsum_ext. intros q Hq. rewrite ins_nth by assumption. apply rsum_ext. intros i Hi.
  destruct (sr_partial _ _ SR v q (nth q (im_ins m) (Auto 0))) as (j & E & J); [now apply nth_error_nth'|].
  rewrite E. destruct (J i o Hi Ho) as (T & D & HT & HD & ->).
  rewrite (entries_unique _ _ _ _ _ _ (im_res m) o HT (TT q i) (out_res o Ho)).
  rewrite (entries_unique _ _ _ _ _ _ (im_res m) o HD (TT len o) (out_res o Ho)).
  unfold Rdiv. ring.
Qed.

Lemma root_chain : chain_rule (regular_at m) c.
Proof.
  intros g d t0 M [SN RG].
  exists (fun q => match c_partials c (inputs_of (c_ins c) (g t0)) q with Some j => j | None => Dense (Nd [] (fun _ => 0%R)) end).
  split.
  { intros q Hq. rewrite ins_length in Hq. destruct (sr_partial _ _ SR (g t0) q (nth q (im_ins m) (Auto 0))) as (j & E & _).
    - now apply nth_error_nth'.
    - now rewrite E. }
  intros o Ho. rewrite (sr_out _ _ SR) in Ho. change (o < out_size m) in Ho.
  assert (M' : forall q y i, nth_error (im_ins m) q = Some y -> i < extent y -> derivable_pt_lim (fun t => g t q i) t0 (d q i)).
  { intros q y i Ey Hi. assert (Hq : q < len) by (apply nth_error_Some; congruence). apply M; [now rewrite ins_length|].
    rewrite ins_nth by assumption. now rewrite (nth_error_nth _ _ _ Ey). }
  assert (NS : near t0 (fun t => one_solution m (g t))).
  { destruct SN as (e & He & SN).
    assert (N : near t0 (fun t => forall q, q < len -> forall i, i < extent (nth q (im_ins m) (Auto 0)) -> (Rabs (g t q i - g t0 q i) < e)%R)).
    { apply near_lt. intros q Hq. apply near_lt. intros i Hi. apply (near_move (fun t => g t q i)) with (l := d q i); [assumption|].
      apply (M' q (nth q (im_ins m) (Auto 0))); [now apply nth_error_nth'|assumption]. }
    revert N. apply near_weaken. intros t H. apply SN. intros q y i Ey Hi.
    assert (Hq : q < len) by (apply nth_error_Some; congruence). apply H; [assumption|]. now rewrite (nth_error_nth _ _ _ Ey). }
  assert (O0 := near_at _ _ NS). assert (S0 := sr_value _ _ SR _ O0).
  destruct (RG _ S0 o Ho) as (NA & NB & ND).
  destruct (entries_exist (g t0) (value_of c (g t0))) as [tot TT].
  set (P := parts_rate (g t0) (value_of c (g t0)) tot d (im_res m) o). set (D := tot len o (im_res m) o).
  assert (DN : D <> 0%R) by (apply ND; apply TT).
  eapply derivable_pt_lim_eq; [|apply (root_derivative (fun t z => residual m (g t) (fun _ => z) o) (im_lo m o) (im_hi m o)
    (fun t => value_of c (g t) o) t0 P D); [| | | |]].
  - transitivity (applied c (g t0) d o); [symmetry; exact (applied_root (g t0) d tot o TT Ho)|].
    unfold applied, along. apply rsum_ext. intros q Hq. apply rsum_ext. intros i Hi. rewrite ins_length in Hq.
    destruct (sr_partial _ _ SR (g t0) q (nth q (im_ins m) (Auto 0))) as (j & E & _); [now apply nth_error_nth'|].
    now rewrite E.
  - revert NS. apply near_weaken. intros t OS. split.
    + intros z Hz. now apply entry_continuous.
    + apply solution_root; [assumption|now apply (sr_value _ _ SR)|assumption].
  - exact NA.
  - exact NB.
  - exact DN.
  - intros s. set (y0 := value_of c (g t0)) in *.
    set (Y := fun t : R => fun j : nat => (y0 j + (if Nat.eqb j o then s else 0) * (t - t0))%R).
    set (w := fun j : nat => if Nat.eqb j o then s else 0%R).
    assert (Y0 : Y t0 = y0).
    { apply functional_extensionality. intros j. unfold Y. ring. }
    set (T := rates_of inn (with_out m (g t0) (Y t0)) (with_out m d w)).
    assert (IR : inner_rates inn (with_out m (g t0) (Y t0)) (with_out m d w) T) by (apply rates_of_solves; exact model_ok).
    assert (DR : derivable_pt_lim (fun t => residual m (g t) (Y t) o) t0 (T (im_res m) o)).
    { refine (model_moves g Y t0 d w T (im_res m) o M' _ _ IR (out_res o Ho)).
      - intros j _. unfold Y, w. apply derivable_pt_lim_eq with (l := (0 + (if Nat.eqb j o then s else 0) * (1 - 0))%R); [ring|].
        apply (derivable_pt_lim_plus (fun _ => y0 j) (fun t => (if Nat.eqb j o then s else 0) * (t - t0))%R); [apply derivable_pt_lim_const|].
        apply (derivable_pt_lim_scal (fun t => t - t0)%R).
        apply (derivable_pt_lim_minus (fun t => t) (fun _ => t0)); [apply derivable_pt_lim_id|apply derivable_pt_lim_const].
      - rewrite Y0. apply (proj2 (proj2 O0)). apply S0. }
    assert (ET : T (im_res m) o = (P + D * s)%R).
    { rewrite Y0 in IR. rewrite (model_columns _ _ _ _ _ tot (im_res m) o IR TT (out_res o Ho)). f_equal.
      rewrite (rsum_single (out_size m) _ o Ho).
      - unfold w. now rewrite Nat.eqb_refl.
      - intros k Hk NE. unfold w. apply Nat.eqb_neq in NE. rewrite NE. ring. }
    rewrite <- ET. apply derivable_near with (2 := DR). revert NS. apply near_weaken. intros t (EL & _).
    apply EL; [assumption|]. unfold Y. rewrite Nat.eqb_refl. reflexivity.
Qed.

(** entry [o] of the residual does not move with another entry of the output *)
Lemma other_entry v y tot i o : one_solution m v -> bracketed m y ->
  (forall q i, entry_rates m v y q i (tot q i)) -> i < out_size m -> o < out_size m -> o <> i ->
  tot len i (im_res m) o = 0%R.
Proof.
  intros OS BY TT Hi Ho NE. destruct OS as (EL & _ & CH).
  set (Y := fun t : R => fun j : nat => (y j + (if Nat.eqb j i then t else 0))%R).
  assert (Y0 : Y 0%R = y).
  { apply functional_extensionality. intros j. unfold Y. destruct (Nat.eqb j i); ring. }
  set (w := fun j : nat => if Nat.eqb j i then 1%R else 0%R).
  assert (IR : inner_rates inn (with_out m v (Y 0%R)) (with_out m (fun _ _ => 0%R) w)
    (rates_of inn (with_out m v (Y 0%R)) (with_out m (fun _ _ => 0%R) w))) by (apply rates_of_solves; exact model_ok).
  assert (D : derivable_pt_lim (fun t => residual m v (Y t) o) 0%R
    (rates_of inn (with_out m v (Y 0%R)) (with_out m (fun _ _ => 0%R) w) (im_res m) o)).
  { refine (model_moves (fun _ => v) Y 0%R (fun _ _ => 0%R) w _ (im_res m) o _ _ _ IR (out_res o Ho)).
    - intros q z j _ _. apply derivable_pt_lim_const.
    - intros j _. unfold Y, w. apply derivable_pt_lim_eq with (l := (0 + (if Nat.eqb j i then 1 else 0))%R); [ring|].
      apply (derivable_pt_lim_plus (fun _ => y j) (fun t => if Nat.eqb j i then t else 0%R)); [apply derivable_pt_lim_const|].
      destruct (Nat.eqb j i); [apply derivable_pt_lim_id|apply derivable_pt_lim_const].
    - rewrite Y0. now apply CH. }
  assert (D0 : derivable_pt_lim (fun t => residual m v (Y t) o) 0%R 0%R).
  { apply derivable_pt_lim_ext with (f := fun _ : R => residual m v y o); [|apply derivable_pt_lim_const].
    intros t. apply EL; [assumption|]. unfold Y. apply Nat.eqb_neq in NE. rewrite NE. ring. }
  assert (E := uniqueness_limite _ _ _ _ D D0).
  rewrite Y0 in IR, E. rewrite (model_columns _ _ _ _ _ tot (im_res m) o IR TT (out_res o Ho)) in E.
  rewrite <- E. unfold parts_rate.
  rewrite (rsum_zero len) by (intros q _; apply rsum_zero; intros; ring).
  rewrite (rsum_single (out_size m) _ i Hi).
  - unfold w. rewrite Nat.eqb_refl. ring.
  - intros k Hk NK. unfold w. apply Nat.eqb_neq in NK. rewrite NK. ring.
Qed.

(** the output moves by the partials of [c] exactly when the residual does not move *)
Lemma root_rates v d w T : regular_at m v ->
  inner_rates inn (with_out m v (value_of c v)) (with_out m d w) T ->
  forall o, o < out_size m -> (T (im_res m) o = 0%R <-> w o = applied c v d o).
Proof.
  intros [SN RG] IR o Ho.
  assert (O0 : one_solution m v).
  { destruct SN as (e & He & SN). apply SN. intros. now rewrite Rminus_diag_eq, Rabs_R0. }
  assert (S0 := sr_value _ _ SR _ O0). destruct (RG _ S0 o Ho) as (_ & _ & ND).
  destruct (entries_exist v (value_of c v)) as [tot TT].
  assert (DN := ND _ (TT len o)).
  rewrite (model_columns _ _ _ _ _ tot (im_res m) o IR TT (out_res o Ho)).
  rewrite (rsum_single (out_size m) _ o Ho).
  2:{ intros k Hk NK. rewrite (other_entry v (value_of c v) tot k o O0 (proj1 S0) TT Hk Ho); [ring|auto]. }
  rewrite (applied_root v d tot o TT Ho).
  set (P := parts_rate _ _ _ _ _ _). set (D := tot len o (im_res m) o) in *. split; intros H.
  - apply (Rmult_eq_reg_l D); [|exact DN]. replace (D * (- P / D))%R with (- P)%R by (field; exact DN). lra.
  - rewrite H. field. exact DN.
Qed.

(** the internal variables move with the inputs and the solution *)
Lemma root_internal (g : R -> nat -> values) t0 d w T x i : regular_at m (g t0) ->
  (forall q y j, nth_error (im_ins m) q = Some y -> j < extent y -> derivable_pt_lim (fun t => g t q j) t0 (d q j)) ->
  (forall j, j < out_size m -> derivable_pt_lim (fun t => value_of c (g t) j) t0 (w j)) ->
  inner_rates inn (with_out m (g t0) (value_of c (g t0))) (with_out m d w) T -> i < extent x ->
  derivable_pt_lim (fun t => inner_pass inn (with_out m (g t) (value_of c (g t))) x i) t0 (T x i).
Proof.
  intros [SN _] HG HY IR Hi.
  assert (O0 : one_solution m (g t0)).
  { destruct SN as (e & He & SN). apply SN. intros. now rewrite Rminus_diag_eq, Rabs_R0. }
  assert (S0 := sr_value _ _ SR _ O0).
  refine (model_moves g (fun t => value_of c (g t)) t0 d w T x i HG HY _ IR Hi).
  apply (proj2 (proj2 O0)). apply S0.
Qed.
End One.

(** there is such a component: the least upper bound of the zeros in the bracket *)
Section Pick.
Variables (f : R -> R) (a b : R).
Definition zeros (z : R) : Prop := z = Rmin a b \/ (between a b z /\ f z = 0%R).
Lemma zeros_bound : bound zeros.
Proof.
  exists (Rmax a b). intros z [->|[[_ H] _]]; [|assumption]. apply Rle_trans with a; [apply Rmin_l|apply Rmax_l].
Qed.
Lemma zeros_some : exists z, zeros z.
Proof. exists (Rmin a b). now left. Qed.
Definition pick : R := proj1_sig (completeness zeros zeros_bound zeros_some).
Lemma pick_root z : only_root f a b z -> pick = z.
Proof.
  intros (B & Z & U). unfold pick. destruct (completeness zeros zeros_bound zeros_some) as [p [UB LB]]. cbn [proj1_sig].
  apply Rle_antisym.
  - apply LB. intros z' [->|[B' Z']]; [apply B|]. rewrite (U z' B' Z'). apply Rle_refl.
  - apply UB. right. auto.
Qed.
End Pick.

Lemma root_exists m : implicit_ok m -> exists c, stands_for_root m c.
Proof.
  intros OK. set (inn := im_model m). set (len := length (im_ins m)). set (ins_shapes := map (in_shape inn) (im_ins m)).
  set (vals := fun ins : list (nd R) => fun q => dat (nth q ins (Nd [] (fun _ => 0%R)))).
  set (yv := fun v o => pick (fun z => residual m v (fun _ => z) o) (im_lo m o) (im_hi m o)).
  set (tot := fun v q i => rates_of inn (with_out m v (yv v)) (fun q' i' => if Nat.eqb q' q && Nat.eqb i' i then 1%R else 0%R)).
  set (o_size := out_size m).
  assert (W : forall v y, fed inn (with_out m (vals (inputs_of ins_shapes v)) y) = fed inn (with_out m v y)).
  { intros v y. apply fed_local. intros q Hq. unfold inn in Hq. rewrite (ik_given _ OK), app_length in Hq. cbn [length] in Hq.
    unfold with_out. destruct (Nat.eqb_spec q (length (im_ins m))) as [|NE]; [reflexivity|].
    assert (Hq' : q < length (im_ins m)) by lia.
    unfold vals, inputs_of. unfold ins_shapes at 2. rewrite map_length.
    rewrite (nth_indep _ _ (Nd (nth 0 ins_shapes []) (v 0))) by (now rewrite map_length, seq_length).
    rewrite (map_nth (fun p => Nd (nth p ins_shapes []) (v p))). cbn [dat]. now rewrite seq_nth. }
  assert (RW : forall v y i, residual m (vals (inputs_of ins_shapes v)) y i = residual m v y i).
  { intros v y i. unfold residual, inner_pass. fold inn. now rewrite W. }
  assert (YV : forall v, yv (vals (inputs_of ins_shapes v)) = yv v).
  { intros v. apply functional_extensionality. intros o. unfold yv. f_equal. apply functional_extensionality. intros z. apply RW. }
  exists (Comp ins_shapes (in_shape inn (im_out m))
    (fun ins => Some (Nd (in_shape inn (im_out m)) (yv (vals ins))))
    (fun ins q => let n := size (in_shape inn (nth q (im_ins m) (Auto 0))) in
       Some (Dense (Nd [o_size; n] (fun k => let o := k / n in (- tot (vals ins) q (k mod n) (im_res m) o / tot (vals ins) len o (im_res m) o)%R))))).
  assert (VO : forall v, value_of (Comp ins_shapes (in_shape inn (im_out m))
    (fun ins => Some (Nd (in_shape inn (im_out m)) (yv (vals ins))))
    (fun ins q => let n := size (in_shape inn (nth q (im_ins m) (Auto 0))) in
       Some (Dense (Nd [o_size; n] (fun k => let o := k / n in (- tot (vals ins) q (k mod n) (im_res m) o / tot (vals ins) len o (im_res m) o)%R))))) v = yv v).
  { intros v. apply functional_extensionality. intros o. unfold value_of. cbn [c_compute c_ins dat]. now rewrite YV. }
  constructor; cbn [c_ins c_out c_partials]; try reflexivity.
  - intros v OS. rewrite VO. destruct OS as (EL & ON & CH).
    assert (H : forall i, i < out_size m -> between (im_lo m i) (im_hi m i) (yv v i) /\ residual m v (fun _ => yv v i) i = 0%R).
    { intros i Hi. destruct (ON i Hi) as (z & RT). assert (E : yv v i = z) by (unfold yv; now apply pick_root).
      rewrite E. split; apply RT. }
    split.
    + intros i Hi. now apply H.
    + intros i Hi. rewrite <- (proj2 (H i Hi)). now apply EL.
  - intros v q x Ex. eexists. split; [reflexivity|]. rewrite (nth_error_nth _ _ _ Ex). intros i o Hi Ho. rewrite VO.
    assert (TT : forall q i, entry_rates m v (yv v) q i (tot (vals (inputs_of ins_shapes v)) q i)).
    { intros q' i'. unfold entry_rates. unfold tot. rewrite YV.
      assert (IR := rates_of_solves inn (ik_model _ OK) (with_out m (vals (inputs_of ins_shapes v)) (yv v))
        (fun q'0 i'0 => if Nat.eqb q'0 q' && Nat.eqb i'0 i' then 1%R else 0%R)).
      unfold inner_rates, inner_pass in IR |- *. fold inn. now rewrite W in IR. }
    exists (tot (vals (inputs_of ins_shapes v)) q i), (tot (vals (inputs_of ins_shapes v)) len o).
    split; [apply TT|]. split; [apply TT|]. cbn [jac_entry]. unfold dense_entry. cbn [dat]. fold inn in Hi.
    rewrite Nat.div_add_l by lia. rewrite Nat.div_small by assumption.
    rewrite Nat.add_comm, Nat.mod_add by lia. rewrite Nat.mod_small by assumption. now rewrite Nat.add_0_l || now rewrite Nat.add_0_r.
Qed.

(** ---- the model around ---- *)
Section Outer.
Variables (table asm part : nat -> component) (subs : nat -> list component).
Variables (sub_reads sub_writes : nat -> list name).
Variable shape_of : name -> list nat.
Variable st : api.
Variable added : list nat.
Variable kinds : nat -> subsystem.
Hypothesis DE : described sub_reads sub_writes st added.
Hypothesis SL : forall k, length (subs k) = length (sub_writes k).
Hypothesis SA : sizes_agree table asm part subs sub_reads sub_writes shape_of st.
Hypothesis GR : forall n k g, dep_on (adeps st) root n -> abuild st n = BSub k g ->
  subsystem_ok sub_reads sub_writes shape_of kinds subs k.
Local Notation reads := (comp_reads sub_reads st).
Local Notation writes := (comp_writes sub_writes st).
Local Notation extent x := (size (shape_of x)).
Local Notation pass := (SpecDeriv.pass table asm part subs sub_reads sub_writes st added).
Local Notation solves := (SpecDeriv.solves table asm part subs sub_reads sub_writes shape_of st).
Local Notation system_rates := (SpecImplicitModel.system_rates table asm part sub_reads sub_writes shape_of st kinds).
Local Notation regular fin := (forall n k g, dep_on (adeps st) root n -> abuild st n = BSub k g ->
  subsystem_regular kinds k (args (map fin (sub_reads k)))).

Lemma system_scheduled : scheduled sub_reads sub_writes st added.
Proof. now apply described_scheduled. Qed.
Local Notation SD := system_scheduled.

Lemma made_group n k g m : dep_on (adeps st) root n -> abuild st n = BSub k g -> kinds k = SGroup m ->
  inner_ok m /\ sub_reads k = in_inputs m /\ (forall x, In x (sub_reads k) -> in_shape m x = shape_of x) /\
  Forall2 (stands_for_output m) (sub_writes k) (subs k).
Proof. intros D EB EK. assert (H := GR n k g D EB). unfold subsystem_ok in H. now rewrite EK in H. Qed.
Lemma made_implicit n k g m : dep_on (adeps st) root n -> abuild st n = BSub k g -> kinds k = SImplicit m ->
  implicit_ok m /\ sub_reads k = im_ins m /\ sub_writes k = [im_out m] /\
  (forall x, In x (sub_reads k) -> in_shape (im_model m) x = shape_of x) /\
  exists c, subs k = [c] /\ stands_for_root m c.
Proof. intros D EB EK. assert (H := GR n k g D EB). unfold subsystem_ok in H. now rewrite EK in H. Qed.

Lemma sub_part n k g j x c : dep_on (adeps st) root n -> abuild st n = BSub k g ->
  nth_error (sub_writes k) j = Some x -> nth_error (subs k) j = Some c -> size (c_out c) = extent x.
Proof.
  intros D EB E1 E2. assert (F := SA n D ltac:(intros nm; congruence)).
  unfold comp_writes, comp_reads, parts_of in F. rewrite EB in F.
  now destruct (forall2_nth _ _ _ j x c F E1 E2) as [H1 H2].
Qed.

Lemma sub_value ind s n k g j x c : dep_on (adeps st) root n -> abuild st n = BSub k g ->
  nth_error (sub_writes k) j = Some x -> nth_error (subs k) j = Some c ->
  pass ind s x = value_of c (args (map (pass ind s) (sub_reads k))).
Proof.
  intros D EB E1 E2.
  assert (Hn : In n added) by (apply (sd_all _ _ _ _ SD); split; [assumption|unfold has_build; now rewrite EB]).
  assert (NI : ~ is_indep st n) by (intros [nm E]; congruence).
  assert (Q := pass_equation table asm part subs sub_reads sub_writes shape_of st
    (sd_inv _ _ _ _ SD) (sd_shape _ _ _ _ SD) (sd_wired _ _ _ _ SD) (sd_uses _ _ _ _ SD) (sd_def _ _ _ _ SD)
    (sd_names _ _ _ _ SD) SL added (sd_nodup _ _ _ _ SD) (sd_all _ _ _ _ SD) (sd_before _ _ _ _ SD) ind s n Hn NI).
  unfold comp_writes, comp_reads, parts_of in Q. rewrite EB in Q.
  assert (Q' : nth_error (map (pass ind s) (sub_writes k)) j =
     nth_error (map (fun c => computed c (map (pass ind s) (sub_reads k))) (subs k)) j) by now rewrite Q.
  rewrite !nth_error_map, E1, E2 in Q'. cbn in Q'. injection Q' as Q'. exact Q'.
Qed.

(** the output of an implicit component solves its equation at its inputs *)
Lemma system_solution ind s n k g m : dep_on (adeps st) root n -> abuild st n = BSub k g -> kinds k = SImplicit m ->
  one_solution m (args (map (pass ind s) (sub_reads k))) ->
  is_solution m (args (map (pass ind s) (sub_reads k))) (pass ind s (im_out m)).
Proof.
  intros D EB EK OS. destruct (made_implicit n k g m D EB EK) as (OK & RE & WE & SR & c & EC & ST).
  rewrite (sub_value ind s n k g 0 (im_out m) c D EB) by (now rewrite ?WE, ?EC). now apply (sr_value _ _ ST).
Qed.

(** the values at which implicit components are solved *)
Definition settled (fin : store values) : Prop := forall n k g m c, dep_on (adeps st) root n -> abuild st n = BSub k g ->
  kinds k = SImplicit m -> subs k = [c] -> fin (im_out m) = value_of c (args (map fin (sub_reads k))).

Lemma pass_settled ind s : settled (pass ind s).
Proof.
  intros n k g m c D EB EK EC. destruct (made_implicit n k g m D EB EK) as (OK & RE & WE & SR & _).
  apply (sub_value ind s n k g 0 (im_out m) c D EB); [now rewrite WE|now rewrite EC].
Qed.

Lemma system_rates_solves fin ds dind T Ti : settled fin -> regular fin ->
  system_rates fin ds dind T Ti -> solves fin ds dind T.
Proof.
  intros SF RG [A1 A2 A3 A4 A5]. constructor; auto.
  intros n j x c o D Wj Pj Ho. destruct (abuild st n) as [|f a|nm|e| |k g|x0] eqn:EB.
  all: try (apply (A3 n j x c o D); [intros; congruence|assumption| |assumption]; unfold parts_of in *; now rewrite EB in *).
  unfold comp_writes in Wj. unfold parts_of in Pj. unfold comp_reads. rewrite EB in *.
  assert (SZ := sub_part n k g j x c D EB Wj Pj). assert (RK := RG n k g D EB). unfold subsystem_regular in RK.
  destruct (kinds k) as [m|m] eqn:EK.
  - destruct (made_group n k g m D EB EK) as (OK & RE & SR & F2). destruct (A4 n k g m D EB EK) as [IR EQ].
    assert (Hx : In x (sub_writes k)) by (now apply nth_error_In in Wj).
    rewrite (EQ x o) by assumption. symmetry. assert (ST := forall2_nth _ _ _ j x c F2 Wj Pj).
    apply (applied_group (fun _ => m) k x); [exact ST|assumption|exact IR|].
    rewrite <- (sf_out _ _ _ ST). now rewrite SZ.
  - destruct (made_implicit n k g m D EB EK) as (OK & RE & WE & SR & c' & EC & ST). destruct (A5 n k g m D EB EK) as [IR Z].
    rewrite WE in Wj. rewrite EC in Pj. destruct j as [|[|j]]; [|discriminate|discriminate]. injection Wj as <-. injection Pj as <-.
    rewrite (SF n k g m c' D EB EK EC) in IR.
    rewrite (sr_out _ _ ST) in SZ. assert (Ho' : o < out_size m) by (unfold out_size; now rewrite SZ).
    apply (root_rates m OK c' ST _ _ _ _ RK IR o Ho'). now apply Z.
Qed.

Lemma solves_system_rates fin ds dind T : settled fin -> regular fin -> solves fin ds dind T -> exists Ti, system_rates fin ds dind T Ti.
Proof.
  intros SF RG [S1 S2 S3].
  exists (fun k => match kinds k with
    | SGroup m => rates_of m (args (map fin (sub_reads k))) (args (map T (sub_reads k)))
    | SImplicit m => rates_of (im_model m) (with_out m (args (map fin (sub_reads k))) (fin (im_out m)))
        (with_out m (args (map T (sub_reads k))) (T (im_out m))) end).
  constructor; auto.
  - intros n j x c o D NB Wj Pj Ho. apply (S3 n j x c o D Wj); [|assumption].
    unfold parts_of in *. destruct (abuild st n) as [|f a|nm|e| |k g|x0] eqn:EB; try assumption. exfalso. now apply (NB k g).
  - intros n k g m D EB EK. rewrite EK. destruct (made_group n k g m D EB EK) as (OK & RE & SR & F2).
    assert (IR := rates_of_solves m OK (args (map fin (sub_reads k))) (args (map T (sub_reads k)))).
    split; [exact IR|]. intros x o Hx Ho. destruct (forall2_pair _ _ _ x F2 Hx) as (j & c & E1 & E2 & ST).
    assert (Ho' := Ho). rewrite <- (sub_part n k g j x c D EB E1 E2), (sf_out _ _ _ ST) in Ho'.
    rewrite <- (applied_group (fun _ => m) k x c _ _ _ o ST OK IR Ho').
    assert (RN : reads n = sub_reads k) by (unfold comp_reads; now rewrite EB). rewrite <- RN.
    apply (S3 n j x c o D); [unfold comp_writes; now rewrite EB|unfold parts_of; now rewrite EB|assumption].
  - intros n k g m D EB EK. rewrite EK. destruct (made_implicit n k g m D EB EK) as (OK & RE & WE & SR & c & EC & ST).
    assert (IR := rates_of_solves (im_model m) (ik_model _ OK) (with_out m (args (map fin (sub_reads k))) (fin (im_out m)))
        (with_out m (args (map T (sub_reads k))) (T (im_out m)))).
    split; [exact IR|]. intros o Ho. assert (RK := RG n k g D EB). unfold subsystem_regular in RK. rewrite EK in RK.
    assert (E := SF n k g m c D EB EK EC). set (U := rates_of _ _ _) in *. clearbody U. rewrite E in IR.
    apply (root_rates m OK c ST _ _ _ _ RK IR o Ho).
    assert (RN : reads n = sub_reads k) by (unfold comp_reads; now rewrite EB). rewrite <- RN.
    apply (S3 n 0 (im_out m) c o D); [unfold comp_writes; now rewrite EB, WE|unfold parts_of; now rewrite EB, EC|].
    rewrite <- (sub_part n k g 0 (im_out m) c D EB) by (now rewrite ?WE, ?EC). now rewrite (sr_out _ _ ST).
Qed.

Lemma system_derivatives (s : R -> store values) ind t0 ds dind :
  let fin t := pass (ind t) (s t) in
  given_rates sub_writes shape_of st s ind t0 ds dind ->
  chained table asm part (fun _ => []) sub_reads shape_of st (fin t0) ->
  regular (fin t0) ->
  (exists T Ti, system_rates (fin t0) ds dind T Ti) /\
  forall T Ti, system_rates (fin t0) ds dind T Ti ->
    (forall x i, i < extent x -> derivable_pt_lim (fun t => fin t x i) t0 (T x i)) /\
    (forall n k g m x i, dep_on (adeps st) root n -> abuild st n = BSub k g -> kinds k = SGroup m -> i < size (in_shape m x) ->
       derivable_pt_lim (fun t => inner_pass m (args (map (fin t) (sub_reads k))) x i) t0 (Ti k x i)) /\
    (forall n k g m x i, dep_on (adeps st) root n -> abuild st n = BSub k g -> kinds k = SImplicit m ->
       i < size (in_shape (im_model m) x) ->
       derivable_pt_lim (fun t => inner_pass (im_model m) (with_out m (args (map (fin t) (sub_reads k))) (fin t (im_out m))) x i)
         t0 (Ti k x i)).
Proof.
  intros fin RT CH CI.
  assert (SF : settled (fin t0)) by apply pass_settled. split.
  - destruct (solves_system_rates (fin t0) ds dind _ SF CI (forward_solves table asm part subs sub_reads sub_writes shape_of st
      (sd_inv _ _ _ _ SD) (sd_shape _ _ _ _ SD) (sd_wired _ _ _ _ SD) (sd_uses _ _ _ _ SD) (sd_def _ _ _ _ SD)
      (sd_names _ _ _ _ SD) SL added (sd_nodup _ _ _ _ SD) (sd_all _ _ _ _ SD) (sd_before _ _ _ _ SD) (s t0) (ind t0) ds dind))
      as [Ti AR]. eexists. exists Ti. exact AR.
  - intros T Ti AR. assert (ST := system_rates_solves _ _ _ _ _ SF CI AR).
    assert (CH' : chained table asm part subs sub_reads shape_of st (fin t0)).
    { intros n c D Hc. destruct (abuild st n) as [|f a|nm|e| |k g|x0] eqn:EB.
      all: try (apply (CH n c D); unfold parts_of in *; now rewrite EB in *).
      assert (RN : reads n = sub_reads k) by (unfold comp_reads; now rewrite EB). rewrite RN.
      unfold parts_of in Hc. rewrite EB in Hc. assert (RK := CI n k g D EB). unfold subsystem_regular in RK.
      destruct (kinds k) as [m|m] eqn:EK.
      - destruct (made_group n k g m D EB EK) as (OK & RE & SR & F2).
        exists (inner_chained m). split; [|exact RK].
        destruct (forall2_right _ _ _ _ F2 Hc) as (x & _ & SO). exact (output_chain m OK x c SO).
      - destruct (made_implicit n k g m D EB EK) as (OK & RE & WE & SR & c' & EC & SO).
        exists (regular_at m). split; [|exact RK]. rewrite EC in Hc. destruct Hc as [<-|[]]. exact (root_chain m OK c' SO). }
    assert (DV := solution_is_derivative table asm part subs sub_reads sub_writes shape_of st
      (sd_inv _ _ _ _ SD) (sd_shape _ _ _ _ SD) (sd_wired _ _ _ _ SD) (sd_uses _ _ _ _ SD) (sd_def _ _ _ _ SD)
      (sd_names _ _ _ _ SD) SL added (sd_nodup _ _ _ _ SD) (sd_all _ _ _ _ SD) (sd_before _ _ _ _ SD) SA
      s ind t0 ds dind RT CH' T ST).
    split; [exact DV|]. split.
    + intros n k g m x i D EB EK Hi. destruct (made_group n k g m D EB EK) as (OK & RE & SR & F2).
      destruct (rs_group _ _ _ _ _ _ _ _ _ _ _ _ _ AR n k g m D EB EK) as [IR _].
      assert (RK := CI n k g D EB). unfold subsystem_regular in RK. rewrite EK in RK.
      apply (inner_derivative m OK (fun t => args (map (fin t) (sub_reads k))) t0 (args (map T (sub_reads k))));
        [|exact RK|exact IR|exact Hi].
      intros q y j Ey Hj. rewrite <- RE in Ey. rewrite SR in Hj by (now apply nth_error_In in Ey).
      apply derivable_pt_lim_ext with (f := fun t => fin t y j).
      * intros t. now rewrite args_map, Ey.
      * rewrite args_map, Ey. now apply DV.
    + intros n k g m x i D EB EK Hi. destruct (made_implicit n k g m D EB EK) as (OK & RE & WE & SR & c & EC & SO).
      destruct (rs_implicit _ _ _ _ _ _ _ _ _ _ _ _ _ AR n k g m D EB EK) as [IR _].
      assert (RK := CI n k g D EB). unfold subsystem_regular in RK. rewrite EK in RK.
      assert (FV : forall t, fin t (im_out m) = value_of c (args (map (fin t) (sub_reads k)))).
      { intros t. exact (pass_settled (ind t) (s t) n k g m c D EB EK EC). }
      apply derivable_pt_lim_ext with (f := fun t => inner_pass (im_model m)
        (with_out m (args (map (fin t) (sub_reads k))) (value_of c (args (map (fin t) (sub_reads k))))) x i).
      { intros t. now rewrite FV. }
      rewrite FV in IR.
      refine (root_internal m OK c SO (fun t => args (map (fin t) (sub_reads k))) t0 (args (map T (sub_reads k))) (T (im_out m)) _ x i RK _ _ IR Hi).
      * intros q y j Ey Hj. rewrite <- RE in Ey. rewrite SR in Hj by (now apply nth_error_In in Ey).
        apply derivable_pt_lim_ext with (f := fun t => fin t y j).
        -- intros t. now rewrite args_map, Ey.
        -- rewrite args_map, Ey. now apply DV.
      * intros j Hj. apply derivable_pt_lim_ext with (f := fun t => fin t (im_out m) j).
        -- intros t. now rewrite FV.
        -- apply DV. rewrite <- (sub_part n k g 0 (im_out m) c D EB) by (now rewrite ?WE, ?EC). now rewrite (sr_out _ _ SO).
Qed.
End Outer.
