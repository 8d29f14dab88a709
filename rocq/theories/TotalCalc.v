(** Functions that are differentiable along every curve, and how they give the
    chain rule of a component whose partials are right. *)
From Coq Require Import Reals Lra Lia Arith List Bool.
From Coq Require Import FunctionalExtensionality.
From Verif Require Import PyBase RSum NdArray Component JacSpec JacOpen SpecNorm SpecExtremum SpecTotal.
Import ListNotations.
Local Open Scope R_scope.

Definition smooth_at (ss : list (list nat)) (f : (nat -> nat -> R) -> R) (v : nat -> nat -> R) : Prop :=
  exists l, forall g d t0, g t0 = v -> moves ss g t0 d ->
    derivable_pt_lim (fun t => f (g t)) t0 (along ss l d).

Section Rules.
Variable ss : list (list nat).
Local Notation along := (along ss).

Lemma along_plus l1 l2 d : along (fun q i => l1 q i + l2 q i) d = along l1 d + along l2 d.
Proof.
  unfold SpecTotal.along. rewrite <- rsum_plus. apply rsum_ext. intros q Hq.
  rewrite <- rsum_plus. apply rsum_ext. intros i Hi. ring.
Qed.

Lemma along_scal k l d : along (fun q i => k * l q i) d = k * along l d.
Proof.
  unfold SpecTotal.along. rewrite <- rsum_scal. apply rsum_ext. intros q Hq.
  rewrite <- rsum_scal. apply rsum_ext. intros i Hi. ring.
Qed.

Lemma along_zero d : along (fun _ _ => 0) d = 0.
Proof. unfold SpecTotal.along. apply rsum_zero. intros q Hq. apply rsum_zero. intros i Hi. ring. Qed.

Lemma along_unit p k d : (p < length ss)%nat -> (k < size (nth p ss []))%nat ->
  along (fun q i => if (q =? p)%nat && (i =? k)%nat then 1 else 0) d = d p k.
Proof.
  intros Hp Hk. unfold SpecTotal.along. rewrite (rsum_single _ _ p Hp).
  - rewrite (rsum_single _ _ k Hk).
    + rewrite !Nat.eqb_refl. cbn. ring.
    + intros i _ Hi. apply Nat.eqb_neq in Hi. rewrite Hi, andb_false_r. ring.
  - intros q _ Hq. apply Nat.eqb_neq in Hq. rewrite Hq. cbn. apply rsum_zero. intros. ring.
Qed.

Lemma along_unit_r p k l : (p < length ss)%nat -> (k < size (nth p ss []))%nat ->
  along l (fun q i => if (q =? p)%nat && (i =? k)%nat then 1 else 0) = l p k.
Proof.
  intros Hp Hk. rewrite <- (along_unit p k l Hp Hk). unfold SpecTotal.along.
  apply rsum_ext. intros q Hq. apply rsum_ext. intros i Hi. ring.
Qed.

Lemma along_ext l1 l2 d :
  (forall q i, (q < length ss)%nat -> (i < size (nth q ss []))%nat -> l1 q i = l2 q i) ->
  along l1 d = along l2 d.
Proof.
  intros H. unfold SpecTotal.along. apply rsum_ext. intros q Hq. apply rsum_ext. intros i Hi.
  now rewrite H.
Qed.

Variable v : nat -> nat -> R.
Local Notation smooth f := (smooth_at ss f v).

Lemma smooth_const c : smooth (fun _ => c).
Proof.
  exists (fun _ _ => 0). intros g d t0 _ _. rewrite along_zero. apply derivable_pt_lim_const.
Qed.

Lemma smooth_entry p k : (p < length ss)%nat -> (k < size (nth p ss []))%nat -> smooth (fun u => u p k).
Proof.
  intros Hp Hk. exists (fun q i => if (q =? p)%nat && (i =? k)%nat then 1 else 0).
  intros g d t0 _ M. rewrite along_unit by assumption. now apply M.
Qed.

Lemma smooth_plus f g : smooth f -> smooth g -> smooth (fun u => f u + g u).
Proof.
  intros [l1 H1] [l2 H2]. exists (fun q i => l1 q i + l2 q i). intros h d t0 E M.
  rewrite along_plus.
  apply derivable_pt_lim_plus with (f1 := fun t => f (h t)) (f2 := fun t => g (h t)); auto.
Qed.

Lemma smooth_scal k f : smooth f -> smooth (fun u => k * f u).
Proof.
  intros [l1 H1]. exists (fun q i => k * l1 q i). intros h d t0 E M.
  rewrite along_scal. apply derivable_pt_lim_scal with (f := fun t => f (h t)); auto.
Qed.

Lemma smooth_mult f g : smooth f -> smooth g -> smooth (fun u => f u * g u).
Proof.
  intros [l1 H1] [l2 H2]. exists (fun q i => g v * l1 q i + f v * l2 q i). intros h d t0 E M.
  rewrite along_plus, !along_scal.
  eapply derivable_pt_lim_eq;
    [|apply derivable_pt_lim_mult with (f1 := fun t => f (h t)) (f2 := fun t => g (h t));
      [apply H1; eassumption|apply H2; eassumption]].
  cbn beta. rewrite E. ring.
Qed.

Lemma smooth_comp f g l : smooth f -> derivable_pt_lim g (f v) l -> smooth (fun u => g (f u)).
Proof.
  intros [l1 H1] H2. exists (fun q i => l * l1 q i). intros h d t0 E M.
  rewrite along_scal.
  apply derivable_pt_lim_comp with (f1 := fun t => f (h t)) (f2 := g); [auto|]. now rewrite E.
Qed.

Lemma smooth_ext f g : (forall u, f u = g u) -> smooth f -> smooth g.
Proof.
  intros H [l K]. exists l. intros h d t0 E M.
  apply derivable_pt_lim_ext with (f := fun t => f (h t)); [intros t; apply H|auto].
Qed.

Lemma smooth_opp f : smooth f -> smooth (fun u => - f u).
Proof.
  intros H. apply smooth_ext with (f := fun u => -1 * f u); [intros; ring|]. now apply smooth_scal.
Qed.

Lemma smooth_minus f g : smooth f -> smooth g -> smooth (fun u => f u - g u).
Proof. intros H K. apply smooth_plus; [assumption|now apply smooth_opp]. Qed.

Lemma derivable_inv x : x <> 0 -> derivable_pt_lim Rinv x (- / (x * x)).
Proof.
  intros Hx.
  apply derivable_pt_lim_ext with (f := (fct_cte 1 / id)%F).
  - intros t. unfold div_fct, fct_cte, id, Rdiv. ring.
  - eapply derivable_pt_lim_eq; [|apply derivable_pt_lim_div].
    3: exact (derivable_pt_lim_id x). 2: exact (derivable_pt_lim_const 1 x). 2: exact Hx.
    unfold fct_cte, id, Rsqr. field. assumption.
Qed.

Lemma smooth_div f g : smooth f -> smooth g -> g v <> 0 -> smooth (fun u => f u / g u).
Proof.
  intros H K N. apply smooth_mult; [assumption|].
  apply smooth_comp with (l := - / (g v * g v)); [assumption|now apply derivable_inv].
Qed.

Lemma smooth_rsum n f : (forall k, (k < n)%nat -> smooth (fun u => f u k)) -> smooth (fun u => rsum n (f u)).
Proof.
  induction n as [|n IH]; intros H; cbn [rsum].
  - apply smooth_const.
  - apply smooth_plus; [apply IH; intros; apply H; lia|apply H; lia].
Qed.

Lemma smooth_if (b : bool) f g : smooth f -> smooth g -> smooth (fun u => if b then f u else g u).
Proof. now destruct b. Qed.

End Rules.

(** A curve with derivatives is continuous. *)
Lemma moves_continuous ss g t0 d : moves ss g t0 d ->
  forall q i, (q < length ss)%nat -> (i < size (nth q ss []))%nat -> continuity_pt (fun t => g t q i) t0.
Proof.
  intros M q i Hq Hi. apply derivable_continuous_pt. exists (d q i). now apply M.
Qed.

Lemma upd_id x i : upd x i (x i) = x.
Proof. extensionality j. unfold upd. destruct (Nat.eqb_spec j i); now subst. Qed.

Lemma set_op_id v p : set_op v p (v p) = v.
Proof. extensionality q. unfold set_op. destruct (Nat.eqb_spec q p); now subst. Qed.

(** The chain rule, and the meaning leaves no choice. *)
Definition ruled dom c meaning : Prop := chain_rule dom c /\ determined dom c meaning.

(** Differentiable along curves, with the declared partials right: the chain rule. *)
Lemma chain_rule_intro dom c meaning :
  correct_within dom c meaning -> stays (c_ins c) dom ->
  (forall v o, dom v -> (o < size (c_out c))%nat -> exists f,
     smooth_at (c_ins c) f v /\
     forall u y, dom u -> shp y = c_out c ->
       meaning (inputs_of (c_ins c) u) y -> dat y o = f u) ->
  ruled dom c meaning.
Proof.
  intros (_ & F & HF & HJ) ST SM. split.
  2: { intros u y y' o D H H' M M' Ho. destruct (SM u o D Ho) as (f & _ & E). now rewrite (E u y), (E u y'). }
  intros g d t0 M D.
  assert (HV : forall u o, dom u -> value_of c u o = F u o).
  { intros u o Hu. unfold value_of. destruct (HF u Hu) as [-> _]. reflexivity. }
  set (v := g t0) in *.
  assert (EX : exists js : nat -> jac, forall q, (q < length (c_ins c))%nat ->
     c_partials c (inputs_of (c_ins c) v) q = Some (js q)).
  { exists (fun q => match c_partials c (inputs_of (c_ins c) v) q with Some j => j | None => Dense (Nd [] (fun _ => 0)) end).
    intros q Hq. destruct (HJ v q D Hq) as (j & E & _). now rewrite E. }
  destruct EX as (js & Hjs). exists js. split; [exact Hjs|]. intros o Ho.
  destruct (SM v o D Ho) as (f & (l & Hl) & Hf).
  assert (FE : forall u, dom u -> value_of c u o = f u).
  { intros u Hu. unfold value_of. destruct (HF u Hu) as [E K]. rewrite E. now apply (Hf u (Nd (c_out c) (F u))). }
  assert (LJ : forall q i, (q < length (c_ins c))%nat -> (i < size (nth q (c_ins c) []))%nat ->
     l q i = jac_entry (size (nth q (c_ins c) [])) (js q) o i).
  { intros q i Hq Hi. destruct (HJ v q D Hq) as (j & E & J).
    assert (j = js q) as -> by (rewrite Hjs in E by assumption; congruence).
    assert (J' : derivable_pt_lim (fun t => F (set_op v q (upd (v q) i t)) o) (v q i)
                   (jac_entry (size (nth q (c_ins c) [])) (js q) o i)).
    { destruct (js q) as [k|k]; destruct J as [_ J]; exact (J o i Ho Hi). }
    set (h := fun t => set_op v q (upd (v q) i t)) in *.
    assert (Eh : h (v q i) = v) by (unfold h; now rewrite upd_id, set_op_id).
    assert (Mh : moves (c_ins c) h (v q i) (fun p k => if (p =? q)%nat && (k =? i)%nat then 1 else 0)).
    { intros p k Hp Hk. unfold h, set_op. destruct (Nat.eqb_spec p q) as [->|N]; cbn [andb].
      - apply partial_upd.
      - apply derivable_pt_lim_const. }
    pose proof (Hl h _ _ Eh Mh) as Dl. rewrite along_unit_r in Dl by assumption.
    destruct (ST h (v q i)) as (e & He & Hd).
    { rewrite Eh. exact D. }
    { eapply moves_continuous. exact Mh. }
    apply (uniqueness_limite (fun t => f (h t)) (v q i)); [exact Dl|].
    eapply derivable_pt_lim_ext_loc; [exact He| |exact J'].
    intros t Ht. cbn beta. change (F (h t) o = f (h t)). rewrite <- HV, FE; auto. }
  rewrite <- (along_ext _ l) by exact LJ.
  destruct (ST g t0 D) as (e & He & Hd); [eapply moves_continuous; exact M|].
  eapply derivable_pt_lim_ext_loc; [exact He| |apply (Hl g d t0 eq_refl M)].
  intros t Ht. symmetry. apply FE. auto.
Qed.

Lemma correct_is_within c meaning : correct c meaning -> correct_within (fun _ => True) c meaning.
Proof.
  intros (F & H1 & H2). split; [apply open_dom_true|]. exists F. split; [intros v _; apply H1|exact H2].
Qed.

Lemma stays_true ss : stays ss (fun _ => True).
Proof. intros g t0 _ _. exists 1. split; [lra|auto]. Qed.

(** The same for a component that is right everywhere. *)
Lemma chain_rule_correct c meaning :
  correct c meaning ->
  (forall v o, (o < size (c_out c))%nat -> exists f,
     smooth_at (c_ins c) f v /\
     forall u y, shp y = c_out c -> meaning (inputs_of (c_ins c) u) y -> dat y o = f u) ->
  ruled (fun _ => True) c meaning.
Proof.
  intros H SM. apply chain_rule_intro.
  - now apply correct_is_within.
  - apply stays_true.
  - intros v o _ Ho. destruct (SM v o Ho) as (f & H1 & H2). exists f. split; auto.
Qed.

(** Conditions on single entries stay true. *)
Lemma stays_entries ss p n (P : R -> Prop) : open_set P -> (p < length ss)%nat -> (n <= size (nth p ss []))%nat ->
  stays ss (fun v => forall o, (o < n)%nat -> P (v p o)).
Proof.
  intros HP Hp Hn g t0 D C. induction n as [|n IH].
  - exists 1. split; [lra|]. intros t _ o Ho. lia.
  - destruct IH as (e1 & He1 & H1); [lia|intros; apply D; lia|].
    destruct (HP _ (D n (Nat.lt_succ_diag_r n))) as (e & He & H).
    destruct (C p n Hp ltac:(lia) e He) as (e2 & He2 & H2).
    exists (Rmin e1 e2). split; [apply Rmin_pos; assumption|].
    intros t Ht o Ho. pose proof (Rmin_l e1 e2). pose proof (Rmin_r e1 e2).
    destruct (Nat.eq_dec o n) as [->|N]; [|apply H1; [lra|lia]].
    destruct (Req_dec t t0) as [->|Ne]; [apply D; lia|].
    apply H. unfold dist, R_dist, D_x, no_cond in H2. cbn in H2. unfold R_dist in H2.
    apply H2. split; [split; [exact I|auto]|lra].
Qed.

Lemma stays_and ss P Q : stays ss P -> stays ss Q -> stays ss (fun v => P v /\ Q v).
Proof.
  intros HP HQ g t0 [D1 D2] C. destruct (HP g t0 D1 C) as (e1 & He1 & H1).
  destruct (HQ g t0 D2 C) as (e2 & He2 & H2). exists (Rmin e1 e2). split; [apply Rmin_pos; assumption|].
  intros t Ht. pose proof (Rmin_l e1 e2). pose proof (Rmin_r e1 e2). split; [apply H1|apply H2]; lra.
Qed.
