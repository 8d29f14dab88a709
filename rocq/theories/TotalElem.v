(** The chain rule of operations that work entry by entry, and of those that
    only move entries. *)
From Coq Require Import Reals Lra Lia Arith List Bool ZArith.
From Coq Require Import FunctionalExtensionality.
From Verif Require Import PyBase RSum NdArray Component JacSpec JacOpen SpecNorm SpecExtremum SpecTotal TotalCalc
  CompElem SpecElem SpecReorder SpecIndex.
Import ListNotations.
Local Open Scope R_scope.

Lemma dat_get (y : nd R) o : (o < size (shp y))%nat -> dat y o = get y (unravel (shp y) o).
Proof. intros H. unfold get. now rewrite ravel_unravel. Qed.

(** One operand, entries related one by one. *)
Lemma chain_entries1 c s (P : R -> Prop) (rel : list nat -> R -> R -> Prop) :
  c_ins c = [s] -> c_out c = s -> open_set P ->
  (forall idx x y y', P x -> rel idx x y -> rel idx x y' -> y = y') ->
  correct_within (all_entries (size s) P) c (entries1 rel) ->
  ruled (all_entries (size s) P) c (entries1 rel).
Proof.
  intros Hin Hout OP FN CW. apply chain_rule_intro with (1 := CW).
  - rewrite Hin. apply stays_entries; cbn; auto.
  - intros v o D Ho. rewrite Hin, Hout in *.
    destruct CW as (_ & F & HF & HJ). rewrite Hin, Hout in *.
    set (G := fun t => value_of c (set_op v 0 (upd (v 0%nat) o t)) o).
    exists (fun u => G (u 0%nat o)). split.
    + destruct (HJ v 0%nat D) as (j & _ & J); [cbn; lia|]. cbn [nth] in J.
      assert (J' : derivable_pt_lim (fun t => F (set_op v 0 (upd (v 0%nat) o t)) o) (v 0%nat o)
                     (jac_entry (size s) j o o)).
      { destruct j as [k|k]; destruct J as [_ J]; exact (J o o Ho Ho). }
      apply smooth_comp with (f := fun u => u 0%nat o) (l := jac_entry (size s) j o o).
      * apply smooth_entry; cbn; auto.
      * destruct (OP _ (D o Ho)) as (e & He & HP).
        eapply derivable_pt_lim_ext_loc; [exact He| |exact J'].
        intros t Ht. cbn beta. unfold G, value_of.
        assert (D' : all_entries (size s) P (set_op v 0 (upd (v 0%nat) o t))).
        { intros k Hk. rewrite set_op_same. unfold upd. destruct (Nat.eqb_spec k o) as [->|]; auto. }
        destruct (HF _ D') as [E _]. rewrite Hin, E. reflexivity.
    + intros u y Du Hs M. unfold G, value_of.
      assert (D' : all_entries (size s) P (set_op v 0 (upd (v 0%nat) o (u 0%nat o)))).
      { intros k Hk. rewrite set_op_same. unfold upd. destruct (Nat.eqb_spec k o) as [->|]; auto. }
      destruct (HF _ D') as [E' M']. rewrite Hin, E'. cbn [dat].
      destruct M as (x & Ex & _ & M). destruct M' as (x' & Ex' & _ & M').
      cbn in Ex, Ex'. injection Ex as <-. injection Ex' as <-. rewrite Hs in M. cbn [shp] in M, M'.
      pose proof (unravel_inb s o Ho) as IB. specialize (M _ IB). specialize (M' _ IB).
      unfold get in M, M'. rewrite Hs in M. cbn [shp dat] in M, M'. rewrite ravel_unravel in M, M' by exact Ho.
      unfold set_op, upd in M'. cbn in M'. rewrite Nat.eqb_refl in M'. eapply FN; [|exact M|exact M']. now apply Du.
Qed.

(** Two operands, closed form. *)
Lemma chain_entries2 c s dom (rel : R -> R -> R -> Prop) (h : R -> R -> R) :
  c_ins c = [s; s] -> c_out c = s -> stays [s; s] dom ->
  (forall v o y, dom v -> (o < size s)%nat -> rel (v 0%nat o) (v 1%nat o) y -> y = h (v 0%nat o) (v 1%nat o)) ->
  (forall v o, dom v -> (o < size s)%nat -> smooth_at [s; s] (fun u => h (u 0%nat o) (u 1%nat o)) v) ->
  correct_within dom c (entries2 rel) ->
  ruled dom c (entries2 rel).
Proof.
  intros Hin Hout ST FN SM CW. apply chain_rule_intro with (1 := CW).
  - now rewrite Hin.
  - rewrite Hin, Hout. intros v o D Ho. exists (fun u => h (u 0%nat o) (u 1%nat o)). split; [now apply SM|].
    intros u y Du Hs (a & b & Eab & _ & _ & M). cbn in Eab. injection Eab as <- <-.
    rewrite Hs in M. pose proof (unravel_inb s o Ho) as IB. specialize (M _ IB).
    unfold get in M. rewrite Hs in M. cbn [shp dat] in M. rewrite ravel_unravel in M by exact Ho.
    exact (FN u o _ Du Ho M).
Qed.

(** Entries that are moved. *)
Lemma chain_moved c s meaning :
  c_ins c = [s] -> correct c meaning ->
  (forall o, (o < size (c_out c))%nat -> exists k, (k < size s)%nat /\
     forall u y, shp y = c_out c -> meaning [Nd s u] y -> dat y o = u k) ->
  ruled (fun _ => True) c meaning.
Proof.
  intros Hin C H. apply chain_rule_correct with (1 := C). rewrite Hin. intros v o Ho.
  destruct (H o Ho) as (k & Hk & K). exists (fun u => u 0%nat k). split.
  - apply smooth_entry; cbn; auto.
  - intros u y Hs M. now apply (K (u 0%nat)).
Qed.

Lemma reshape_moves s out o : (o < size out)%nat -> size s = size out ->
  forall u y, shp y = out -> reshape_meaning [Nd s u] y -> dat y o = u o.
Proof.
  intros Ho Hsz u y Hs (x & Ex & M). injection Ex as <-.
  rewrite dat_get by (now rewrite Hs). rewrite Hs.
  rewrite (M (unravel s o) (unravel out o)).
  - unfold get. cbn [shp dat]. rewrite ravel_unravel by lia. reflexivity.
  - apply unravel_inb. lia.
  - rewrite Hs. now apply unravel_inb.
  - cbn [shp]. rewrite Hs, !ravel_unravel by lia. reflexivity.
Qed.

Lemma transpose_moves s o : (o < size (rev s))%nat -> exists k, (k < size s)%nat /\
  forall u y, shp y = rev s -> transpose_meaning [Nd s u] y -> dat y o = u k.
Proof.
  intros Ho. pose proof (unravel_inb _ _ Ho) as IB. apply inb_rev in IB as IB'. rewrite rev_involutive in IB'.
  exists (ravel s (rev (unravel (rev s) o))). split; [now apply ravel_lt|].
  intros u y Hs (x & Ex & _ & M). injection Ex as <-. cbn [shp] in M. specialize (M _ IB').
  rewrite rev_involutive in M. rewrite dat_get by (now rewrite Hs). rewrite Hs, M. reflexivity.
Qed.

(** Some reading of the letters gives any index. *)
Lemma reads_index : forall outs idx, NoDup outs -> length outs = length idx ->
  exists e : nat -> nat, map e outs = idx.
Proof.
  induction outs as [|a outs IH]; intros [|i idx] ND L; cbn in *; try discriminate.
  - now exists (fun _ => 0%nat).
  - inversion ND; subst. destruct (IH idx H2) as (e & E); [lia|].
    exists (fun l => if Nat.eqb l a then i else e l). cbn. rewrite Nat.eqb_refl. f_equal.
    rewrite <- E. apply map_ext_in. intros l Hl. destruct (Nat.eqb_spec l a); [subst; contradiction|reflexivity].
Qed.

Lemma letters_moves s out ls outs o : NoDup outs -> length outs = length out ->
  (forall e, inb out (map e outs) -> inb s (map e ls)) ->
  (o < size out)%nat -> exists k, (k < size s)%nat /\
  forall u y, shp y = out -> letters_meaning ls outs [Nd s u] y -> dat y o = u k.
Proof.
  intros ND L IN Ho. pose proof (unravel_inb _ _ Ho) as IB.
  destruct (reads_index outs (unravel out o) ND) as (e & E); [rewrite unravel_length; exact L|].
  rewrite <- E in IB. apply IN in IB as IBs.
  exists (ravel s (map e ls)). split; [now apply ravel_lt|].
  intros u y Hs (x & Ex & M). injection Ex as <-. destruct (M e) as [_ M2]. specialize (M2 IBs).
  rewrite dat_get by (now rewrite Hs). rewrite Hs, <- E, M2. reflexivity.
Qed.

Lemma expand_moves s out ls outs o : NoDup outs -> length outs = length out ->
  (forall e, inb out (map e outs) -> inb s (map e ls)) ->
  (o < size out)%nat -> exists k, (k < size s)%nat /\
  forall u y, shp y = out -> expand_meaning ls outs [Nd s u] y -> dat y o = u k.
Proof.
  intros ND L IN Ho. pose proof (unravel_inb _ _ Ho) as IB.
  destruct (reads_index outs (unravel out o) ND) as (e & E); [rewrite unravel_length; exact L|].
  rewrite <- E in IB. apply IN in IB as IBs.
  exists (ravel s (map e ls)). split; [now apply ravel_lt|].
  intros u y Hs (x & Ex & M). injection Ex as <-.
  rewrite dat_get by (now rewrite Hs). rewrite Hs, <- E. destruct (M e) as [_ M2]; [now rewrite Hs|].
  rewrite M2. reflexivity.
Qed.

Lemma fill_moves out o : (o < size out)%nat -> 
  forall u y, shp y = out -> fill_meaning [Nd [1%nat] u] y -> dat y o = u 0%nat.
Proof.
  intros Ho u y Hs (x & Ex & M). injection Ex as <-.
  rewrite dat_get by (now rewrite Hs). rewrite M by (rewrite Hs; now apply unravel_inb). reflexivity.
Qed.

Lemma cancel a b c : c <> 0 -> a * c = b -> a = b / c.
Proof. intros Hc <-. now field. Qed.

Lemma cosh_pos x : exp x + exp (- x) <> 0.
Proof. pose proof (exp_pos x). pose proof (exp_pos (- x)). lra. Qed.

Lemma sinh_nonzero x : x <> 0 -> exp x - exp (- x) <> 0.
Proof.
  intros Hx E. assert (E' : exp x = exp (- x)) by lra. apply exp_inv in E'. lra.
Qed.

Lemma cos_nonzero_between y : - (PI / 2) < y < PI / 2 -> cos y <> 0.
Proof. intros H. pose proof (cos_gt_0 y (proj1 H) (proj2 H)). lra. Qed.

Lemma elem_functional e x y y' : elem_dom e x -> elem_rel e x y -> elem_rel e x y' -> y = y'.
Proof.
  destruct e; cbn [elem_dom elem_rel]; intros D H H'; try lra.
  - apply cancel in H; [|assumption]. apply cancel in H'; [|assumption]. congruence.
  - apply cancel in H; [|assumption]. apply cancel in H'; [|assumption]. congruence.
  - apply cancel in H; [|assumption]. apply cancel in H'; [|assumption]. congruence.
  - destruct D as [_ D]. apply cancel in H; [|assumption]. apply cancel in H'; [|assumption]. congruence.
  - pose proof (cosh_pos x) as N. apply cancel in H; [|assumption]. apply cancel in H'; [|assumption]. congruence.
  - pose proof (cosh_pos x) as N. apply cancel in H; [|assumption]. apply cancel in H'; [|assumption]. congruence.
  - pose proof (sinh_nonzero x D) as N. apply cancel in H; [|assumption]. apply cancel in H'; [|assumption]. congruence.
  - pose proof (sinh_nonzero x D) as N. apply cancel in H; [|assumption]. apply cancel in H'; [|assumption]. congruence.
  - destruct H as [B E], H' as [B' E']. apply sin_inj; try lra.
  - destruct H as [B E], H' as [B' E']. apply cos_inj; try lra.
  - destruct H as [B E], H' as [B' E'].
    pose proof (cos_nonzero_between y B) as N. pose proof (cos_nonzero_between y' B') as N'.
    apply tan_is_inj; try lra. unfold tan. rewrite E, E'. now field.
  - apply exp_inv. congruence.
  - assert (L : ln 10 <> 0) by (pose proof (ln_increasing 1 10 ltac:(lra) ltac:(lra)) as L; rewrite ln_1 in L; lra).
    assert (Q : y * ln 10 = y' * ln 10) by (apply exp_inv; congruence).
    now apply Rmult_eq_reg_r in Q.
Qed.

Lemma power_functional c x y y' : power_dom c x -> power_rel c x y -> power_rel c x y' -> y = y'.
Proof.
  intros D (H1 & H2 & H3) (H1' & H2' & H3'). destruct D as [D|[[D [z Ez]]|[n En]]].
  - now rewrite H3, H3'.
  - destruct (Z_le_gt_dec 0 z) as [L|L].
    + assert (E : c = INR (Z.to_nat z)) by (rewrite INR_IZR_INZ, Z2Nat.id; assumption).
      now rewrite (H1 _ E), (H1' _ E).
    + assert (E : c = - INR (Z.to_nat (- z))).
      { rewrite INR_IZR_INZ, Z2Nat.id by lia. rewrite opp_IZR. lra. }
      assert (N : x ^ Z.to_nat (- z) <> 0) by (now apply pow_nonzero).
      specialize (H2 _ E). specialize (H2' _ E).
      apply cancel in H2; [|assumption]. apply cancel in H2'; [|assumption]. congruence.
  - now rewrite (H1 _ En), (H1' _ En).
Qed.
