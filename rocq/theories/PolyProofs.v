(** Proofs about linear combinations of products of powers. *)
From Coq Require Import Reals Lra Lia Arith List Bool ZArith.
From Verif Require Import PyBase RSum NdArray Component JacSpec JacOpen CompReorder CompElem SpecElem
  ElemProofs ArithProofs CompPoly SpecPoly.
Import ListNotations.
Local Open Scope R_scope.

(** ---- names ---- *)

Lemma add_keys_spec : forall l acc, NoDup acc ->
  NoDup (add_keys acc l) /\ forall k, In k (add_keys acc l) <-> In k acc \/ In k l.
Proof.
  induction l as [|k l IH]; intros acc H; cbn [add_keys].
  - split; [assumption|]. intros; simpl; tauto.
  - destruct (existsb (Nat.eqb k) acc) eqn:E.
    + destruct (IH acc H) as [H1 H2]. split; [assumption|]. intros j. rewrite H2. simpl.
      apply existsb_exists in E. destruct E as (k' & Hk & E). apply Nat.eqb_eq in E. subst k'.
      split; [tauto|]. intros [?|[<-|?]]; tauto.
    + assert (N : ~ In k acc).
      { intros Hk. rewrite <- not_true_iff_false in E. apply E. apply existsb_exists. exists k.
        split; [assumption|apply Nat.eqb_refl]. }
      destruct (IH (acc ++ [k])) as [H1 H2].
      { apply NoDup_app_remove_r with (l' := []) || idtac. rewrite <- (rev_involutive (acc ++ [k])).
        apply NoDup_rev. rewrite rev_app_distr. cbn. constructor; [now rewrite <- in_rev|now apply NoDup_rev]. }
      split; [assumption|]. intros j. rewrite H2, in_app_iff. simpl. tauto.
Qed.

Lemma in_names_spec : forall terms, NoDup (in_names terms) /\
  forall k, In k (in_names terms) <-> exists t, In t terms /\ In k (map fst (snd t)).
Proof.
  intros terms. destruct (add_keys_spec (flat_map (fun t => map fst (snd t)) terms) [] (NoDup_nil _)) as [H1 H2].
  split; [assumption|]. intros k. unfold in_names. rewrite H2, in_flat_map. simpl. firstorder.
Qed.

Lemma power_of_has : forall t nm, NoDup (map fst (snd t)) ->
  has_power t nm (power_of (snd t) nm).
Proof.
  intros [c d] nm. unfold has_power. cbn [snd].
  induction d as [|[k p] d IH]; intros H; cbn [power_of map fst].
  - right. split; [intros []|reflexivity].
  - inversion H as [|? ? H1 H2]; subst. destruct (Nat.eqb_spec k nm) as [->|Hne].
    + left. now left.
    + destruct (IH H2) as [?|[? ?]]; [left; now right|right]. split; [|assumption].
      intros [?|?]; contradiction.
Qed.

Lemma has_power_of : forall t nm p, NoDup (map fst (snd t)) ->
  has_power t nm p -> power_of (snd t) nm = p.
Proof.
  intros [c d] nm p. unfold has_power. cbn [snd].
  induction d as [|[k q] d IH]; intros H HP; cbn [power_of map fst] in *.
  - destruct HP as [[]|[_ ->]]. reflexivity.
  - inversion H as [|? ? H1 H2]; subst. destruct (Nat.eqb_spec k nm) as [->|Hne].
    + destruct HP as [[E|HP]|[HP _]].
      * now inversion E.
      * exfalso. apply H1. apply in_map_iff. now exists (nm, p).
      * exfalso. apply HP. now left.
    + apply IH; [assumption|]. destruct HP as [[E|HP]|[HP ->]].
      * inversion E; contradiction.
      * now left.
      * right. split; [|reflexivity]. intros HI. apply HP. now right.
Qed.

(** ---- products over the inputs ---- *)

Fixpoint gprod (x : nat -> R) (q : nat) (row : list expo) : R :=
  match row with
  | [] => 1
  | p :: r => np_pow (x q) p * gprod x (S q) r
  end.

Fixpoint gdiff (x : nat -> R) (me q : nat) (row : list expo) : R :=
  match row with
  | [] => 1
  | p :: r => (if Nat.eqb me q then expo_val p * np_pow (x q) (expo_pred p) else np_pow (x q) p)
              * gdiff x me (S q) r
  end.

Lemma gprod_ext : forall row q x x',
  (forall p, (q <= p < q + length row)%nat -> x p = x' p) -> gprod x q row = gprod x' q row.
Proof.
  induction row as [|p row IH]; intros q x x' H; cbn [gprod]; [reflexivity|].
  cbn [length] in H. rewrite (H q) by lia. f_equal. apply IH. intros; apply H; lia.
Qed.

Lemma gdiff_before : forall row q me x, (me < q)%nat -> gdiff x me q row = gprod x q row.
Proof.
  induction row as [|p row IH]; intros q me x H; cbn [gdiff gprod]; [reflexivity|].
  destruct (Nat.eqb_spec me q); [lia|]. rewrite IH by lia. reflexivity.
Qed.

Lemma gprod_deriv : forall row q me x,
  (q <= me < q + length row)%nat -> pow_dom (nth (me - q) row (EInt 0)) (x me) ->
  derivable_pt_lim (fun t => gprod (upd x me t) q row) (x me) (gdiff x me q row).
Proof.
  induction row as [|p row IH]; intros q me x H HD; cbn [length] in H; [lia|]. cbn [gprod gdiff].
  destruct (Nat.eqb_spec me q) as [->|Hne].
  - rewrite Nat.sub_diag in HD. cbn [nth] in HD. rewrite gdiff_before by lia.
    apply derivable_pt_lim_ext with (f := fun t => gprod x (S q) row * np_pow t p).
    { intros t. rewrite upd_same. rewrite Rmult_comm. f_equal. apply gprod_ext.
      intros j Hj. rewrite upd_other by lia. reflexivity. }
    eapply derivable_pt_lim_eq; [|apply derivable_pt_lim_scal, np_pow_deriv, HD]. ring.
  - apply derivable_pt_lim_ext with (f := fun t => np_pow (x q) p * gprod (upd x me t) (S q) row).
    { intros t. rewrite (upd_other x me q) by lia. reflexivity. }
    apply derivable_pt_lim_scal. apply IH; [lia|].
    replace (me - q)%nat with (S (me - S q)) in HD by lia. exact HD.
Qed.

Definition arrays (s : list nat) (v : nat -> nat -> R) (q n : nat) : list (nd R) :=
  map (fun p => Nd s (v p)) (seq q n).

Lemma inputs_arrays : forall s n v, inputs_of (repeat s n) v = arrays s v 0 n.
Proof.
  intros s n v. unfold inputs_of, arrays. rewrite repeat_length. apply map_ext_in.
  intros p Hp. apply in_seq in Hp. now rewrite nth_repeat_lt by lia.
Qed.

Lemma pprod_gprod : forall s v o row q,
  pprod o (combine (arrays s v q (length row)) row) = gprod (fun p => v p o) q row.
Proof.
  intros s v o. induction row as [|p row IH]; intros q; [reflexivity|].
  unfold arrays in *. cbn [length seq map combine pprod gprod dat]. now rewrite IH.
Qed.

Definition row_defined (s : list nat) (v : nat -> nat -> R) (q : nat) (row : list expo) : Prop :=
  forall j k, (j < length row)%nat -> (k < size s)%nat ->
    pow_defined (v (q + j)%nat k) (nth j row (EInt 0)) = true.

Lemma row_defined_cons : forall s v q p row, row_defined s v q (p :: row) ->
  (forall k, (k < size s)%nat -> pow_defined (v q k) p = true) /\ row_defined s v (S q) row.
Proof.
  intros s v q p row H. split.
  - intros k Hk. specialize (H 0%nat k). cbn [length nth] in H. rewrite Nat.add_0_r in H. apply H; [lia|assumption].
  - intros j k Hj Hk. specialize (H (S j) k). cbn [length nth] in H.
    replace (q + S j)%nat with (S q + j)%nat in H by lia. apply H; [lia|assumption].
Qed.

Lemma value_loop_defined : forall s v row q acc, shp acc = s -> row_defined s v q row ->
  exists y, value_loop acc (combine (arrays s v q (length row)) row) = Some y /\ shp y = s /\
    forall o, (o < size s)%nat -> dat y o = dat acc o * gprod (fun p => v p o) q row.
Proof.
  intros s v. induction row as [|p row IH]; intros q acc Ha HR.
  - exists acc. splits; auto. intros. cbn. lra.
  - apply row_defined_cons in HR. destruct HR as [Hd HR].
    unfold arrays in *. cbn [length seq map combine value_loop].
    rewrite np_power_ok by exact Hd.
    destruct (inplace_mul_same acc (np_map (fun t => np_pow t p) (Nd s (v q))) s Ha eq_refl) as (r & -> & Hs & Hr).
    destruct (IH (S q) r Hs HR) as (y & E & Hy & Hyd). exists y. splits; auto.
    intros o Ho. rewrite Hyd, Hr by assumption. cbn [np_map dat gprod]. ring.
Qed.

Lemma inplace_add_same : forall a b s, shp a = s -> shp b = s ->
  exists r, inplace_add a b = Some r /\ shp r = s /\
    forall k, (k < size s)%nat -> dat r k = dat a k + dat b k.
Proof.
  intros a b s Ha Hb. destruct (np_bcast2_same Rplus a b s Ha Hb) as (r & E & Hs & Hd).
  exists r. unfold inplace_add. rewrite E, Hs, Ha.
  destruct (list_eq_dec Nat.eq_dec s s); [|congruence]. auto.
Qed.

Fixpoint gsum (x : nat -> R) (rows : list (R * list expo)) : R :=
  match rows with
  | [] => 0
  | (c, row) :: rest => c * gprod x 0 row + gsum x rest
  end.

Lemma poly_sum_spec : forall s v n rows acc, shp acc = s ->
  (forall c row, In (c, row) rows -> length row = n /\ row_defined s v 0 row) ->
  exists y, poly_sum s acc rows (arrays s v 0 n) = Some y /\ shp y = s /\
    forall o, (o < size s)%nat -> dat y o = dat acc o + gsum (fun p => v p o) rows.
Proof.
  intros s v n. induction rows as [|[c row] rows IH]; intros acc Ha HR; cbn [poly_sum gsum].
  - exists acc. splits; auto. intros. lra.
  - destruct (HR c row (or_introl eq_refl)) as [Hl Hd]. subst n.
    destruct (value_loop_defined s v row 0 (Nd s (fun _ => c)) eq_refl Hd) as (t & -> & Ht & Htd).
    destruct (inplace_add_same acc t s Ha Ht) as (r & -> & Hr & Hrd).
    destruct (IH r Hr) as (y & E & Hy & Hyd).
    { intros c' row' Hin. apply (HR c'). now right. }
    exists y. splits; auto. intros o Ho. rewrite Hyd, Hrd, Htd by assumption. cbn [dat]. ring.
Qed.

(** ---- derivatives ---- *)

Definition row_smooth (s : list nat) (v : nat -> nat -> R) (q : nat) (row : list expo) : Prop :=
  forall j k, (j < length row)%nat -> (k < size s)%nat ->
    pow_dom (nth j row (EInt 0)) (v (q + j)%nat k).

Lemma row_smooth_cons : forall s v q p row, row_smooth s v q (p :: row) ->
  (forall k, (k < size s)%nat -> pow_dom p (v q k)) /\ row_smooth s v (S q) row.
Proof.
  intros s v q p row H. split.
  - intros k Hk. specialize (H 0%nat k). cbn [length nth] in H. rewrite Nat.add_0_r in H. apply H; [lia|assumption].
  - intros j k Hj Hk. specialize (H (S j) k). cbn [length nth] in H.
    replace (q + S j)%nat with (S q + j)%nat in H by lia. apply H; [lia|assumption].
Qed.

Lemma row_smooth_defined : forall s v q row, row_smooth s v q row -> row_defined s v q row.
Proof. intros s v q row H j k Hj Hk. now apply pow_dom_defined, H. Qed.

(** Once the running product is an array it keeps the shape. *)
Lemma factor_array : forall s v me row q d, shp d = s -> row_smooth s v q row ->
  exists y, poly_factor me q d (combine (arrays s v q (length row)) row) = Some y /\ shp y = s /\
    forall o, (o < size s)%nat -> dat y o = dat d o * gdiff (fun p => v p o) me q row.
Proof.
  intros s v me. induction row as [|p row IH]; intros q d Ha HR.
  - exists d. splits; auto. intros. cbn. lra.
  - apply row_smooth_cons in HR. destruct HR as [Hd HR].
    unfold arrays in *. cbn [length seq map combine poly_factor].
    set (a := if Nat.eqb me q then expo_val p else 1).
    set (b := if Nat.eqb me q then expo_pred p else p).
    rewrite np_power_ok.
    + destruct (np_bcast2_same Rmult d (np_map (fun t => a * t) (np_map (fun t => np_pow t b) (Nd s (v q)))) s Ha eq_refl)
        as (r & -> & Hs & Hr).
      destruct (IH (S q) r Hs HR) as (y & E & Hy & Hyd). exists y. splits; auto.
      intros o Ho. rewrite Hyd, Hr by assumption. cbn [np_map dat gdiff].
      unfold a, b. destruct (Nat.eqb me q); ring.
    + intros k Hk. cbn [shp dat] in *. destruct (pow_dom_defined p (v q k) (Hd k Hk)) as [H1 H2].
      unfold b. now destruct (Nat.eqb me q).
Qed.

Lemma factor_number : forall s v me row c, row <> [] -> row_smooth s v 0 row ->
  exists y, poly_factor me 0 (scalar c) (combine (arrays s v 0 (length row)) row) = Some y /\ shp y = s /\
    forall o, (o < size s)%nat -> dat y o = c * gdiff (fun p => v p o) me 0 row.
Proof.
  intros s v me [|p row] c Hne HR; [congruence|]. apply row_smooth_cons in HR. destruct HR as [Hd HR].
  pose proof (factor_array s v me row 1) as IH.
  unfold arrays in *. cbn [length seq map combine poly_factor].
  set (a := if Nat.eqb me 0 then expo_val p else 1).
  set (b := if Nat.eqb me 0 then expo_pred p else p).
  rewrite np_power_ok.
  - destruct (np_bcast2_scalar Rmult c (np_map (fun t => a * t) (np_map (fun t => np_pow t b) (Nd s (v 0%nat)))))
      as (r & -> & Hs & Hr). cbn [np_map shp] in Hs, Hr.
    destruct (IH r Hs HR) as (y & E & Hy & Hyd). exists y. splits; auto.
    intros o Ho. rewrite Hyd, Hr by assumption. cbn [np_map dat gdiff].
    unfold a, b. destruct (Nat.eqb me 0); ring.
  - intros k Hk. cbn [shp dat] in *. destruct (pow_dom_defined p (v 0%nat k) (Hd k Hk)) as [H1 H2].
    unfold b. now destruct (Nat.eqb me 0).
Qed.

Fixpoint gdsum (x : nat -> R) (me : nat) (rows : list (R * list expo)) : R :=
  match rows with
  | [] => 0
  | (c, row) :: rest => c * gdiff x me 0 row + gdsum x me rest
  end.

Lemma poly_deriv_spec : forall s v n me rows acc, shp acc = s -> (0 < n)%nat ->
  (forall c row, In (c, row) rows -> length row = n /\ row_smooth s v 0 row) ->
  exists y, poly_deriv me acc rows (arrays s v 0 n) = Some y /\ shp y = s /\
    forall o, (o < size s)%nat -> dat y o = dat acc o + gdsum (fun p => v p o) me rows.
Proof.
  intros s v n me. induction rows as [|[c row] rows IH]; intros acc Ha Hn HR; cbn [poly_deriv gdsum].
  - exists acc. splits; auto. intros. lra.
  - destruct (HR c row (or_introl eq_refl)) as [Hl Hd]. subst n.
    destruct (factor_number s v me row c) as (t & -> & Ht & Htd); [destruct row; [cbn in Hn; lia|congruence]|assumption|].
    destruct (inplace_add_same acc t s Ha Ht) as (r & -> & Hr & Hrd).
    destruct (IH r Hr Hn) as (y & E & Hy & Hyd).
    { intros c' row' Hin. apply (HR c'). now right. }
    exists y. splits; auto. intros o Ho. rewrite Hyd, Hrd, Htd by assumption. cbn [dat]. ring.
Qed.

Lemma gsum_deriv : forall rows n me x, (me < n)%nat ->
  (forall c row, In (c, row) rows -> length row = n /\ pow_dom (nth me row (EInt 0)) (x me)) ->
  derivable_pt_lim (fun t => gsum (upd x me t) rows) (x me) (gdsum x me rows).
Proof.
  induction rows as [|[c row] rows IH]; intros n me x Hme HR; cbn [gsum gdsum].
  - apply derivable_pt_lim_const.
  - destruct (HR c row (or_introl eq_refl)) as [Hl Hd].
    apply derivable_pt_lim_plus with (f1 := fun t => c * gprod (upd x me t) 0 row).
    + apply derivable_pt_lim_scal. apply gprod_deriv; [lia|]. now rewrite Nat.sub_0_r.
    + apply IH with n; [assumption|]. intros c' row' Hin. apply (HR c'). now right.
Qed.

(** ---- open domains ---- *)

Lemma open_dom_each : forall ss (n m : nat) (P : nat -> R -> Prop), (forall q, open_set (P q)) ->
  open_dom ss (fun v => forall q o, (q < n)%nat -> (o < m)%nat -> P q (v q o)).
Proof.
  intros ss n m P HP v p i Hv Hp Hi.
  destruct (le_lt_dec n p) as [Hle|Hlt].
  - exists 1. split; [lra|]. intros t _ q o Hq Ho. rewrite set_op_other by lia. auto.
  - destruct (le_lt_dec m i) as [Hle|Hlt'].
    + exists 1. split; [lra|]. intros t _ q o Hq Ho. unfold set_op.
      destruct (Nat.eqb_spec q p) as [->|]; [|auto]. rewrite upd_other by lia. auto.
    + destruct (HP p _ (Hv p i Hlt Hlt')) as (d & Hd & H). exists d. split; [assumption|].
      intros t Ht q o Hq Ho. unfold set_op. destruct (Nat.eqb_spec q p) as [->|]; [|auto].
      unfold upd. destruct (Nat.eqb_spec o i) as [->|]; auto.
Qed.

Lemma open_forall : forall (A : Type) (l : list A) (P : A -> R -> Prop),
  (forall a, open_set (P a)) -> open_set (fun x => forall a, In a l -> P a x).
Proof.
  intros A l P HP x. induction l as [|a l IH]; intros H.
  - exists 1. split; [lra|]. intros t _ a [].
  - destruct IH as (d1 & Hd1 & K1); [intros b Hb; apply H; now right|].
    destruct (HP a x (H a (or_introl eq_refl))) as (d2 & Hd2 & K2).
    exists (Rmin d1 d2). split; [now apply Rmin_pos|]. intros t Ht b [<-|Hb].
    + apply K2. eapply Rlt_le_trans; [exact Ht|apply Rmin_r].
    + apply K1; [|assumption]. eapply Rlt_le_trans; [exact Ht|apply Rmin_l].
Qed.

(** ---- meaning ---- *)

(** The product over all inputs is the product over the entries of the dict. *)
Fixpoint nprod (F : nat -> R -> R) (d : list (nat * R)) (names : list nat) : R :=
  match names with
  | [] => 1
  | nm :: names' => F nm (power_of d nm) * nprod F d names'
  end.

Lemma nprod_absent : forall F d k p names, ~ In k names ->
  nprod F ((k, p) :: d) names = nprod F d names.
Proof.
  intros F d k p. induction names as [|nm names IH]; intros H; [reflexivity|]. cbn [nprod power_of].
  destruct (Nat.eqb_spec k nm) as [->|]; [exfalso; apply H; now left|].
  rewrite IH; [reflexivity|]. intros ?; apply H; now right.
Qed.

Lemma power_of_absent : forall d nm, ~ In nm (map fst d) -> power_of d nm = 0.
Proof.
  induction d as [|[k p] d IH]; intros nm H; [reflexivity|]. cbn [power_of].
  destruct (Nat.eqb_spec k nm) as [->|]; [exfalso; apply H; now left|].
  apply IH. intros ?; apply H; now right.
Qed.

Lemma nprod_present : forall F d k p names, (forall nm, F nm 0 = 1) ->
  NoDup names -> In k names -> ~ In k (map fst d) ->
  nprod F ((k, p) :: d) names = F k p * nprod F d names.
Proof.
  intros F d k p names F0. induction names as [|nm names IH]; intros HN Hin Hd; [destruct Hin|].
  inversion HN as [|? ? H1 H2]; subst. destruct (Nat.eq_dec k nm) as [->|Hne].
  - cbn [nprod power_of]. rewrite Nat.eqb_refl, nprod_absent by assumption.
    rewrite power_of_absent, F0 by assumption. ring.
  - destruct Hin as [?|Hin]; [congruence|]. cbn [nprod power_of].
    destruct (Nat.eqb_spec k nm); [contradiction|]. rewrite IH by assumption. ring.
Qed.

Lemma nprod_dict : forall F names, (forall nm, F nm 0 = 1) -> NoDup names ->
  forall d, NoDup (map fst d) -> (forall k, In k (map fst d) -> In k names) ->
  nprod F d names = product (map (fun e => F (fst e) (snd e)) d).
Proof.
  intros F names F0 HN. induction d as [|[k p] d IH]; intros Hd Hs.
  - unfold product. cbn [map fold_right]. clear HN Hs. induction names as [|nm names IHn]; [reflexivity|].
    cbn [nprod power_of]. rewrite F0, IHn. ring.
  - cbn [map fst] in Hd. inversion Hd as [|? ? H1 H2]; subst.
    rewrite nprod_present; auto; [|apply Hs; now left].
    unfold product in *. cbn [map fold_right fst snd]. rewrite IH; [reflexivity|assumption|].
    intros k' Hk'. apply Hs. now right.
Qed.

Lemma named_nth : forall names ins idx nm, NoDup names -> length ins = length names ->
  forall q, (q < length names)%nat -> nth q names 0%nat = nm ->
  named names ins idx nm = get (nth q ins (Nd [] (fun _ => 0))) idx.
Proof.
  induction names as [|n names IH]; intros ins idx nm HN HL q Hq E; [cbn in Hq; lia|].
  destruct ins as [|x ins]; [discriminate|]. cbn [named]. inversion HN as [|? ? H1 H2]; subst.
  destruct q as [|q]; cbn [nth].
  - now rewrite Nat.eqb_refl.
  - destruct (Nat.eqb_spec n (nth q names 0%nat)) as [E|_].
    + exfalso. apply H1. rewrite E. apply nth_In. cbn in Hq. lia.
    + cbn in HL, Hq. apply IH; auto; lia.
Qed.

Lemma gprod_nprod : forall (F : nat -> R -> R) x d names q0,
  (forall j, (j < length names)%nat -> forall p, F (nth j names 0%nat) p = np_pow (x (q0 + j)%nat) (expo_of p)) ->
  gprod x q0 (map (fun nm => expo_of (power_of d nm)) names) = nprod F d names.
Proof.
  intros F x d. induction names as [|nm names IH]; intros q0 H; [reflexivity|].
  cbn [map gprod nprod]. rewrite (IH (S q0)).
  - specialize (H 0%nat). cbn [length nth] in H. rewrite (H ltac:(lia)), Nat.add_0_r. reflexivity.
  - intros j Hj p. specialize (H (S j)). cbn [length nth] in H.
    rewrite H by lia. f_equal. f_equal. lia.
Qed.

Lemma np_pow_zero : forall x, np_pow x (expo_of 0) = 1.
Proof. intros x. rewrite (expo_of_int 0). reflexivity. Qed.

Lemma arrays_nth : forall s v n q d, (q < n)%nat -> nth q (arrays s v 0 n) d = Nd s (v q).
Proof.
  intros s v n q d H. unfold arrays. rewrite nth_indep with (d' := Nd s (v 0%nat))
    by now rewrite map_length, seq_length.
  rewrite (map_nth (fun p => Nd s (v p))). now rewrite seq_nth.
Qed.

(** Where every factor that occurs has its meaning, the sum has. *)
Lemma poly_meaning_intro : forall s terms k (kf : nat -> R) v y,
  dicts terms -> shp y = s ->
  (forall idx, inb s idx -> kf (ravel s idx) = k idx) ->
  (forall q o t p, (q < length (in_names terms))%nat -> (o < size s)%nat -> In t terms ->
     In (nth q (in_names terms) 0%nat, p) (snd t) -> power_rel p (v q o) (np_pow (v q o) (expo_of p))) ->
  (forall o, (o < size s)%nat -> dat y o = kf o + gsum (fun p => v p o) (map (powers_row (in_names terms)) terms)) ->
  poly_meaning s (in_names terms) k terms (arrays s v 0 (length (in_names terms))) y.
Proof.
  intros s terms k kf v y HD Hs Hk HP Hy. set (names := in_names terms) in *.
  destruct (in_names_spec terms) as [HN HI]. fold names in HN, HI.
  assert (HL : length (arrays s v 0 (length names)) = length names)
    by (unfold arrays; now rewrite map_length, seq_length).
  unfold poly_meaning. splits; auto.
  - apply Forall_forall. intros x Hx. unfold arrays in Hx. apply in_map_iff in Hx.
    destruct Hx as (p & <- & _). reflexivity.
  - intros idx Hi. set (o := ravel s idx). assert (Ho : (o < size s)%nat) by now apply ravel_lt.
    assert (Hval : forall q, (q < length names)%nat ->
              named names (arrays s v 0 (length names)) idx (nth q names 0%nat) = v q o).
    { intros q Hq. rewrite named_nth with (q := q) by auto.
      rewrite arrays_nth by assumption. reflexivity. }
    set (val := named names (arrays s v 0 (length names)) idx) in *.
    unfold get. rewrite Hs. fold o. rewrite Hy by assumption. unfold o at 1. rewrite Hk by assumption.
    unfold poly_rel.
    exists (map (fun t => fst t * product (map (fun e => np_pow (val (fst e)) (expo_of (snd e))) (snd t))) terms).
    assert (Hsub : forall t, In t terms -> forall e, In e (snd t) -> exists q, (q < length names)%nat /\ nth q names 0%nat = fst e).
    { intros t Ht e He. apply In_nth. apply HI. exists t. split; [assumption|]. now apply in_map. }
    split.
    + assert (G : forall l, (forall t, In t l -> In t terms) -> Forall2 (term_rel val) l
        (map (fun t => fst t * product (map (fun e => np_pow (val (fst e)) (expo_of (snd e))) (snd t))) l)).
      { induction l as [|t l IH]; intros H; cbn [map]; constructor; [|apply IH; intros; apply H; now right].
        exists (map (fun e => np_pow (val (fst e)) (expo_of (snd e))) (snd t)). split; [|reflexivity].
        assert (Ht : In t terms) by (apply H; now left).
        assert (G' : forall d, (forall e, In e d -> In e (snd t)) ->
          Forall2 (fun e f => power_rel (snd e) (val (fst e)) f) d (map (fun e => np_pow (val (fst e)) (expo_of (snd e))) d)).
        { induction d as [|e d IHd]; intros Hd; cbn [map]; constructor; [|apply IHd; intros; apply Hd; now right].
          assert (He : In e (snd t)) by (apply Hd; now left).
          destruct (Hsub t Ht e He) as (q & Hq & E). rewrite <- E. rewrite Hval by assumption.
          apply HP with t; auto. rewrite E. destruct e; exact He. }
        apply G'. auto. }
      apply G. auto.
    + f_equal. clear Hy HP. assert (G : forall l, (forall t, In t l -> In t terms) ->
        gsum (fun p => v p o) (map (powers_row names) l) =
        total (map (fun t => fst t * product (map (fun e => np_pow (val (fst e)) (expo_of (snd e))) (snd t))) l)).
      { induction l as [|t l IH]; intros H; [reflexivity|]. unfold powers_row in *. cbn [map gsum]. unfold total in *.
        cbn [fold_right]. rewrite IH by (intros; apply H; now right). f_equal. f_equal.
        assert (Ht : In t terms) by (apply H; now left).
        rewrite gprod_nprod with (F := fun nm p => np_pow (val nm) (expo_of p)).
        - apply nprod_dict.
          + intros nm. apply np_pow_zero.
          + assumption.
          + unfold dicts in HD. rewrite Forall_forall in HD. now apply HD.
          + intros nm Hnm. apply HI. now exists t.
        - intros j Hj p. rewrite Hval by assumption. reflexivity. }
      apply G. auto.
Qed.

Lemma constant_assigned : forall s a k, constant_of s a k ->
  exists kf, assign_output s a = Some (Nd s kf) /\ forall idx, inb s idx -> kf (ravel s idx) = k idx.
Proof.
  intros s a k [(c & -> & Hc)|[Ha ->]].
  - destruct (assign_scalar s c) as (kf & E & H). exists kf. split; [exact E|].
    intros idx Hi. rewrite Hc. apply H. now apply ravel_lt.
  - exists (dat a). split; [now apply assign_array|]. intros idx Hi. unfold get. now rewrite Ha.
Qed.

Lemma pow_dom_of : forall k x, power_dom k x -> pow_dom (expo_of k) x.
Proof.
  intros k x Hx. destruct (expo_of_cases k) as [(z & -> & ->)|[Hz ->]]; cbn [pow_dom].
  - destruct Hx as [Hx|[[Hx _]|[m Hx]]]; [right; lra|now right|].
    left. rewrite INR_IZR_INZ in Hx. apply eq_IZR in Hx. lia.
  - destruct Hx as [Hx|[[_ [z Hx]]|[m Hx]]]; [exact Hx| |].
    + exfalso. now apply (Hz z).
    + exfalso. apply (Hz (Z.of_nat (S m))). now rewrite Hx, INR_IZR_INZ.
Qed.

(** The powers a term gives to one input are finitely many. *)
Definition powers_at (t : term) (nm : nat) : list R :=
  map snd (filter (fun e => Nat.eqb (fst e) nm) (snd t)) ++
  (if in_dec Nat.eq_dec nm (map fst (snd t)) then [] else [0]).

Lemma powers_at_spec : forall t nm p, has_power t nm p <-> In p (powers_at t nm).
Proof.
  intros t nm p. unfold has_power, powers_at. rewrite in_app_iff. split.
  - intros [H|[H ->]].
    + left. apply in_map_iff. exists (nm, p). split; [reflexivity|]. apply filter_In. split; [assumption|]. apply Nat.eqb_refl.
    + right. destruct (in_dec Nat.eq_dec nm (map fst (snd t))); [contradiction|now left].
  - intros [H|H].
    + left. apply in_map_iff in H. destruct H as ([k q] & E & H). apply filter_In in H. destruct H as [H E']. cbn in E, E'. apply Nat.eqb_eq in E'. now subst.
    + right. destruct (in_dec Nat.eq_dec nm (map fst (snd t))); [destruct H|].
      destruct H as [<-|[]]. auto.
Qed.

Lemma smooth_open : forall s names terms, open_dom (repeat s (length names)) (smooth s names terms).
Proof.
  intros s names terms.
  pose proof (open_dom_each (repeat s (length names)) (length names) (size s)
    (fun q x => forall t, In t terms -> forall p, In p (powers_at t (nth q names 0%nat)) -> power_dom p x)) as H.
  intros v p i Hv Hp Hi. destruct (H) with (v := v) (p := p) (i := i) as (d & Hd & K); auto.
  - intros q. apply open_forall. intros t. apply open_forall. intros k. apply power_dom_open.
  - intros q o Hq Ho t Ht k Hk. apply powers_at_spec in Hk. now apply (Hv q o t k).
  - exists d. split; [assumption|]. intros t Ht q o t' k Hq Ho Ht' Hk.
    apply (K t Ht q o Hq Ho t' Ht'). now apply powers_at_spec.
Qed.

Lemma row_of : forall terms names c row, In (c, row) (map (powers_row names) terms) ->
  exists t, In t terms /\ c = fst t /\ row = map (fun nm => expo_of (power_of (snd t) nm)) names.
Proof.
  intros terms names c row H. apply in_map_iff in H. destruct H as (t & E & Ht).
  unfold powers_row in E. inversion E. exists t. auto.
Qed.

Lemma nth_row : forall d names j, (j < length names)%nat ->
  nth j (map (fun nm => expo_of (power_of d nm)) names) (EInt 0) = expo_of (power_of d (nth j names 0%nat)).
Proof.
  intros d names j H. rewrite nth_indep with (d' := (fun nm => expo_of (power_of d nm)) 0%nat)
    by now rewrite map_length.
  now rewrite (map_nth (fun nm => expo_of (power_of d nm))).
Qed.

Theorem poly_correct : forall s terms a k, terms <> [] -> dicts terms -> constant_of s a k ->
  exists names c, poly_comp s terms a = Some (names, c) /\
    NoDup names /\ (forall nm, In nm names <-> exists t, In t terms /\ In nm (map fst (snd t))) /\
    c_ins c = repeat s (length names) /\ c_out c = s /\
    correct_within (smooth s names terms) c (poly_meaning s names k terms).
Proof.
  intros s terms a k Hne HD Hk. set (names := in_names terms).
  destruct (in_names_spec terms) as [HN HI]. fold names in HN, HI.
  exists names. unfold poly_comp. destruct terms as [|t0 terms']; [congruence|].
  set (terms := t0 :: terms') in *. eexists. split; [reflexivity|].
  splits; auto. fold names. destruct (constant_assigned s a k Hk) as (kf & Ek & Hkf).
  unfold dicts in HD. rewrite Forall_forall in HD.
  assert (HR : forall v, smooth s names terms v -> forall c row, In (c, row) (map (powers_row names) terms) ->
             length row = length names /\ row_smooth s v 0 row).
  { intros v Hv c row Hin. apply row_of in Hin. destruct Hin as (t & Ht & _ & ->).
    split; [now rewrite map_length|]. intros j o Hj Ho. rewrite map_length in Hj.
    rewrite nth_row by assumption. apply pow_dom_of. apply (Hv j o t); auto.
    apply power_of_has. now apply HD. }
  apply elementwise_correct with (s := s) (n := length names)
    (G := fun o x => kf o + gsum x (map (powers_row names) terms))
    (D := fun v p o => gdsum (fun q => v q o) p (map (powers_row names) terms));
    cbn [c_ins c_out c_compute c_partials].
  - reflexivity.
  - reflexivity.
  - apply smooth_open.
  - intros o x x' H. f_equal. assert (G : forall l, gsum x (map (powers_row names) l) = gsum x' (map (powers_row names) l)).
    { induction l as [|t l IH]; [reflexivity|]. unfold powers_row in *. cbn [map gsum]. rewrite IH. f_equal. f_equal.
      apply gprod_ext. intros p Hp. rewrite map_length in Hp. apply H. lia. }
    apply G.
  - intros v Hv. rewrite inputs_arrays, Ek.
    destruct (poly_sum_spec s v (length names) (map (powers_row names) terms) (Nd s kf) eq_refl) as (y & E & Hy & Hyd).
    { intros c row Hin. destruct (HR v Hv c row Hin). split; [assumption|now apply row_smooth_defined]. }
    exists y. splits; auto.
  - intros v y Hv Hs Hd. rewrite inputs_arrays. apply poly_meaning_intro with kf; auto.
    + unfold dicts. now rewrite Forall_forall.
    + intros q o t p Hq Ho Ht Hin. apply power_rel_ok. apply (Hv q o t); auto. now left.
  - intros v p Hv Hp. rewrite inputs_arrays.
    destruct (poly_deriv_spec s v (length names) p (map (powers_row names) terms) (Nd s (fun _ => 0)) eq_refl ltac:(lia) (HR v Hv))
      as (y & -> & Hy & Hyd).
    rewrite as_sparse_diag by (cbn [np_flatten shp]; now rewrite Hy).
    eexists. split; [reflexivity|]. cbn [nnz rows cols vals np_flatten dat]. splits; auto.
    intros o Ho. rewrite Hyd by assumption. cbn [dat]. ring.
  - intros v p o Hv Hp Ho.
    eapply derivable_pt_lim_eq with (l := 0 + gdsum (fun q => v q o) p (map (powers_row names) terms)); [lra|].
    apply derivable_pt_lim_plus with (f1 := fun _ => kf o); [apply derivable_pt_lim_const|].
    apply (gsum_deriv _ (length names) p (fun q => v q o)); [assumption|].
    intros c row Hin. destruct (HR v Hv c row Hin) as [Hl Hsm]. split; [assumption|].
    specialize (Hsm p o ltac:(lia) Ho). exact Hsm.
Qed.

(** ---- natural powers: the value needs no condition ---- *)

Lemma expo_of_nat : forall n, expo_of (INR n) = EInt (Z.of_nat n).
Proof. intros n. rewrite INR_IZR_INZ. apply expo_of_int. Qed.

Lemma power_rel_nat : forall n x, power_rel (INR n) x (np_pow x (expo_of (INR n))).
Proof.
  intros n x. destruct n as [|n].
  - change (INR 0) with 0. rewrite (expo_of_int 0). unfold power_rel. splits.
    + intros m H. destruct m as [|m]; [reflexivity|]. exfalso. pose proof (lt_0_INR (S m) ltac:(lia)). lra.
    + intros m H. destruct m as [|m]; [cbn; lra|]. exfalso. pose proof (lt_0_INR (S m) ltac:(lia)). lra.
    + intros _. rewrite Rmult_0_l, exp_0. reflexivity.
  - apply power_rel_ok. right. right. now exists n.
Qed.

Theorem poly_value : forall s terms a k names c, polynomial terms -> dicts terms -> constant_of s a k ->
  poly_comp s terms a = Some (names, c) ->
  forall v, exists y, c_compute c (inputs_of (c_ins c) v) = Some y /\
    poly_meaning s names k terms (inputs_of (c_ins c) v) y.
Proof.
  intros s terms a k names c HPoly HD Hk E v. unfold poly_comp in E.
  destruct terms as [|t0 terms']; [discriminate|]. set (terms := t0 :: terms') in *. inversion E; subst names c.
  clear E. cbn [c_ins c_compute]. rewrite inputs_arrays.
  destruct (constant_assigned s a k Hk) as (kf & -> & Hkf).
  destruct (poly_sum_spec s v (length (in_names terms)) (map (powers_row (in_names terms)) terms) (Nd s kf) eq_refl)
    as (y & E & Hy & Hyd).
  - intros c row Hin. apply row_of in Hin. destruct Hin as (t & Ht & _ & ->).
    split; [now rewrite map_length|]. intros j o Hj Ho. rewrite map_length in Hj.
    rewrite nth_row by assumption.
    assert (HN : exists n, power_of (snd t) (nth j (in_names terms) 0%nat) = INR n).
    { pose proof HD as HD'. unfold dicts in HD'. rewrite Forall_forall in HD'.
      destruct (power_of_has t (nth j (in_names terms) 0%nat) (HD' t Ht)) as [H|[_ H]].
      - apply (HPoly t _ _ Ht H).
      - exists 0%nat. exact H. }
    destruct HN as (n & ->). rewrite expo_of_nat. cbn [pow_defined].
    destruct (Z.ltb_spec (Z.of_nat n) 0); [lia|]. now rewrite andb_false_r.
  - exists y. split; [exact E|]. apply poly_meaning_intro with kf; auto.
    intros q o t p _ _ Ht Hin. destruct (HPoly t _ _ Ht Hin) as (n & ->). apply power_rel_nat.
Qed.

(** ---- an input with power zero ---- *)

Lemma np_power_undefined : forall x p o, (o < size (shp x))%nat -> pow_defined (dat x o) p = false ->
  np_power x p = None.
Proof.
  intros x p o Ho Hd. unfold np_power. destruct (np_all _ x) eqn:E; [|reflexivity].
  exfalso. unfold np_all in E. rewrite forallb_forall in E. specialize (E o).
  rewrite in_seq in E. rewrite E in Hd by lia. discriminate.
Qed.

Lemma poly_factor_none : forall s v me o row q d,
  (q <= me < q + length row)%nat -> (o < size s)%nat ->
  pow_defined (v me o) (expo_pred (nth (me - q) row (EInt 0))) = false ->
  poly_factor me q d (combine (arrays s v q (length row)) row) = None.
Proof.
  intros s v me o. induction row as [|p row IH]; intros q d H Ho Hu; cbn [length] in H; [lia|].
  unfold arrays in *. cbn [length seq map combine poly_factor].
  destruct (Nat.eqb_spec me q) as [->|Hne].
  - rewrite Nat.sub_diag in Hu. cbn [nth] in Hu. now rewrite (np_power_undefined _ _ o).
  - replace (me - q)%nat with (S (me - S q)) in Hu by lia. cbn [nth] in Hu.
    destruct (np_power _ p); [|reflexivity]. destruct (np_bcast2 _ _ _); [|reflexivity].
    apply IH; auto; lia.
Qed.

Lemma poly_deriv_none : forall s v me o n rows acc c row,
  In (c, row) rows -> length row = n -> (me < n)%nat -> (o < size s)%nat ->
  pow_defined (v me o) (expo_pred (nth me row (EInt 0))) = false ->
  (forall c' row', In (c', row') rows -> length row' = n) ->
  poly_deriv me acc rows (arrays s v 0 n) = None.
Proof.
  intros s v me o n. induction rows as [|[c0 row0] rows IH]; intros acc c row Hin Hl Hme Ho Hu HL; [destruct Hin|].
  cbn [poly_deriv]. destruct Hin as [E|Hin].
  - inversion E; subst. rewrite (poly_factor_none s v me o); auto; [lia|]. now rewrite Nat.sub_0_r.
  - destruct (poly_factor _ _ _ _); [|reflexivity]. destruct (inplace_add _ _); [|reflexivity].
    apply IH with c row; auto. intros c' row' H. apply (HL c'). now right.
Qed.

Theorem poly_power_zero : forall s terms a names c v q o t,
  dicts terms -> poly_comp s terms a = Some (names, c) ->
  (q < length names)%nat -> (o < size s)%nat -> In t terms -> has_power t (nth q names 0%nat) 0 ->
  v q o = 0 ->
  c_partials c (inputs_of (c_ins c) v) q = None.
Proof.
  intros s terms a names c v q o t HD E Hq Ho Ht Hp Hv. unfold poly_comp in E.
  destruct terms as [|t0 terms']; [discriminate|]. set (terms := t0 :: terms') in *. 
  match type of E with Some (?n, ?d) = _ => assert (H : n = names /\ d = c) by (split; congruence) end.
  destruct H; subst names c.
  clear E. cbn [c_ins c_partials]. rewrite inputs_arrays.
  rewrite (poly_deriv_none s v q o) with (c := fst t) (row := snd (powers_row (in_names terms) t)); auto.
  - apply in_map_iff. exists t. auto.
  - unfold powers_row. cbn [snd]. now rewrite map_length.
  - unfold powers_row. cbn [snd]. rewrite nth_row by assumption.
    rewrite (has_power_of t _ 0); auto.
    + rewrite (expo_of_int 0), Hv. cbn. unfold is_zero. destruct (Req_EM_T 0 0); [reflexivity|congruence].
    + unfold dicts in HD. rewrite Forall_forall in HD. now apply HD.
  - intros c' row' Hin. apply row_of in Hin. destruct Hin as (t' & _ & _ & ->). now rewrite map_length.
Qed.

(** ---- x + y ---- *)

Definition ex_xy : list term := [(1, [(0%nat, INR 1)]); (1, [(1%nat, INR 1)])].

Lemma ex_xy_dicts : dicts ex_xy.
Proof. repeat constructor; simpl; tauto. Qed.

Lemma ex_xy_polynomial : polynomial ex_xy.
Proof.
  intros t nm p [<-|[<-|[]]] [E|[]]; inversion E; now exists 1%nat.
Qed.

Theorem poly_sum_at_zero : exists names c,
  poly_comp [1%nat] ex_xy (Nd [] (fun _ => 0)) = Some (names, c) /\
  (forall v y, c_compute c (inputs_of (c_ins c) v) = Some y -> dat y 0%nat = v 0%nat 0%nat + v 1%nat 0%nat) /\
  (forall v, c_compute c (inputs_of (c_ins c) v) <> None) /\
  c_partials c (inputs_of (c_ins c) (fun _ _ => 0)) 0 = None /\
  c_partials c (inputs_of (c_ins c) (fun _ _ => 0)) 1 = None.
Proof.
  destruct (poly_comp [1%nat] ex_xy (Nd [] (fun _ => 0))) as [[names c]|] eqn:E; [|discriminate].
  exists names, c. split; [reflexivity|].
  pose proof (poly_value [1%nat] ex_xy (Nd [] (fun _ => 0)) (fun _ => 0) names c ex_xy_polynomial ex_xy_dicts) as HV.
  assert (Hn : names = [0%nat; 1%nat]) by (inversion E; reflexivity).
  assert (Hi : c_ins c = [[1%nat]; [1%nat]]) by (inversion E; reflexivity).
  assert (HK : constant_of [1%nat] (Nd [] (fun _ => 0)) (fun _ => 0)) by (left; now exists 0).
  splits.
  - intros v y Ey. destruct (HV HK E v) as (y' & Ey' & (Hs & _ & _ & HM)).
    rewrite Ey in Ey'. inversion Ey'; subst y'.
    specialize (HM [0%nat] ltac:(repeat constructor)). unfold get in HM. rewrite Hs in HM.
    destruct HM as (zs & HF & Hy). change (ravel [1%nat] [0%nat]) with 0%nat in Hy. rewrite Hy.
    unfold ex_xy in HF. inversion HF as [|? z1 ? zs' H1 HF']; subst. inversion HF' as [|? z2 ? zs'' H2 HF'']; subst.
    inversion HF''; subst. cbn [total fold_right].
    destruct H1 as (fs & HF1 & ->). destruct H2 as (gs & HF2 & ->). cbn [snd fst] in *.
    inversion HF1 as [|? f ? ? P1 N1]; subst. inversion N1; subst. inversion HF2 as [|? g ? ? P2 N2]; subst. inversion N2; subst.
    destruct P1 as [P1 _]. destruct P2 as [P2 _]. specialize (P1 1%nat eq_refl). specialize (P2 1%nat eq_refl).
    rewrite Hi in P1, P2. cbn in P1, P2. rewrite P1, P2. cbn [product fold_right]. unfold product, fold_right. ring.
  - intros v. destruct (HV HK E v) as (y & -> & _). discriminate.
  - apply (poly_power_zero [1%nat] ex_xy _ names c (fun _ _ => 0) 0 0 (1, [(1%nat, INR 1)]) ex_xy_dicts E); subst names;
      cbn; auto. right. split; [|reflexivity]. cbn. intros [?|[]]; discriminate.
  - apply (poly_power_zero [1%nat] ex_xy _ names c (fun _ _ => 0) 1 0 (1, [(0%nat, INR 1)]) ex_xy_dicts E); subst names;
      cbn; auto. right. split; [|reflexivity]. cbn. intros [?|[]]; discriminate.
Qed.

(** 3/2 * x * y**2 + 2 * z**-1 + 5 on two by two arrays, at any nonzero point. *)
Definition ex_terms : list term :=
  [(3 / 2, [(7%nat, IZR 1); (4%nat, IZR 2)]); (2, [(9%nat, IZR (-1))])].

Lemma ex_terms_dicts : dicts ex_terms.
Proof. repeat constructor; simpl; try tauto. intros [?|[]]; discriminate. Qed.

Lemma ex_terms_names : in_names ex_terms = [7; 4; 9]%nat.
Proof. reflexivity. Qed.

Lemma ex_terms_smooth : forall v, (forall q o, v q o <> 0) -> smooth [2; 2]%nat [7; 4; 9]%nat ex_terms v.
Proof.
  intros v Hv q o t p _ _ Ht Hp. right. left. split; [apply Hv|].
  destruct Hp as [Hp|[_ ->]]; [|now exists 0%Z].
  destruct Ht as [<-|[<-|[]]]; cbn in Hp; repeat destruct Hp as [Hp|Hp]; try contradiction;
    inversion Hp; eexists; reflexivity.
Qed.

Example ex_terms_correct : exists c,
  poly_comp [2; 2]%nat ex_terms (Nd [] (fun _ => 5)) = Some ([7; 4; 9]%nat, c) /\
  correct_within (smooth [2; 2]%nat [7; 4; 9]%nat ex_terms) c
    (poly_meaning [2; 2]%nat [7; 4; 9]%nat (fun _ => 5) ex_terms) /\
  smooth [2; 2]%nat [7; 4; 9]%nat ex_terms (fun q o => INR (S (q + o))).
Proof.
  destruct (poly_correct [2; 2]%nat ex_terms (Nd [] (fun _ => 5)) (fun _ => 5)) as (names & c & E & _ & _ & _ & _ & HC).
  - discriminate.
  - apply ex_terms_dicts.
  - left. now exists 5.
  - assert (Hn : names = [7; 4; 9]%nat) by (inversion E; reflexivity). subst names.
    exists c. splits; [exact E|exact HC|]. apply ex_terms_smooth. intros q o. apply not_0_INR. lia.
Qed.
