(** The chain rule of sums, averages and products. *)
From Coq Require Import Reals Lra Lia Arith List Bool ZArith.
From Verif Require Import PyBase RSum NdArray Component JacSpec JacOpen SpecNorm SpecExtremum SpecTotal TotalCalc
  TotalElem SpecReduce SpecProduct SpecTensor SpecRot.
Import ListNotations.
Local Open Scope R_scope.

Lemma smooth_get ss v p s idx : (p < length ss)%nat -> nth p ss [] = s -> inb s idx ->
  smooth_at ss (fun u => get (Nd s (u p)) idx) v.
Proof.
  intros Hp <- IB. unfold get. cbn [shp dat]. apply smooth_entry; [assumption|now apply ravel_lt].
Qed.

Lemma operand_inputs ss u p : (p < length ss)%nat -> operand_at (inputs_of ss u) p = Nd (nth p ss []) (u p).
Proof. intros H. unfold operand_at. now apply inputs_of_nth. Qed.

Lemma get_one (y : nd R) : shp y = [1%nat] -> get y [0%nat] = dat y 0%nat.
Proof. intros E. unfold get. rewrite E. reflexivity. Qed.

Lemma size_one o : (o < size [1%nat])%nat -> o = 0%nat.
Proof. cbn. lia. Qed.

(** one output entry given by a closed form of all inputs *)
Lemma chain_closed c ss out meaning (f : nat -> (nat -> nat -> R) -> R) :
  c_ins c = ss -> c_out c = out -> correct c meaning ->
  (forall v o, (o < size out)%nat -> smooth_at ss (f o) v) ->
  (forall u y o, (o < size out)%nat -> shp y = out -> meaning (inputs_of ss u) y -> dat y o = f o u) ->
  ruled (fun _ => True) c meaning.
Proof.
  intros <- <- C S E. apply chain_rule_correct with (1 := C). intros v o Ho. exists (f o). split; auto.
Qed.

(** ---- sums and averages ---- *)
Lemma chain_sum_all c s : c_ins c = [s] -> c_out c = [1%nat] -> correct c sum_all_meaning ->
  ruled (fun _ => True) c sum_all_meaning.
Proof.
  intros Hi Ho C. apply (chain_closed c [s] [1%nat] _ (fun _ u => rsum (size s) (u 0%nat)) Hi Ho C).
  - intros v o _. apply smooth_rsum. intros k Hk. apply smooth_entry; cbn; auto.
  - intros u y o H Hs (x & Ex & _ & M). cbn in Ex. injection Ex as <-. apply size_one in H. subst o.
    now rewrite get_one in M.
Qed.

Lemma chain_average_all c s : c_ins c = [s] -> c_out c = [1%nat] -> correct c average_all_meaning ->
  ruled (fun _ => True) c average_all_meaning.
Proof.
  intros Hi Ho C.
  apply (chain_closed c [s] [1%nat] _ (fun _ u => rsum (size s) (u 0%nat) / INR (size s)) Hi Ho C).
  - intros v o _. apply smooth_mult; [|apply smooth_const].
    apply smooth_rsum. intros k Hk. apply smooth_entry; cbn; auto.
  - intros u y o H Hs (x & Ex & _ & M). cbn in Ex. injection Ex as <-. apply size_one in H. subst o.
    now rewrite get_one in M.
Qed.

Lemma smooth_operands s n v o : (o < size s)%nat ->
  smooth_at (repeat s n) (fun u => rsum n (fun p => u p o)) v.
Proof.
  intros Ho. apply smooth_rsum with (f := fun u p => u p o). intros p Hp. apply smooth_entry.
  - now rewrite repeat_length.
  - now rewrite nth_repeat_lt.
Qed.

Lemma operands_entries s n u idx : inb s idx ->
  rsum n (fun p => get (operand_at (inputs_of (repeat s n) u) p) idx) = rsum n (fun p => u p (ravel s idx)).
Proof.
  intros IB. apply rsum_ext. intros p Hp. rewrite operand_inputs by now rewrite repeat_length.
  rewrite nth_repeat_lt by assumption. reflexivity.
Qed.

Lemma chain_sum_elementwise c s n : c_ins c = repeat s n -> c_out c = s -> correct c sum_elementwise_meaning ->
  ruled (fun _ => True) c sum_elementwise_meaning.
Proof.
  intros Hi Ho C. apply (chain_closed c _ s _ (fun o u => rsum n (fun p => u p o)) Hi Ho C).
  - intros v o H. now apply smooth_operands.
  - intros u y o H Hs M. pose proof (unravel_inb _ _ H) as IB.
    rewrite dat_get by now rewrite Hs. rewrite Hs, M by now rewrite Hs.
    rewrite inputs_of_length, repeat_length, operands_entries by assumption.
    now rewrite ravel_unravel.
Qed.

Lemma chain_average_elementwise c s n : c_ins c = repeat s n -> c_out c = s ->
  correct c average_elementwise_meaning -> ruled (fun _ => True) c average_elementwise_meaning.
Proof.
  intros Hi Ho C. apply (chain_closed c _ s _ (fun o u => rsum n (fun p => u p o) / INR n) Hi Ho C).
  - intros v o H. apply smooth_mult; [now apply smooth_operands|apply smooth_const].
  - intros u y o H Hs M. pose proof (unravel_inb _ _ H) as IB.
    rewrite dat_get by now rewrite Hs. rewrite Hs, M by now rewrite Hs.
    rewrite inputs_of_length, repeat_length, operands_entries by assumption.
    now rewrite ravel_unravel.
Qed.

(** the sums over some axes of the [p]-th of several inputs of shape [s] *)
Definition part_sums (axes : list nat) (s : list nat) (n : nat) (idx : list nat) (u : nat -> nat -> R) : R :=
  rsum n (fun p => sum_over axes (Nd s (u p)) idx).

Lemma smooth_part_sums axes s n idx v : smooth_at (repeat s n) (part_sums axes s n idx) v.
Proof.
  unfold part_sums. apply smooth_rsum with (f := fun u p => sum_over axes (Nd s (u p)) idx).
  intros p Hp. unfold sum_over. cbn [shp dat].
  apply smooth_rsum with (f := fun u k => if belongs axes (Nd s (u p)) idx k then u p k else 0).
  intros k Hk. unfold belongs. cbn [shp].
  destruct (list_eq_dec Nat.eq_dec (drop_axes axes (unravel s k)) idx).
  - apply smooth_entry; [now rewrite repeat_length|now rewrite nth_repeat_lt].
  - apply smooth_const.
Qed.

Lemma operands_part_sums axes s n u idx :
  rsum n (fun p => sum_over axes (operand_at (inputs_of (repeat s n) u) p) idx) = part_sums axes s n idx u.
Proof.
  apply rsum_ext. intros p Hp. rewrite operand_inputs by now rewrite repeat_length.
  now rewrite nth_repeat_lt.
Qed.

Lemma chain_sum_axes c s n axes : c_ins c = repeat s n -> correct c (sum_axes_meaning axes) ->
  ruled (fun _ => True) c (sum_axes_meaning axes).
Proof.
  intros Hi C. apply (chain_closed c _ _ _ (fun o u => part_sums axes s n (unravel (c_out c) o) u) Hi eq_refl C).
  - intros v o H. apply smooth_part_sums.
  - intros u y o H Hs [_ M]. pose proof (unravel_inb _ _ H) as IB.
    rewrite dat_get by now rewrite Hs. rewrite Hs, M by now rewrite Hs.
    now rewrite inputs_of_length, repeat_length, operands_part_sums.
Qed.

Lemma chain_average_axes c s n axes : c_ins c = repeat s n -> correct c (average_axes_meaning axes) ->
  ruled (fun _ => True) c (average_axes_meaning axes).
Proof.
  intros Hi C.
  apply (chain_closed c _ _ _ (fun o u => part_sums axes s n (unravel (c_out c) o) u /
    rsum n (fun p => count_over axes (Nd s (fun _ => 0)) (unravel (c_out c) o))) Hi eq_refl C).
  - intros v o H. apply smooth_mult; [apply smooth_part_sums|apply smooth_const].
  - intros u y o H Hs [_ M]. pose proof (unravel_inb _ _ H) as IB.
    rewrite dat_get by now rewrite Hs. rewrite Hs, M by now rewrite Hs.
    rewrite inputs_of_length, repeat_length, operands_part_sums. f_equal.
    apply rsum_ext. intros p Hp. rewrite operand_inputs by now rewrite repeat_length.
    rewrite nth_repeat_lt by assumption. reflexivity.
Qed.

(** ---- products ---- *)
Lemma smooth_product ss v p q s0 s1 i j :
  (p < length ss)%nat -> nth p ss [] = s0 -> inb s0 i ->
  (q < length ss)%nat -> nth q ss [] = s1 -> inb s1 j ->
  smooth_at ss (fun u => get (Nd s0 (u p)) i * get (Nd s1 (u q)) j) v.
Proof. intros. apply smooth_mult; now apply smooth_get. Qed.

Lemma chain_matvec c m n : c_ins c = [[m; n]; [n]]%nat -> c_out c = [m] -> correct c (matvec_meaning m n) ->
  ruled (fun _ => True) c (matvec_meaning m n).
Proof.
  intros Hi Ho C. apply (chain_closed c _ _ _ (fun o u =>
    rsum n (fun j => get (Nd [m; n]%nat (u 0%nat)) [o; j] * get (Nd [n] (u 1%nat)) [j])) Hi Ho C).
  - intros v o H. cbn in H.
    apply smooth_rsum with (f := fun u j => get (Nd [m; n]%nat (u 0%nat)) [o; j] * get (Nd [n] (u 1%nat)) [j]).
    intros j Hj. apply smooth_product; cbn; auto. repeat split; lia.
  - intros u y o H Hs (A & x & E & _ & _ & _ & M). cbn in E. injection E as <- <-. cbn in H.
    rewrite dat_get by (rewrite Hs; cbn; lia). rewrite Hs. cbn [unravel size].
    replace (o / 1)%nat with o by (now rewrite Nat.div_1_r).
    rewrite M by lia. reflexivity.
Qed.

Lemma chain_matmat c m n p : c_ins c = [[m; n]; [n; p]]%nat -> c_out c = [m; p] -> correct c (matmat_meaning m n p) ->
  ruled (fun _ => True) c (matmat_meaning m n p).
Proof.
  intros Hi Ho C.
  apply (chain_closed c _ _ _ (fun o u =>
    rsum n (fun j => get (Nd [m; n]%nat (u 0%nat)) [o / p; j]%nat * get (Nd [n; p] (u 1%nat)) [j; o mod p]%nat)) Hi Ho C).
  - intros v o H. cbn in H. assert (p <> 0)%nat by nia.
    apply smooth_rsum with (f := fun u j => get (Nd [m; n]%nat (u 0%nat)) [o / p; j]%nat * get (Nd [n; p] (u 1%nat)) [j; o mod p]%nat).
    intros j Hj. apply smooth_product; cbn [length nth inb]; auto; repeat split; try lia.
    + apply Nat.div_lt_upper_bound; lia.
    + now apply Nat.mod_upper_bound.
  - intros u y o H Hs (A & x & E & _ & _ & M). cbn in E. injection E as <- <-. cbn in H.
    assert (p <> 0)%nat by nia.
    destruct M as [[_ M]|(_ & Q & _)]; [|congruence].
    assert (E1 : unravel [m; p] o = [o / p; o mod p]%nat).
    { cbn [unravel size]. now rewrite Nat.mul_1_r, Nat.div_1_r. }
    rewrite dat_get by (rewrite Hs; cbn; lia). rewrite Hs, E1.
    rewrite M; [reflexivity| |].
    + apply Nat.div_lt_upper_bound; lia.
    + now apply Nat.mod_upper_bound.
Qed.

Lemma chain_vector_inner c n : c_ins c = [[n]; [n]] -> c_out c = [1%nat] -> correct c (vector_inner_meaning n) ->
  ruled (fun _ => True) c (vector_inner_meaning n).
Proof.
  intros Hi Ho C. apply (chain_closed c _ _ _ (fun o u =>
    rsum n (fun j => get (Nd [n] (u 0%nat)) [j] * get (Nd [n] (u 1%nat)) [j])) Hi Ho C).
  - intros v o H.
    apply smooth_rsum with (f := fun u j => get (Nd [n] (u 0%nat)) [j] * get (Nd [n] (u 1%nat)) [j]).
    intros j Hj. apply smooth_product; cbn; auto.
  - intros u y o H Hs (a & b & E & _ & _ & _ & M). cbn in E. injection E as <- <-. apply size_one in H. subst o.
    now rewrite get_one in M.
Qed.

Lemma inb_with_axis a k q : forall s idx, (a <= length s)%nat -> inb s idx -> (q < k)%nat ->
  inb (with_axis a k s) (with_axis a q idx).
Proof.
  unfold with_axis. induction a as [|a IH]; intros s idx L IB Q.
  - cbn. auto.
  - destruct s as [|n s]; [cbn in L; lia|]. destruct idx as [|i idx]; [contradiction|].
    destruct IB as [H1 H2]. cbn [firstn skipn app inb]. split; [assumption|]. apply IH; auto. cbn in L. lia.
Qed.

Lemma with_axis_long a k s : (length s < a)%nat -> with_axis a k s = s ++ [k].
Proof. intros H. unfold with_axis. now rewrite firstn_all2, skipn_all2 by lia. Qed.

Lemma inb_with_axis' a k q s idx : inb s idx -> (q < k)%nat ->
  inb (with_axis a k s) (with_axis a q idx).
Proof.
  intros IB Q. destruct (le_lt_dec a (length s)) as [L|L]; [now apply inb_with_axis|].
  pose proof (inb_length _ _ IB) as LI.
  rewrite !with_axis_long by lia. apply inb_app; [assumption|]. cbn. auto.
Qed.

Lemma chain_dot c s a : c_ins c = [s; s] -> correct c (dot_meaning a) -> s = with_axis a 3 (c_out c) ->
  ruled (fun _ => True) c (dot_meaning a).
Proof.
  intros Hi C ES. apply (chain_closed c _ _ _ (fun o u =>
    rsum 3 (fun q => get (Nd s (u 0%nat)) (with_axis a q (unravel (c_out c) o)) *
                     get (Nd s (u 1%nat)) (with_axis a q (unravel (c_out c) o)))) Hi eq_refl C).
  - intros v o H. pose proof (unravel_inb _ _ H) as IB.
    apply smooth_rsum with (f := fun u q => get (Nd s (u 0%nat)) (with_axis a q (unravel (c_out c) o)) *
                     get (Nd s (u 1%nat)) (with_axis a q (unravel (c_out c) o))).
    intros q Hq. apply smooth_product; cbn; auto; rewrite ES; now apply inb_with_axis'.
  - intros u y o H Hs (x1 & x2 & E & _ & _ & M). cbn in E. injection E as <- <-.
    rewrite dat_get by now rewrite Hs. rewrite Hs, M; [reflexivity|]. rewrite Hs. now apply unravel_inb.
Qed.

Lemma inb_split : forall s t idx, inb (s ++ t) idx -> exists i j, idx = i ++ j /\ inb s i /\ inb t j.
Proof.
  induction s as [|n s IH]; intros t idx H.
  - exists [], idx. cbn. auto.
  - destruct idx as [|i idx]; [contradiction|]. destruct H as [H1 H2].
    destruct (IH t idx H2) as (i' & j & -> & A & B). exists (i :: i'), j. cbn. auto.
Qed.

Lemma chain_outer c s0 s1 : c_ins c = [s0; s1] -> c_out c = s0 ++ s1 -> correct c outer_meaning ->
  ruled (fun _ => True) c outer_meaning.
Proof.
  intros Hi Ho C. apply chain_rule_correct with (1 := C). rewrite Hi, Ho. intros v o H.
  destruct (inb_split s0 s1 _ (unravel_inb _ _ H)) as (i & j & E & I0 & I1).
  exists (fun u => get (Nd s0 (u 0%nat)) i * get (Nd s1 (u 1%nat)) j). split.
  - apply smooth_product; cbn; auto.
  - intros u y Hs (a & b & Eab & _ & M). cbn in Eab. injection Eab as <- <-.
    rewrite dat_get by now rewrite Hs. rewrite Hs, E. now apply M.
Qed.

Lemma chain_inner c s0 s1 ax bx : c_ins c = [s0; s1] -> correct c (inner_meaning ax bx) ->
  ruled (fun _ => True) c (inner_meaning ax bx).
Proof.
  intros Hi C. set (b idx p q := same (on_axes ax (unravel s0 p)) (on_axes bx (unravel s1 q)) &&
           same (drop_axes ax (unravel s0 p) ++ drop_axes bx (unravel s1 q)) idx).
  apply (chain_closed c _ _ _ (fun o u =>
    rsum (size s0) (fun p => rsum (size s1) (fun q =>
      if b (unravel (c_out c) o) p q then u 0%nat p * u 1%nat q else 0))) Hi eq_refl C).
  - intros v o H.
    apply smooth_rsum with (f := fun u p => rsum (size s1) (fun q =>
      if b (unravel (c_out c) o) p q then u 0%nat p * u 1%nat q else 0)). intros p Hp.
    apply smooth_rsum with (f := fun u q =>
      if b (unravel (c_out c) o) p q then u 0%nat p * u 1%nat q else 0). intros q Hq.
    apply smooth_if; [|apply smooth_const]. apply smooth_mult; apply smooth_entry; cbn; auto.
  - intros u y o H Hs (a & x & E & _ & _ & M). cbn in E. injection E as <- <-.
    rewrite dat_get by now rewrite Hs. rewrite Hs, M; [reflexivity|]. rewrite Hs. now apply unravel_inb.
Qed.

Lemma inb_with_axis_inv a k : forall s idx, inb (with_axis a k s) idx ->
  exists q i, (q < k)%nat /\ inb s i /\ idx = with_axis a q i.
Proof.
  unfold with_axis. induction a as [|a IH]; intros s idx H.
  - destruct idx as [|q i]; [contradiction|]. destruct H. exists q, i. auto.
  - destruct s as [|n s].
    + cbn in H. destruct idx as [|q [|? ?]]; try tauto. exists q, []. cbn. tauto.
    + destruct idx as [|x idx]; [contradiction|]. cbn [firstn skipn app inb] in H. destruct H as [H1 H2].
      destruct (IH s idx H2) as (q & i & A & B & ->). exists q, (x :: i). cbn. auto.
Qed.

Lemma with_axis_inj a : forall s t k, with_axis a k s = with_axis a k t -> s = t.
Proof.
  unfold with_axis. induction a as [|a IH]; intros s t k H.
  - cbn in H. congruence.
  - destruct s as [|n s], t as [|m t]; cbn in H; auto.
    + exfalso. injection H as _ H. destruct (firstn a t); discriminate.
    + exfalso. injection H as _ H. destruct (firstn a s); discriminate.
    + injection H as -> H. f_equal. now apply (IH s t k).
Qed.

Lemma chain_cross c rest a : c_ins c = [with_axis a 3 rest; with_axis a 3 rest] -> c_out c = with_axis a 3 rest ->
  correct c (cross_meaning a) -> ruled (fun _ => True) c (cross_meaning a).
Proof.
  intros Hi Ho C. apply chain_rule_correct with (1 := C). rewrite Hi, Ho. intros v o H.
  set (s := with_axis a 3 rest) in *.
  destruct (inb_with_axis_inv a 3 rest _ (unravel_inb _ _ H)) as (q & i & Hq & Ii & E).
  assert (SM : forall k l, (k < 3)%nat -> (l < 3)%nat ->
     smooth_at [s; s] (fun u => get (Nd s (u 0%nat)) (with_axis a k i) * get (Nd s (u 1%nat)) (with_axis a l i)) v).
  { intros k l Hk Hl. apply smooth_product; cbn; auto; now apply inb_with_axis'. }
  assert (M : forall u y, shp y = s -> cross_meaning a (inputs_of [s; s] u) y ->
    let g q := get (Nd s (u 0%nat)) (with_axis a q i) in
    let h q := get (Nd s (u 1%nat)) (with_axis a q i) in
    get y (with_axis a 0 i) = g 1%nat * h 2%nat - g 2%nat * h 1%nat /\
    get y (with_axis a 1 i) = g 2%nat * h 0%nat - g 0%nat * h 2%nat /\
    get y (with_axis a 2 i) = g 0%nat * h 1%nat - g 1%nat * h 0%nat).
  { intros u y Hs (x1 & x2 & rest' & E12 & R1 & _ & _ & M). cbn in E12. injection E12 as <- <-.
    cbn [shp] in R1. apply with_axis_inj in R1. subst rest'. exact (M i Ii). }
  destruct q as [|[|[|q]]]; [| | |lia].
  - exists (fun u => get (Nd s (u 0%nat)) (with_axis a 1 i) * get (Nd s (u 1%nat)) (with_axis a 2 i) -
                     get (Nd s (u 0%nat)) (with_axis a 2 i) * get (Nd s (u 1%nat)) (with_axis a 1 i)).
    split; [apply smooth_minus; apply SM; lia|]. intros u y Hs My.
    rewrite dat_get by now rewrite Hs. rewrite Hs, E. now apply M.
  - exists (fun u => get (Nd s (u 0%nat)) (with_axis a 2 i) * get (Nd s (u 1%nat)) (with_axis a 0 i) -
                     get (Nd s (u 0%nat)) (with_axis a 0 i) * get (Nd s (u 1%nat)) (with_axis a 2 i)).
    split; [apply smooth_minus; apply SM; lia|]. intros u y Hs My.
    rewrite dat_get by now rewrite Hs. rewrite Hs, E. now apply M.
  - exists (fun u => get (Nd s (u 0%nat)) (with_axis a 0 i) * get (Nd s (u 1%nat)) (with_axis a 1 i) -
                     get (Nd s (u 0%nat)) (with_axis a 1 i) * get (Nd s (u 1%nat)) (with_axis a 0 i)).
    split; [apply smooth_minus; apply SM; lia|]. intros u y Hs My.
    rewrite dat_get by now rewrite Hs. rewrite Hs, E. now apply M.
Qed.
