(** Proofs about einsum with dense derivatives. *)
From Coq Require Import Reals Lra Lia Arith List Bool.
From Verif Require Import PyBase RSum NdArray NdEinsum Component JacSpec CompReorder CompEinsum
  SpecEinsum EinsumStrings EinsumCalc.
Import ListNotations.
Local Open Scope R_scope.

(** ---- lists ------------------------------------------------------------ *)

Lemma dedup_id : forall l, NoDup l -> dedup l = l.
Proof.
  induction l as [|x l IH]; intros H; [reflexivity|]. inversion H; subst. cbn [dedup].
  f_equal. rewrite IH by assumption. apply filter_all. intros y Hy.
  apply negb_true_iff, Nat.eqb_neq. intros ->. tauto.
Qed.

Lemma dedup_app : forall a b, dedup (a ++ b) = dedup a ++ filter (fun x => negb (mem x a)) (dedup b).
Proof.
  induction a as [|x a IH]; intros b.
  - cbn. symmetry. apply filter_all. reflexivity.
  - cbn [app dedup]. rewrite IH, filter_app. cbn [app]. f_equal. f_equal.
    generalize (dedup b). intros l. induction l as [|y l IHl]; [reflexivity|].
    cbn [filter]. change (mem y (x :: a)) with (Nat.eqb y x || mem y a).
    destruct (mem y a) eqn:E1; cbn [negb filter].
    + rewrite orb_true_r. exact IHl.
    + rewrite orb_false_r. destruct (Nat.eqb y x); cbn [negb]; [exact IHl|]. f_equal. exact IHl.
Qed.

Lemma dedup_prefix : forall ds rs, NoDup ds -> incl rs ds -> dedup (ds ++ rs) = ds.
Proof.
  intros ds rs Hn Hi. rewrite dedup_app, (dedup_id ds Hn).
  rewrite filter_none; [apply app_nil_r|]. intros x Hx. apply (proj1 (dedup_In _ _)) in Hx.
  apply negb_false_iff, mem_In. auto.
Qed.

Definition lsum (l : list nat) (f : nat -> R) : R := fold_right (fun i a => f i + a) 0 l.

Lemma lsum_app : forall a b f, lsum (a ++ b) f = lsum a f + lsum b f.
Proof.
  induction a as [|x a IH]; intros b f; cbn [app lsum fold_right].
  - symmetry. apply Rplus_0_l.
  - fold (lsum (a ++ b) f). fold (lsum a f). rewrite IH. ring.
Qed.

Lemma rsum_filter : forall n (P : nat -> bool) f,
  rsum n (fun i => if P i then f i else 0) = lsum (filter P (seq 0 n)) f.
Proof.
  induction n as [|n IH]; intros P f; [reflexivity|].
  rewrite seq_S, filter_app, lsum_app. cbn [rsum]. rewrite IH. f_equal. cbn [filter].
  replace (0 + n)%nat with n by lia. destruct (P n); cbn; ring.
Qed.

Lemma locations_head : forall names n, In n names ->
  exists l, locations names n = find_pos names n :: l.
Proof.
  unfold locations.
  assert (G : forall names n a, In n names ->
    exists l, filter (fun i => Nat.eqb (nth (i - a) names 0%nat) n) (seq a (length names))
              = (a + find_pos names n)%nat :: l).
  { induction names as [|x names IH]; intros n a H; [destruct H|].
    cbn [length seq filter find_pos]. rewrite Nat.sub_diag. cbn [nth].
    destruct (Nat.eqb_spec x n) as [->|Hne].
    - eexists. rewrite Nat.add_0_r. reflexivity.
    - destruct H as [H|H]; [congruence|]. destruct (IH n (S a) H) as [l Hl].
      exists l. replace (a + S (find_pos names n))%nat with (S a + find_pos names n)%nat by lia.
      rewrite <- Hl. apply filter_ext_in. intros i Hi. apply in_seq in Hi.
      replace (i - a)%nat with (S (i - S a)) by lia. reflexivity. }
  intros names n H. destruct (G names n 0%nat H) as [l Hl]. exists l.
  rewrite Nat.add_0_l in Hl. rewrite <- Hl. apply filter_ext. intros i. now rewrite Nat.sub_0_r.
Qed.

Lemma map_opt_some : forall (A B : Type) (f : A -> option B) (g : A -> B) l,
  (forall x, In x l -> f x = Some (g x)) -> map_opt f l = Some (map g l).
Proof.
  induction l as [|x l IH]; intros H; [reflexivity|]. cbn [map_opt map].
  rewrite (H x ltac:(now left)), IH; [reflexivity|]. intros; apply H; now right.
Qed.

Lemma map_opt_none : forall (A B : Type) (f : A -> option B) l x,
  In x l -> f x = None -> map_opt f l = None.
Proof.
  induction l as [|y l IH]; intros x H E; [destruct H|]. cbn [map_opt].
  destruct H as [->|H]; [now rewrite E|]. rewrite (IH x H E). destruct (f y); reflexivity.
Qed.

Lemma map_opt_exists : forall (A B : Type) (f : A -> option B) l,
  (forall x, In x l -> exists y, f x = Some y) ->
  exists ys, map_opt f l = Some ys /\ length ys = length l /\
    forall i x, nth_error l i = Some x -> nth_error ys i = f x.
Proof.
  induction l as [|x l IH]; intros H.
  - exists []. splits; try reflexivity. intros [|i] x Hx; discriminate.
  - destruct (H x ltac:(now left)) as [y Hy].
    destruct IH as (ys & E & Hl & Hn); [intros; apply H; now right|].
    exists (y :: ys). cbn [map_opt]. rewrite Hy, E. splits; try reflexivity.
    + cbn. now rewrite Hl.
    + intros [|i] x' Hx'; cbn in *; [inversion Hx'; subst; now rewrite Hy|auto].
Qed.

Lemma nth_map_seq : forall (A : Type) (f : nat -> A) n j d, (j < n)%nat ->
  nth j (map f (seq 0 n)) d = f j.
Proof.
  intros A f n j d Hj. rewrite nth_indep with (d' := f 0%nat) by (rewrite map_length, seq_length; lia).
  rewrite map_nth. now rewrite seq_nth.
Qed.

(** ---- the shape -------------------------------------------------------- *)

Lemma shape_of_char_ext : forall ext subs c, In c (concat subs) ->
  shape_of_char subs (map (map ext) subs) c = Some (Some (ext c)).
Proof.
  intros ext. induction subs as [|r subs IH]; intros c H; [destruct H|].
  cbn [shape_of_char map tl]. destruct (mem c r) eqn:E.
  - apply mem_In in E. pose proof (find_pos_lt r c E) as Hlt.
    rewrite nth_error_nth' with (d := ext 0%nat) by now rewrite map_length.
    rewrite map_nth, nth_find_pos by assumption. reflexivity.
  - apply mem_not_In in E. apply IH. cbn [concat] in H. apply in_app_or in H. tauto.
Qed.

Definition result_shape (ext : nat -> nat) (out : list nat) : list nat :=
  match out with [] => [1%nat] | _ => map ext out end.

Lemma einsum_shape_right : forall ext subs out, (forall l, In l out -> In l (concat subs)) ->
  compute_einsum_shape (subs ++ [out]) (map (map ext) subs) = Some (result_shape ext out).
Proof.
  intros ext subs out Ho. unfold compute_einsum_shape. rewrite last_last, removelast_last.
  destruct out as [|c out]; [reflexivity|].
  rewrite map_opt_some with (g := fun c => Some (ext c)).
  - cbn [option_map result_shape]. f_equal. generalize (c :: out). intros l.
    induction l as [|x l IH]; [reflexivity|]. cbn [map flat_map app]. now rewrite IH.
  - intros x Hx. apply shape_of_char_ext. auto.
Qed.

Lemma result_size : forall ext out, size (result_shape ext out) = size (map ext out).
Proof. intros ext [|c out]; reflexivity. Qed.

(** ---- the letters -------------------------------------------------------- *)

Lemma split_commas_In : forall s acc r c, In r (split_commas acc s) -> In c r -> In c acc \/ In c s.
Proof.
  induction s as [|d s IH]; intros acc r c Hr Hc; cbn [split_commas] in Hr.
  - destruct Hr as [<-|[]]. now left.
  - destruct (Nat.eqb d c_comma).
    + destruct Hr as [<-|Hr]; [now left|]. destruct (IH [] r c Hr Hc) as [[]|]. right. now right.
    + destruct (IH _ r c Hr Hc) as [H|H]; [|right; now right].
      apply in_app_or in H. destruct H as [H|[<-|[]]]; [now left|right; now left].
Qed.

Lemma parsed_in_op : forall op subs out, np_subscripts op = Some (subs, out) ->
  forall l, In l (concat subs) \/ In l out -> In l op.
Proof.
  intros op subs out H l Hl. unfold np_subscripts in H.
  destruct (split_arrow _) as [ins [o|]] eqn:E; [|discriminate].
  destruct (_ && _); [|discriminate]. inversion H; subst. clear H.
  apply split_arrow_eq in E.
  assert (Hf : In l (filter (fun c => negb (Nat.eqb c c_space)) op)).
  { rewrite E. apply in_or_app. destruct Hl as [Hl|Hl].
    - left. apply in_concat in Hl. destruct Hl as (r & Hr & Hlr).
      destruct (split_commas_In ins [] r l Hr Hlr) as [[]|]. assumption.
    - right. now do 2 right. }
  apply filter_In in Hf. tauto.
Qed.

Lemma alphabet_letters : letters alphabet.
Proof. vm_compute. reflexivity. Qed.
Lemma alphabet_NoDup : NoDup alphabet.
Proof. exact (seq_NoDup 26 97). Qed.

Lemma NoDup_firstn : forall (A : Type) n (l : list A), NoDup l -> NoDup (firstn n l).
Proof.
  induction n as [|n IH]; intros l H; [constructor|].
  destruct l as [|x l]; [constructor|]. inversion H as [|? ? Hx Hn]; subst. cbn [firstn].
  constructor; [|now apply IH].
  intros Hi. apply Hx. rewrite <- (firstn_skipn n l). apply in_or_app. now left.
Qed.

Lemma firstn_In : forall (A : Type) n (l : list A) x, In x (firstn n l) -> In x l.
Proof. intros A n l x H. rewrite <- (firstn_skipn n l). apply in_or_app. now left. Qed.

Lemma unused_chars_eq : forall op,
  unused_chars op = filter (fun c => negb (mem c op)) alphabet.
Proof. reflexivity. Qed.

Lemma unused_In : forall op l, In l (unused_chars op) -> In l alphabet /\ ~ In l op.
Proof.
  intros op l H. rewrite unused_chars_eq in H. apply filter_In in H. destruct H as [H1 H2].
  split; [exact H1|]. apply negb_true_iff in H2. apply mem_not_In. exact H2.
Qed.

Lemma unused_fresh : forall op n,
  NoDup (firstn n (unused_chars op)) /\ letters (firstn n (unused_chars op)) /\
  (forall l, In l (firstn n (unused_chars op)) -> ~ In l op).
Proof.
  intros op n. splits.
  - apply NoDup_firstn. apply NoDup_filter. exact alphabet_NoDup.
  - unfold letters. apply forallb_forall. intros l Hl. apply firstn_In, unused_In in Hl.
    exact (letters_In alphabet l alphabet_letters (proj1 Hl)).
  - intros l Hl. apply firstn_In, unused_In in Hl. exact (proj2 Hl).
Qed.

(** ---- the component ------------------------------------------------------ *)

Section Comp.
Variables (op : list nat) (subs : list (list nat)) (out : list nat) (ext : nat -> nat)
          (ds rs : list nat).
Let names := ds ++ rs.
Let shapes := map (map ext) subs.
Let n := length names.
Hypothesis Hparse : np_subscripts op = Some (subs, out).
Hypothesis Hlen : length subs = length names.
Hypothesis Hds : NoDup ds.
Hypothesis Hrs : incl rs ds.
Hypothesis Hsame : forall j j', (j < n)%nat -> (j' < n)%nat ->
  nth j names 0%nat = nth j' names 0%nat ->
  map ext (nth j subs []) = map ext (nth j' subs []).
Hypothesis Hno : NoDup out.
Hypothesis Ho : forall l, In l out -> In l (concat subs).
Hypothesis Hrank : forall r, In r subs -> (length r <= length (unused_chars op))%nat.

Lemma names_distinct : distinct names = ds.
Proof. unfold distinct, names. now apply dedup_prefix. Qed.

Definition pos j := find_pos ds (nth j names 0%nat).

Lemma pos_lt : forall j, (j < n)%nat -> (pos j < length ds)%nat.
Proof.
  intros j Hj. unfold pos. apply find_pos_lt.
  assert (H : In (nth j names 0%nat) names) by now apply nth_In.
  unfold names in H at 2. apply in_app_or in H. destruct H; [assumption|auto].
Qed.

Lemma pos_prefix : forall q, (q < length ds)%nat -> pos q = q.
Proof.
  intros q Hq. unfold pos, names. rewrite app_nth1 by assumption. now apply find_pos_nth.
Qed.

Lemma first_prefix : forall q, (q < length ds)%nat ->
  find_pos names (nth q ds 0%nat) = q.
Proof.
  intros q Hq. unfold names. rewrite find_pos_app_l by now apply nth_In. now apply find_pos_nth.
Qed.

Lemma ds_le : (length ds <= n)%nat.
Proof. unfold n, names. rewrite app_length. lia. Qed.

Lemma shape_named : forall j, (j < n)%nat ->
  shape_of_name names shapes (nth j names 0%nat) = map ext (nth j subs []).
Proof.
  intros j Hj. unfold shape_of_name.
  assert (Hin : In (nth j names 0%nat) names) by now apply nth_In.
  pose proof (find_pos_lt names _ Hin) as Hlt.
  unfold shapes. change (@nil nat) with (map ext []) at 1. rewrite map_nth.
  apply Hsame; [assumption|assumption|]. now apply nth_find_pos.
Qed.

Definition in_shapes := map (shape_of_name names shapes) ds.

Lemma in_shapes_nth : forall q, (q < length ds)%nat ->
  nth q in_shapes [] = map ext (nth q subs []).
Proof.
  intros q Hq. unfold in_shapes.
  rewrite nth_indep with (d' := shape_of_name names shapes 0%nat) by now rewrite map_length.
  rewrite map_nth. replace (nth q ds 0%nat) with (nth q names 0%nat).
  - apply shape_named. pose proof ds_le. lia.
  - unfold names. now apply app_nth1.
Qed.

Definition arr (v : nat -> nat -> R) j := Nd (map ext (nth j subs [])) (v (pos j)).

Lemma inputs_eq : forall v,
  inputs_named names (inputs_of in_shapes v) = map (arr v) (seq 0 n).
Proof.
  intros v. unfold inputs_named. rewrite names_distinct.
  apply nth_ext with (d := Nd [] (fun _ => 0)) (d' := Nd [] (fun _ => 0)).
  - rewrite !map_length, seq_length. reflexivity.
  - intros j Hj. rewrite map_length in Hj. rewrite nth_map_seq by assumption.
    rewrite nth_indep with
      (d' := (fun m => nth (find_pos ds m) (inputs_of in_shapes v) (Nd [] (fun _ => 0))) 0%nat)
      by now rewrite map_length.
    rewrite (map_nth (fun m => nth (find_pos ds m) (inputs_of in_shapes v) (Nd [] (fun _ => 0)))).
    fold (pos j). pose proof (pos_lt j Hj) as Hp.
    rewrite inputs_of_nth by (unfold in_shapes; now rewrite map_length).
    unfold arr. f_equal. rewrite in_shapes_nth by assumption.
    apply Hsame; [pose proof ds_le; lia|assumption|].
    unfold names at 1. rewrite app_nth1 by assumption. unfold pos. apply nth_find_pos.
    assert (H : In (nth j names 0%nat) names) by now apply nth_In.
    unfold names in H at 2. apply in_app_or in H. destruct H; [assumption|auto].
Qed.

Definition ops v := combine subs (map (arr v) (seq 0 n)).

Lemma xs_shapes : forall v, map shp (map (arr v) (seq 0 n)) = map (map ext) subs.
Proof.
  intros v. apply nth_ext with (d := []) (d' := map ext []).
  - rewrite !map_length, seq_length. symmetry. exact Hlen.
  - intros j Hj. rewrite !map_length, seq_length in Hj.
    change (@nil nat) with (shp (Nd [] (fun _ : nat => 0))). rewrite map_nth.
    rewrite nth_map_seq by assumption. cbn [arr shp]. now rewrite map_nth.
Qed.

Lemma ops_length : forall v, length (ops v) = n.
Proof. intros v. unfold ops. rewrite combine_length, map_length, seq_length, Hlen. apply Nat.min_id. Qed.

Lemma ops_nth : forall v j d, (j < n)%nat -> nth j (ops v) d = (nth j subs [], arr v j).
Proof.
  intros v j [d1 d2] Hj. unfold ops. rewrite combine_nth.
  - rewrite nth_map_seq by assumption. f_equal. apply nth_indep. now rewrite Hlen.
  - rewrite map_length, seq_length. exact Hlen.
Qed.

Lemma ops_conf : forall v, conf ext (ops v).
Proof. intros v. apply combine_conf, xs_shapes. Qed.

Lemma ops_labels : forall v, in_labels (ops v) = concat subs.
Proof.
  intros v. unfold in_labels, ops. rewrite combine_fst; [reflexivity|].
  rewrite map_length, seq_length. exact Hlen.
Qed.

Lemma ops_out : forall v l, In l out -> In l (in_labels (ops v)).
Proof. intros v l Hl. rewrite ops_labels. auto. Qed.

Definition ss := filter (fun l => negb (mem l out)) (dedup (concat subs)).
Lemma ops_summed : forall v, summed (ops v) out = ss.
Proof. intros v. unfold summed. now rewrite ops_labels. Qed.

Definition F (v : nat -> nat -> R) (o : nat) : R :=
  rsum (size (map ext ss)) (fun k =>
    rprod n (fun j => v (pos j) (ravel (map ext (nth j subs []))
                                       (map (env_at ext out ss o k) (nth j subs []))))).

Lemma value_dat : forall v o, dat (r_einsum (ops v) out) o = F v o.
Proof.
  intros v o. rewrite (einsum_dat ext) by (apply ops_conf || apply ops_out).
  rewrite ops_summed. unfold F. apply rsum_ext. intros k Hk.
  rewrite (term_rprod _ _ ([], Nd [] (fun _ => 0))), ops_length. apply rprod_ext. intros j Hj.
  rewrite ops_nth by assumption. reflexivity.
Qed.

Lemma einsum_call : forall v,
  np_einsum_str op (map (arr v) (seq 0 n)) = Some (r_einsum (ops v) out).
Proof.
  intros v. unfold np_einsum_str. rewrite Hparse. fold (ops v).
  rewrite map_length, seq_length, Hlen, Nat.eqb_refl. cbn [andb].
  rewrite (okb_true ext); [reflexivity|apply ops_conf|assumption|apply ops_out].
Qed.

(** one derivative term *)
Definition D (v : nat -> nat -> R) (i o c : nat) : R :=
  rsum (size (map ext ss)) (fun k =>
    let e := env_at ext out ss o k in
    rprod n (fun j => if Nat.eqb j i
      then (if Nat.eqb (ravel (map ext (nth i subs [])) (map e (nth i subs []))) c then 1 else 0)
      else v (pos j) (ravel (map ext (nth j subs [])) (map e (nth j subs []))))).

Lemma deriv_call_shape : forall v i, (i < n)%nat ->
  exists y, deriv_einsum op names (inputs_of in_shapes v) i (length (nth i subs []))
              (identity_tensor (map ext (nth i subs []))) = Some y /\
    shp y = map ext out ++ map ext (nth i subs []) /\
    forall o c, (o < size (map ext out))%nat -> (c < size (map ext (nth i subs [])))%nat ->
      dat y (o * size (map ext (nth i subs [])) + c)%nat = D v i o c.
Proof.
  intros v i Hi. destruct (parsed_letters _ _ _ Hparse) as (HL & HLo & Hne).
  assert (Hi' : (i < length subs)%nat) by now rewrite Hlen.
  set (r := length (nth i subs [])).
  destruct (unused_fresh op r) as (Hnf & Hlf & Hdf).
  set (fresh := firstn r (unused_chars op)) in *.
  assert (Hfl : length fresh = r).
  { unfold fresh. apply firstn_length_le. apply Hrank. now apply nth_In. }
  unfold deriv_einsum. rewrite (tolist_is_parse _ _ _ Hparse).
  rewrite removelast_last, last_last, app_nth1 by assumption. fold fresh.
  rewrite inputs_eq. unfold np_einsum_str. rewrite parse_to_string.
  - rewrite !replace_nth_length, map_length, seq_length, Hlen, Nat.eqb_refl. cbn [andb].
    rewrite combine_replace by (rewrite map_length, seq_length; exact Hlen). fold (ops v).
    set (d0 := ([], Nd [] (fun _ => 0)) : list nat * nd R).
    assert (Esub : nth i subs [] = fst (nth i (ops v) d0)) by now rewrite ops_nth.
    assert (Hfl' : length fresh = length (fst (nth i (ops v) d0))) by now rewrite <- Esub.
    assert (Hd' : forall l, In l fresh -> ~ In l (in_labels (ops v))).
    { intros l Hl Hin. apply (Hdf l Hl). eapply parsed_in_op; [exact Hparse|]. left.
      now rewrite <- (ops_labels v). }
    assert (Hiv : (i < length (ops v))%nat) by now rewrite ops_length.
    rewrite Esub. unfold d0 in *. clear d0.
    rewrite (deriv_okb ext (ops v) out fresh i Hiv (ops_conf v) Hno (ops_out v) Hnf Hfl' Hd').
    eexists. split; [reflexivity|]. split.
    + exact (deriv_shape ext (ops v) out fresh i Hiv (ops_conf v) (ops_out v) Hnf Hfl' Hd').
    + intros o c Hlo Hlc.
      rewrite (deriv_dat ext (ops v) out fresh i Hiv (ops_conf v) Hno (ops_out v) Hnf Hfl' Hd' o c Hlo Hlc).
      rewrite ops_summed, ops_length. rewrite <- Esub. unfold D.
      apply rsum_ext. intros k Hk. cbv zeta. apply rprod_ext. intros j Hj.
      destruct (Nat.eqb j i); [reflexivity|]. rewrite ops_nth by assumption. reflexivity.
  - intros H. apply (f_equal (@length _)) in H. rewrite replace_nth_length in H. cbn in H. lia.
  - intros x Hx. apply replace_In in Hx. destruct Hx as [->|Hx]; [|auto].
    apply letters_app; [|assumption]. apply HL. now apply nth_In.
  - now apply letters_app.
Qed.

Lemma deriv_call : forall v i, (i < n)%nat ->
  exists y, deriv_einsum op names (inputs_of in_shapes v) i (length (nth i subs []))
              (identity_tensor (map ext (nth i subs []))) = Some y /\
    size (shp y) = (size (map ext out) * size (map ext (nth i subs [])))%nat /\
    forall o c, (o < size (map ext out))%nat -> (c < size (map ext (nth i subs [])))%nat ->
      dat y (o * size (map ext (nth i subs [])) + c)%nat = D v i o c.
Proof.
  intros v i Hi. destruct (deriv_call_shape v i Hi) as (y & E & Hs & Hd).
  exists y. splits; try assumption. rewrite Hs. apply size_app.
Qed.

Lemma D_sum : forall v q o c, (q < length ds)%nat ->
  partial_at (fun x => F (set_op v q x) o) (v q) c
    (lsum (locations names (nth q ds 0%nat)) (fun i => D v i o c)).
Proof.
  intros v q o c Hq. unfold partial_at, F.
  set (K := size (map ext ss)).
  set (ix := fun k j => ravel (map ext (nth j subs [])) (map (env_at ext out ss o k) (nth j subs []))).
  set (g := fun k j t => set_op v q (upd (v q) c t) (pos j) (ix k j)).
  set (dg := fun k j => if Nat.eqb (pos j) q then (if Nat.eqb (ix k j) c then 1 else 0) else 0).
  assert (Hd : forall k j, derivable_pt_lim (g k j) (v q c) (dg k j)).
  { intros k j. unfold g, dg, set_op. destruct (Nat.eqb (pos j) q).
    - apply partial_upd.
    - apply derivable_pt_lim_const. }
  assert (Hg : forall k j, g k j (v q c) = v (pos j) (ix k j)).
  { intros k j. unfold g, set_op. destruct (Nat.eqb_spec (pos j) q) as [->|]; [|reflexivity].
    unfold upd. destruct (Nat.eqb_spec (ix k j) c) as [->|]; reflexivity. }
  change (derivable_pt_lim (fun t => rsum K (fun k => rprod n (fun j => g k j t))) (v q c)
    (lsum (locations names (nth q ds 0%nat)) (fun i => D v i o c))).
  eapply derivable_pt_lim_eq; [|apply derivable_pt_lim_rsum; intros k Hk;
    apply derivable_pt_lim_rprod with (d := dg k); intros i Hi; apply Hd].
  rewrite rsum_swap. unfold locations. rewrite <- rsum_filter. fold n.
  apply rsum_ext. intros i Hi.
  assert (Eb : Nat.eqb (pos i) q = Nat.eqb (nth i names 0%nat) (nth q ds 0%nat)).
  { assert (Hin : In (nth i names 0%nat) ds).
    { assert (H : In (nth i names 0%nat) names) by now apply nth_In.
      unfold names in H at 2. apply in_app_or in H. destruct H; [assumption|auto]. }
    destruct (Nat.eqb_spec (nth i names 0%nat) (nth q ds 0%nat)) as [E|E].
    - apply Nat.eqb_eq. unfold pos. rewrite E. now apply find_pos_nth.
    - apply Nat.eqb_neq. intros E'. apply E. unfold pos in E'. rewrite <- E'.
      symmetry. now apply nth_find_pos. }
  rewrite <- Eb. unfold D, dg. destruct (Nat.eqb (pos i) q).
  - apply rsum_ext. intros k Hk. cbv zeta. apply rprod_ext. intros j Hj.
    destruct (Nat.eqb j i); [reflexivity|]. apply Hg.
  - apply rsum_zero. intros k Hk. apply rprod_zero with (j := i); [assumption|].
    now rewrite Nat.eqb_refl.
Qed.

Lemma same_rank : forall i q, (i < n)%nat -> (q < n)%nat ->
  nth i names 0%nat = nth q names 0%nat ->
  length (nth q subs []) = length (nth i subs []).
Proof.
  intros i q Hi Hq E. pose proof (Hsame i q Hi Hq E) as H.
  apply (f_equal (@length _)) in H. rewrite !map_length in H. lia.
Qed.

Lemma partial_call : forall v q, (q < length ds)%nat ->
  exists y, einsum_partial op names shapes (result_shape ext out) (inputs_of in_shapes v) q = Some y /\
    size (shp y) = (size (map ext out) * size (map ext (nth q subs [])))%nat /\
    forall o c, (o < size (map ext out))%nat -> (c < size (map ext (nth q subs [])))%nat ->
      dat y (o * size (map ext (nth q subs [])) + c)%nat =
      lsum (locations names (nth q ds 0%nat)) (fun i => D v i o c).
Proof.
  intros v q Hq. pose proof ds_le as Hdn. assert (Hqn : (q < n)%nat) by lia.
  unfold einsum_partial. rewrite names_distinct. rewrite (first_prefix q Hq).
  assert (Enq : nth q ds 0%nat = nth q names 0%nat).
  { unfold names. symmetry. now apply app_nth1. }
  set (m := nth q ds 0%nat) in *.
  assert (Es : shape_of_name names shapes m = map ext (nth q subs [])).
  { rewrite Enq. now apply shape_named. }
  rewrite Es, map_length.
  set (ids := map (fun m => identity_tensor (shape_of_name names shapes m)) ds).
  assert (Eid : nth_error ids q = Some (identity_tensor (map ext (nth q subs [])))).
  { unfold ids. rewrite nth_error_map. rewrite (nth_error_nth' ds 0%nat Hq). cbn [option_map].
    fold m. now rewrite Es. }
  rewrite !Eid.
  destruct (deriv_call v q Hqn) as (y0 & E0 & Hs0 & Hd0). rewrite E0.
  rewrite Hs0, result_size, Nat.eqb_refl.
  assert (Hm : In m names).
  { rewrite Enq. now apply nth_In. }
  destruct (locations_head names m Hm) as [tl_ Etl].
  assert (Efirst : find_pos names m = q) by now apply first_prefix.
  rewrite Efirst in Etl. rewrite Etl. cbn [tl].
  assert (Hloc : forall i, In i tl_ -> (i < n)%nat /\ nth i names 0%nat = m).
  { intros i Hi. assert (H : In i (locations names m)) by (rewrite Etl; now right).
    unfold locations in H. apply filter_In in H. destruct H as [H1 H2].
    apply in_seq in H1. apply Nat.eqb_eq in H2. split; [unfold n; lia|assumption]. }
  clear Etl E0.
  assert (G : forall l y, (forall i, In i l -> (i < n)%nat /\ nth i names 0%nat = m) ->
    size (shp y) = (size (map ext out) * size (map ext (nth q subs [])))%nat ->
    exists y', fold_left (fun acc i => add_partial acc
                 (deriv_einsum op names (inputs_of in_shapes v) i (length (nth q subs []))
                    (identity_tensor (map ext (nth q subs []))))) l (Some y) = Some y' /\
      size (shp y') = (size (map ext out) * size (map ext (nth q subs [])))%nat /\
      forall o c, (o < size (map ext out))%nat -> (c < size (map ext (nth q subs [])))%nat ->
        dat y' (o * size (map ext (nth q subs [])) + c)%nat =
        dat y (o * size (map ext (nth q subs [])) + c)%nat + lsum l (fun i => D v i o c)).
  { induction l as [|i l IH]; intros y Hl Hy.
    - exists y. cbn [fold_left]. splits; try assumption; try reflexivity.
      intros. cbn. ring.
    - destruct (Hl i ltac:(now left)) as [Hin Him].
      assert (Ei : nth i names 0%nat = nth q names 0%nat) by congruence.
      pose proof (Hsame i q Hin Hqn Ei) as Eshape.
      pose proof (same_rank i q Hin Hqn Ei) as Er.
      destruct (deriv_call v i Hin) as (yi & Ei' & Hsi & Hdi).
      rewrite Eshape, <- Er in *.
      cbn [fold_left]. rewrite Ei'. cbn [add_partial]. rewrite Hy, Hsi, Nat.eqb_refl.
      destruct (IH (np_map2 Rplus y (np_reshape yi (shp y)))) as (y' & E' & Hs' & Hd').
      + intros i' Hi'. apply Hl. now right.
      + cbn [np_map2 shp]. exact Hy.
      + exists y'. splits; try assumption.
        intros o c Hlo Hlc. rewrite Hd' by assumption. cbn [np_map2 np_reshape dat].
        rewrite Hdi by assumption. cbn [lsum fold_right]. fold (lsum l (fun i => D v i o c)). ring. }
  destruct (G tl_ y0 Hloc Hs0) as (y' & E' & Hs' & Hd').
  exists y'. splits; try assumption.
  intros o c Hlo Hlc. rewrite Hd', Hd0 by assumption. reflexivity.
Qed.

Theorem einsum_prefix_lemma :
  exists c, einsum_comp op names shapes = Some c /\ c_ins c = firstn (length ds) shapes /\
    c_out c = result_shape ext out /\
    correct c (einsum_meaning subs out ext ds names).
Proof.
  unfold einsum_comp. rewrite (tolist_is_parse _ _ _ Hparse).
  unfold shapes at 1. rewrite (einsum_shape_right ext subs out Ho). rewrite names_distinct.
  fold in_shapes. pose proof ds_le as Hdn.
  eexists. split; [reflexivity|]. split; [|split; [reflexivity|]].
  - cbn [c_ins]. apply nth_ext with (d := []) (d' := []).
    + unfold in_shapes. rewrite map_length, firstn_length_le; [reflexivity|].
      unfold shapes. rewrite map_length, Hlen. exact Hdn.
    + intros q Hq. unfold in_shapes in Hq. rewrite map_length in Hq. rewrite in_shapes_nth by assumption.
      replace (nth q (firstn (length ds) shapes) []) with (nth q shapes []).
      * unfold shapes. symmetry. exact (map_nth (map ext) subs [] q).
      * rewrite <- (firstn_skipn (length ds) shapes) at 1. apply app_nth1.
        rewrite firstn_length_le; [assumption|]. unfold shapes. rewrite map_length, Hlen. exact Hdn.
  - apply correct_intro with (F := F).
    + intros v. cbn [c_compute c_ins c_out]. rewrite inputs_eq, einsum_call.
      assert (Ea : assign_output (result_shape ext out) (r_einsum (ops v) out)
                   = Some (np_reshape (r_einsum (ops v) out) (result_shape ext out))).
      { unfold assign_output. rewrite (einsum_shape ext) by (apply ops_conf || apply ops_out).
        now rewrite result_size, Nat.eqb_refl. }
      rewrite Ea. eexists. split; [reflexivity|]. splits.
      * reflexivity.
      * exists (map (arr v) (seq 0 n)). split.
        -- unfold operands_named.
           assert (G : forall l, (forall j, In j l -> (j < n)%nat) ->
             Forall2 (fun m x => exists k, nth_error ds k = Some m /\
                nth_error (inputs_of in_shapes v) k = Some x)
               (map (fun j => nth j names 0%nat) l) (map (arr v) l)).
           { induction l as [|j l IH]; intros Hl; [constructor|]. cbn [map]. constructor.
             - assert (Hj : (j < n)%nat) by (apply Hl; now left).
               exists (pos j). pose proof (pos_lt j Hj) as Hp. split.
               + rewrite (nth_error_nth' ds 0%nat Hp). f_equal. unfold pos. apply nth_find_pos.
                 assert (H : In (nth j names 0%nat) names) by now apply nth_In.
                 unfold names in H at 2. apply in_app_or in H. destruct H; [assumption|auto].
               + rewrite (nth_error_nth' _ (Nd [] (fun _ => 0)))
                   by (rewrite inputs_of_length; unfold in_shapes; now rewrite map_length).
                 f_equal. rewrite inputs_of_nth by (unfold in_shapes; now rewrite map_length).
                 unfold arr. f_equal. rewrite in_shapes_nth by assumption.
                 apply Hsame; [lia|assumption|].
                 unfold names at 1. rewrite app_nth1 by assumption. unfold pos. apply nth_find_pos.
                 assert (H : In (nth j names 0%nat) names) by now apply nth_In.
                 unfold names in H at 2. apply in_app_or in H. destruct H; [assumption|auto].
             - apply IH. intros; apply Hl; now right. }
           assert (En : names = map (fun j => nth j names 0%nat) (seq 0 n)).
           { apply nth_ext with (d := 0%nat) (d' := 0%nat).
             - now rewrite map_length, seq_length.
             - intros j Hj. now rewrite nth_map_seq. }
           rewrite En at 1. apply G. intros j Hj. apply in_seq in Hj. lia.
        -- apply einsum_is_sum with (s := result_shape ext out); auto using xs_shapes.
      * intros o Hlt. cbn [np_reshape dat]. apply value_dat.
    + intros v p _ Hp. cbn [c_partials c_ins c_out] in *. unfold in_shapes in Hp. rewrite map_length in Hp.
      destruct (map_opt_exists _ _ (einsum_partial op names shapes (result_shape ext out)
                   (inputs_of in_shapes v)) (seq 0 (length ds))) as (ys & E & Hl & Hn').
      { intros q Hq. apply in_seq in Hq. destruct (partial_call v q ltac:(lia)) as (y & Ey & _). eauto. }
      rewrite E. destruct (partial_call v p Hp) as (y & Ey & Hsy & Hdy).
      assert (Enp : nth_error ys p = Some y).
      { rewrite (Hn' p p); [assumption|].
        rewrite (nth_error_nth' _ 0%nat) by now rewrite seq_length. now rewrite seq_nth. }
      rewrite Enp. exists (Dense y). split; [reflexivity|].
      cbn [exact_jac]. rewrite in_shapes_nth by assumption. rewrite result_size. split; [assumption|].
      intros o c Hlo Hlc. unfold dense_entry. rewrite Hdy by assumption. now apply D_sum.
Qed.
End Comp.
