(** Calculus of Einstein sums: np_einsum against the specification, and the
    derivative with respect to one operand. *)
From Coq Require Import Reals Lra Lia Arith List Bool Permutation.
From Verif Require Import PyBase RSum NdArray NdEinsum Component JacSpec CompReorder CompEinsum SpecEinsum.
Import ListNotations.
Local Open Scope R_scope.

Lemma NoDup_app_intro : forall (A : Type) (a b : list A),
  NoDup a -> NoDup b -> (forall x, In x a -> ~ In x b) -> NoDup (a ++ b).
Proof.
  induction a as [|x a IH]; intros b Ha Hb Hd; [assumption|].
  inversion Ha; subst. cbn. constructor.
  - intros H. apply in_app_or in H. destruct H as [H|H]; [tauto|]. apply (Hd x); [now left|assumption].
  - apply IH; auto. intros y Hy. apply Hd. now right.
Qed.

(** The operands' shapes are given by extents of the labels. *)
Definition conf (ext : nat -> nat) (ops : list (list nat * nd R)) : Prop :=
  forall op, In op ops -> shp (snd op) = map ext (fst op).

Lemma in_labels_op : forall (ops : list (list nat * nd R)) op l,
  In op ops -> In l (fst op) -> In l (in_labels ops).
Proof.
  intros ops op l Hop Hl. unfold in_labels. apply in_concat. exists (fst op).
  split; [now apply in_map|assumption].
Qed.

Lemma dim_of_ext : forall ext (ops : list (list nat * nd R)) l,
  conf ext ops -> In l (in_labels ops) -> dim_of ops l = ext l.
Proof.
  intros ext ops l. induction ops as [|[subs a] ops IH]; intros Hc Hl; [destruct Hl|].
  cbn [dim_of]. destruct (mem l subs) eqn:E.
  - apply mem_In in E. pose proof (Hc (subs, a) ltac:(now left)) as Hs. cbn [fst snd] in Hs.
    rewrite Hs. rewrite nth_indep with (d' := ext 0%nat)
      by (rewrite map_length; now apply find_pos_lt).
    rewrite map_nth. now rewrite nth_find_pos.
  - apply mem_not_In in E. apply IH.
    + intros op Hop. apply Hc. now right.
    + unfold in_labels in *. cbn [map fst concat] in Hl. apply in_app_or in Hl. tauto.
Qed.

Lemma summed_In : forall (ops : list (list nat * nd R)) out l,
  In l (summed ops out) <-> In l (in_labels ops) /\ ~ In l out.
Proof.
  intros ops out l. unfold summed. rewrite filter_In, dedup_In, negb_true_iff, mem_not_In.
  reflexivity.
Qed.

Lemma summed_NoDup : forall (ops : list (list nat * nd R)) out, NoDup (summed ops out).
Proof. intros. apply NoDup_filter, dedup_NoDup. Qed.

Lemma map_dims : forall ext (ops : list (list nat * nd R)) ls,
  conf ext ops -> (forall l, In l ls -> In l (in_labels ops)) ->
  map (dim_of ops) ls = map ext ls.
Proof. intros ext ops ls Hc Hl. apply map_ext_in. intros l H. apply dim_of_ext; auto. Qed.

Lemma einsum_shape : forall ext ops out,
  conf ext ops -> (forall l, In l out -> In l (in_labels ops)) ->
  shp (r_einsum ops out) = map ext out.
Proof. intros ext ops out Hc Ho. unfold r_einsum, np_einsum. cbn [of_fun shp]. now apply map_dims. Qed.

(** the letters' values for output index [o] and summation index [k] *)
Definition env_at (ext : nat -> nat) (out ss : list nat) (o k : nat) : nat -> nat :=
  env_of (out ++ ss) (unravel (map ext out) o ++ unravel (map ext ss) k).

Lemma einsum_dat : forall ext ops out o,
  conf ext ops -> (forall l, In l out -> In l (in_labels ops)) ->
  dat (r_einsum ops out) o =
  rsum (size (map ext (summed ops out)))
       (fun k => term 1 Rmult ops (env_at ext out (summed ops out) o k)).
Proof.
  intros ext ops out o Hc Ho. unfold r_einsum, np_einsum. cbn [of_fun dat].
  rewrite (map_dims ext ops out Hc Ho).
  rewrite (map_dims ext ops (summed ops out) Hc)
    by (intros l Hl; now apply summed_In in Hl).
  now rewrite gsum_R.
Qed.

Lemma okb_true : forall ext ops out,
  conf ext ops -> NoDup out -> (forall l, In l out -> In l (in_labels ops)) ->
  einsum_okb ops out = true.
Proof.
  intros ext ops out Hc Hn Ho. unfold einsum_okb. rewrite !andb_true_iff. splits.
  - apply forallb_forall. intros op Hop. apply Nat.eqb_eq. rewrite (Hc op Hop).
    now rewrite map_length.
  - apply forallb_forall. intros op Hop. apply forallb_forall. intros j Hj.
    apply in_seq in Hj. apply Nat.eqb_eq. rewrite (Hc op Hop).
    rewrite nth_indep with (d' := ext 0%nat) by (rewrite map_length; lia). rewrite map_nth.
    symmetry. apply dim_of_ext; [assumption|]. eapply in_labels_op; [exact Hop|].
    apply nth_In. lia.
  - clear Ho. induction Hn as [|x l Hx Hn IH]; [reflexivity|]. cbn [nodupb].
    apply mem_not_In in Hx. now rewrite Hx, IH.
  - apply forallb_forall. intros l Hl. apply mem_In. auto.
Qed.

(** ---- env_at ------------------------------------------------------------ *)

Lemma env_at_out : forall ext out ss o k,
  NoDup out -> map (env_at ext out ss o k) out = unravel (map ext out) o.
Proof.
  intros ext out ss o k Hn. unfold env_at.
  transitivity (map (env_of out (unravel (map ext out) o)) out).
  - apply map_ext_in. intros l Hl. apply env_of_app_l; [|assumption].
    now rewrite unravel_length, map_length.
  - apply map_env_of; [assumption|]. now rewrite unravel_length, map_length.
Qed.

Lemma env_at_ss : forall ext out ss o k,
  NoDup ss -> (forall l, In l ss -> ~ In l out) ->
  map (env_at ext out ss o k) ss = unravel (map ext ss) k.
Proof.
  intros ext out ss o k Hn Hd. unfold env_at.
  transitivity (map (env_of ss (unravel (map ext ss) k)) ss).
  - apply map_ext_in. intros l Hl. apply env_of_app_r; [|auto].
    now rewrite unravel_length, map_length.
  - apply map_env_of; [assumption|]. now rewrite unravel_length, map_length.
Qed.

Lemma inb_map_ext : forall (ext e : nat -> nat) ls,
  inb (map ext ls) (map e ls) <-> (forall l, In l ls -> (e l < ext l)%nat).
Proof.
  intros ext e. induction ls as [|l ls IH]; cbn [map inb]; split.
  - intros _ l [].
  - auto.
  - intros [H1 H2] l' [<-|H]; [assumption|]. now apply IH.
  - intros H. split; [apply H; now left|]. apply IH. intros; apply H; now right.
Qed.

Lemma env_at_lt : forall ext out ss o k l,
  NoDup out -> NoDup ss -> (forall l, In l ss -> ~ In l out) ->
  (o < size (map ext out))%nat -> (k < size (map ext ss))%nat ->
  In l out \/ In l ss -> (env_at ext out ss o k l < ext l)%nat.
Proof.
  intros ext out ss o k l Ho Hs Hd Hlo Hlk [Hl|Hl].
  - apply (proj1 (inb_map_ext ext (env_at ext out ss o k) out)); [|assumption].
    rewrite env_at_out by assumption. now apply unravel_inb.
  - apply (proj1 (inb_map_ext ext (env_at ext out ss o k) ss)); [|assumption].
    rewrite env_at_ss by assumption. now apply unravel_inb.
Qed.

(** ---- the specification's sums ------------------------------------------- *)

Lemma sum_letters_ext : forall ls ext e f g,
  (forall e', f e' = g e') -> sum_letters ls ext e f = sum_letters ls ext e g.
Proof.
  induction ls as [|l ls IH]; intros ext e f g H; cbn [sum_letters]; [apply H|].
  apply rsum_ext. intros. now apply IH.
Qed.

(** [f] looks only at the letters [dom]; assignments are functions, so sums are
    compared up to agreement on [dom]. *)
Definition depends_on (dom : list nat) (f : assignment -> R) : Prop :=
  forall e e', (forall l, In l dom -> e l = e' l) -> f e = f e'.

Lemma sum_letters_agree : forall ls ext e e' f dom,
  depends_on dom f ->
  (forall l, In l dom -> ~ In l ls -> e l = e' l) ->
  sum_letters ls ext e f = sum_letters ls ext e' f.
Proof.
  induction ls as [|l ls IH]; intros ext e e' f dom Hd H; cbn [sum_letters].
  - apply Hd. intros l Hl. apply H; auto.
  - apply rsum_ext. intros i Hi. apply IH with (dom := dom); [assumption|].
    intros l' Hl' Hn. unfold assign. destruct (Nat.eqb_spec l' l); [reflexivity|].
    apply H; [assumption|]. intros [|]; [congruence|tauto].
Qed.

Lemma sum_letters_perm : forall ls ls', Permutation ls ls' -> NoDup ls ->
  forall ext e f dom, depends_on dom f ->
  sum_letters ls ext e f = sum_letters ls' ext e f.
Proof.
  intros ls ls' HP. induction HP; intros Hn ext e f dom Hd.
  - reflexivity.
  - inversion Hn; subst. cbn [sum_letters]. apply rsum_ext. intros.
    eapply IHHP; eauto.
  - cbn [sum_letters]. rewrite rsum_swap. apply rsum_ext. intros i Hi. apply rsum_ext. intros j Hj.
    apply sum_letters_agree with (dom := dom); [assumption|].
    intros l' _ _. unfold assign. inversion Hn as [|? ? Hy Hn']; subst.
    assert (x <> y) by (intros ->; apply Hy; now left).
    destruct (Nat.eqb_spec l' x), (Nat.eqb_spec l' y); congruence.
  - rewrite (IHHP1 Hn ext e f dom Hd). apply (IHHP2) with (dom := dom); [|assumption].
    eapply Permutation_NoDup; eauto.
Qed.

(** nested sums as one sum over the flattened index *)
Lemma sum_letters_flat : forall ls ext e f dom, NoDup ls -> depends_on dom f ->
  sum_letters ls ext e f =
  rsum (size (map ext ls))
       (fun k => f (fun l => if mem l ls then env_of ls (unravel (map ext ls) k) l else e l)).
Proof.
  induction ls as [|l ls IH]; intros ext e f dom Hn Hd.
  - cbn. rewrite Rplus_0_l. reflexivity.
  - inversion Hn as [|? ? Hl Hn']; subst. cbn [sum_letters map size].
    rewrite rsum_mul. apply rsum_ext. intros i Hi.
    rewrite (IH ext (assign e l i) f dom Hn' Hd). apply rsum_ext. intros k Hk.
    apply Hd. intros l' _. cbn [unravel].
    rewrite div_block, mod_block by assumption.
    unfold mem at 2. cbn [existsb]. fold (mem l' ls). unfold env_of at 2. cbn [find_pos].
    rewrite (Nat.eqb_sym l l'). unfold assign.
    destruct (Nat.eqb_spec l' l) as [->|Hne]; cbn [orb nth].
    + apply mem_not_In in Hl. now rewrite Hl.
    + destruct (mem l' ls); reflexivity.
Qed.

Lemma product_term : forall subs xs e, length subs = length xs ->
  product subs xs e = term 1 Rmult (combine subs xs) e.
Proof.
  induction subs as [|s subs IH]; intros [|x xs] e H; try discriminate; [reflexivity|].
  cbn [product combine]. unfold term in *. cbn [map gprod fst snd]. now rewrite IH by (cbn in H; lia).
Qed.

Lemma combine_fst : forall (A B : Type) (l : list A) (l' : list B),
  length l = length l' -> map fst (combine l l') = l.
Proof.
  induction l as [|x l IH]; intros [|y l'] H; try discriminate; [reflexivity|].
  cbn. f_equal. apply IH. cbn in H. lia.
Qed.

Lemma combine_conf : forall ext subs xs, map shp xs = map (map ext) subs ->
  conf ext (combine subs xs).
Proof.
  intros ext. induction subs as [|s subs IH]; intros [|x xs] H; try discriminate.
  - intros op [].
  - cbn [map] in H. injection H as H1 H2. intros op [<-|Hop]; [assumption|].
    eapply IH; eauto.
Qed.

(** np.einsum computes the Einstein sum. *)
Theorem einsum_is_sum : forall subs out ext xs,
  map shp xs = map (map ext) subs -> NoDup out ->
  (forall l, In l out -> In l (concat subs)) ->
  forall s y, assign_output s (r_einsum (combine subs xs) out) = Some y ->
  s = (match out with [] => [1%nat] | _ => map ext out end) ->
  einstein_sum subs out ext xs y.
Proof.
  intros subs out ext xs Hs Hn Ho s y Ha Es.
  assert (Hlen : length subs = length xs).
  { apply (f_equal (@length _)) in Hs. rewrite !map_length in Hs. congruence. }
  assert (Hc := combine_conf ext subs xs Hs).
  assert (Hlab : in_labels (combine subs xs) = concat subs).
  { unfold in_labels. now rewrite combine_fst. }
  assert (Ho' : forall l, In l out -> In l (in_labels (combine subs xs))) by (rewrite Hlab; auto).
  pose proof (einsum_shape ext _ out Hc Ho') as Eshape.
  unfold assign_output in Ha. rewrite Eshape in Ha.
  assert (Esz : size s = size (map ext out)).
  { rewrite Es. destruct out; [reflexivity|reflexivity]. }
  rewrite Esz, Nat.eqb_refl in Ha. inversion Ha; subst y. clear Ha.
  unfold einstein_sum. splits.
  - assumption.
  - cbn [np_reshape shp]. exact Es.
  - intros e ls He Hnl Hls.
    set (ops := combine subs xs) in *. set (ss := summed ops out).
    assert (Hdep : depends_on (concat subs) (product subs xs)).
    { intros e1 e2 H12. rewrite !product_term by assumption. apply term_ext.
      intros l Hl. apply H12. now rewrite <- Hlab. }
    assert (Hss : forall l, In l ss <-> In l (concat subs) /\ ~ In l out).
    { intros l. unfold ss. rewrite summed_In. now rewrite Hlab. }
    assert (HP : Permutation ls ss).
    { apply NoDup_Permutation; [assumption|apply summed_NoDup|].
      intros l. rewrite Hls, Hss. reflexivity. }
    rewrite (sum_letters_perm ls ss HP Hnl ext e _ _ Hdep).
    rewrite (sum_letters_flat ss ext e _ _ (summed_NoDup ops out) Hdep).
    assert (Hin : inb (map ext out) (map e out)) by now apply inb_map_ext.
    transitivity (dat (r_einsum ops out) (ravel (map ext out) (map e out))).
    { unfold get. cbn [np_reshape shp dat]. rewrite Es. destruct out; reflexivity. }
    rewrite (einsum_dat ext) by assumption. fold ss. apply rsum_ext. intros k Hk.
    rewrite product_term by assumption. apply term_ext. intros l Hl.
    unfold env_at. rewrite unravel_ravel by assumption.
    destruct (in_dec Nat.eq_dec l out) as [Hlo|Hlo].
    + rewrite env_of_app_l by (rewrite ?map_length; auto).
      assert (Hns : mem l ss = false) by (apply mem_not_In; rewrite Hss; tauto).
      rewrite Hns.
      transitivity (nth (find_pos out l) (map e out) (e 0%nat)).
      * apply nth_indep. rewrite map_length. now apply find_pos_lt.
      * rewrite map_nth. now rewrite nth_find_pos.
    + rewrite env_of_app_r by (rewrite ?map_length; auto).
      assert (Hns : mem l ss = true).
      { apply mem_In. rewrite Hss. split; [|assumption]. now rewrite <- Hlab. }
      now rewrite Hns.
Qed.

(** ---- replacing an operand by the identity tensor -------------------------- *)

Lemma gprod_rprod : forall l, gprod 1 Rmult l = rprod (length l) (fun j => nth j l 1).
Proof.
  assert (H : forall n f, rprod (S n) f = f 0%nat * rprod n (fun j => f (S j))).
  { induction n as [|n IH]; intros f; [cbn; ring|].
    change (rprod (S (S n)) f) with (rprod (S n) f * f (S n)).
    rewrite IH. change (rprod (S n) (fun j => f (S j))) with (rprod n (fun j => f (S j)) * f (S n)).
    ring. }
  induction l as [|x l IH]; [reflexivity|].
  cbn [gprod length]. rewrite H. cbn [nth]. now rewrite IH.
Qed.

Lemma term_rprod : forall ops e d,
  term 1 Rmult ops e =
  rprod (length ops) (fun j => get (snd (nth j ops d)) (map e (fst (nth j ops d)))).
Proof.
  intros ops e d. unfold term. rewrite gprod_rprod, map_length. apply rprod_ext. intros j Hj.
  rewrite nth_indep with (d' := (fun op => get (snd op) (map e (fst op))) d)
    by now rewrite map_length.
  exact (map_nth (fun op => get (snd op) (map e (fst op))) ops d j).
Qed.

Lemma rprod_zero : forall n f j, (j < n)%nat -> f j = 0 -> rprod n f = 0.
Proof.
  induction n as [|n IH]; intros f j Hj Hf; [lia|]. cbn [rprod].
  destruct (Nat.eq_dec j n) as [->|Hne]; [rewrite Hf; ring|].
  rewrite (IH f j); [ring|lia|assumption].
Qed.

(** product rule *)
Lemma derivable_pt_lim_rprod : forall n (f : nat -> R -> R) x (d : nat -> R),
  (forall i, (i < n)%nat -> derivable_pt_lim (f i) x (d i)) ->
  derivable_pt_lim (fun t => rprod n (fun i => f i t)) x
    (rsum n (fun i => rprod n (fun j => if Nat.eqb j i then d i else f j x))).
Proof.
  induction n as [|n IH]; intros f x d H.
  - cbn. apply derivable_pt_lim_const.
  - cbn [rprod].
    apply derivable_pt_lim_eq with
      (l := rsum n (fun i => rprod n (fun j => if Nat.eqb j i then d i else f j x)) * f n x
            + rprod n (fun j => f j x) * d n).
    + cbn [rsum]. rewrite Nat.eqb_refl. f_equal.
      * rewrite <- rsum_scal_r. apply rsum_ext. intros i Hi.
        assert (E : Nat.eqb n i = false) by (apply Nat.eqb_neq; lia). now rewrite E.
      * f_equal. apply rprod_ext. intros j Hj.
        assert (E : Nat.eqb j n = false) by (apply Nat.eqb_neq; lia). now rewrite E.
    + apply (derivable_pt_lim_mult (fun t => rprod n (fun i => f i t)) (f n)).
      * apply IH. intros; apply H; lia.
      * apply H. lia.
Qed.

Lemma replace_nth_length : forall (A : Type) i (x : A) l, length (replace_nth i x l) = length l.
Proof. intros A i x l. revert i. induction l as [|y l IH]; intros [|i]; cbn; auto. Qed.

Lemma nth_replace : forall (A : Type) i (x : A) l j d, (i < length l)%nat ->
  nth j (replace_nth i x l) d = if Nat.eqb j i then x else nth j l d.
Proof.
  intros A i x l. revert i. induction l as [|y l IH]; intros i j d Hi; cbn in Hi; [lia|].
  destruct i as [|i].
  - destruct j; reflexivity.
  - destruct j as [|j]; [reflexivity|]. cbn. apply IH. lia.
Qed.

Lemma combine_replace : forall (A B : Type) i (x : A) (y : B) l l', length l = length l' ->
  combine (replace_nth i x l) (replace_nth i y l') = replace_nth i (x, y) (combine l l').
Proof.
  intros A B i x y l. revert i. induction l as [|a l IH]; intros i [|b l'] H; try discriminate;
    [destruct i; reflexivity|].
  destruct i as [|i]; [reflexivity|]. cbn. f_equal. apply IH. cbn in H. lia.
Qed.

Lemma replace_In : forall (A : Type) i (x y : A) l,
  In y (replace_nth i x l) -> y = x \/ In y l.
Proof.
  intros A i x y l. revert i. induction l as [|z l IH]; intros [|i] H; cbn in *; try tauto.
  - intuition.
  - destruct H as [H|H]; [tauto|]. apply IH in H. tauto.
Qed.

Lemma identity_entry : forall s a b, inb s a -> inb s b ->
  get (identity_tensor s) (a ++ b) = if Nat.eqb (ravel s a) (ravel s b) then 1 else 0.
Proof.
  intros s a b Ha Hb. unfold identity_tensor.
  pose proof (inb_length _ _ Ha) as Hla.
  rewrite get_of_fun.
  - rewrite firstn_app, skipn_app, Hla, Nat.sub_diag, firstn_O, app_nil_r, skipn_O.
    rewrite firstn_all2, skipn_all2 by lia. cbn [app].
    destruct (list_eq_dec Nat.eq_dec a b) as [->|Hne]; [now rewrite Nat.eqb_refl|].
    destruct (Nat.eqb_spec (ravel s a) (ravel s b)) as [E|]; [|reflexivity].
    exfalso. apply Hne. eapply ravel_inj; eauto.
  - apply inb_app; [assumption|]. auto.
Qed.

Section Deriv.
Variables (ext : nat -> nat) (ops : list (list nat * nd R)) (out fresh : list nat) (i : nat).
Let d0 : list nat * nd R := ([], Nd [] (fun _ => 0)).
Let sub := fst (nth i ops d0).
Let s := map ext sub.
Hypothesis Hi : (i < length ops)%nat.
Hypothesis Hc : conf ext ops.
Hypothesis Hno : NoDup out.
Hypothesis Ho : forall l, In l out -> In l (in_labels ops).
Hypothesis Hnf : NoDup fresh.
Hypothesis Hlf : length fresh = length sub.
Hypothesis Hdf : forall l, In l fresh -> ~ In l (in_labels ops).

Let ops' := replace_nth i (sub ++ fresh, identity_tensor s) ops.
Let out' := out ++ fresh.
Let ss := summed ops out.
Let ext' l := if mem l fresh then nth (find_pos fresh l) s 0%nat else ext l.

Lemma ext'_old : forall l, In l (in_labels ops) -> ext' l = ext l.
Proof.
  intros l Hl. unfold ext'. destruct (mem l fresh) eqn:E; [|reflexivity].
  apply mem_In in E. exfalso. now apply (Hdf l).
Qed.

Lemma map_ext'_old : forall ls, (forall l, In l ls -> In l (in_labels ops)) ->
  map ext' ls = map ext ls.
Proof. intros ls H. apply map_ext_in. intros l Hl. apply ext'_old. auto. Qed.

Lemma map_ext'_fresh : map ext' fresh = s.
Proof.
  transitivity (map (env_of fresh s) fresh).
  - apply map_ext_in. intros l Hl. unfold ext', env_of.
    apply mem_In in Hl. now rewrite Hl.
  - apply map_env_of; [assumption|]. unfold s. now rewrite map_length.
Qed.

Lemma sub_labels : forall l, In l sub -> In l (in_labels ops).
Proof. intros l Hl. eapply in_labels_op; [|exact Hl]. now apply nth_In. Qed.

Lemma conf' : conf ext' ops'.
Proof.
  intros op Hop. apply replace_In in Hop. destruct Hop as [->|Hop].
  - cbn [fst snd identity_tensor of_fun shp]. rewrite map_app, map_ext'_fresh.
    f_equal. unfold s. symmetry. apply map_ext'_old. exact sub_labels.
  - rewrite (Hc op Hop). symmetry. apply map_ext'_old. intros l Hl.
    eapply in_labels_op; eauto.
Qed.

(** without the fresh labels both operand lists have the same label sequence *)
Lemma in_labels' : filter (fun l => negb (mem l fresh)) (in_labels ops') = in_labels ops.
Proof.
  assert (Hall : forall ls, (forall l, In l ls -> ~ In l fresh) ->
                   filter (fun l => negb (mem l fresh)) ls = ls).
  { intros ls H. apply filter_all. intros l Hl. apply negb_true_iff, mem_not_In. auto. }
  assert (Hkeep : forall op, In op ops -> forall l, In l (fst op) -> ~ In l fresh).
  { intros op Hop l Hl Hf. apply (Hdf l Hf). eapply in_labels_op; eauto. }
  assert (Hsub : forall l, In l sub -> ~ In l fresh).
  { intros l Hl Hf. apply (Hdf l Hf). now apply sub_labels. }
  unfold ops'. clear ops'.
  assert (G : forall q, (q < length ops)%nat -> forall l0, (forall op, In op l0 -> In op ops) ->
     (q < length l0)%nat -> fst (nth q l0 d0) = sub ->
     filter (fun l => negb (mem l fresh)) (in_labels (replace_nth q (sub ++ fresh, identity_tensor s) l0))
     = in_labels l0).
  { intros q _ l0. revert q. induction l0 as [|op l0 IH]; intros q Hl0 Hq Hs; [cbn in Hq; lia|].
    assert (Hrest : filter (fun l => negb (mem l fresh)) (in_labels l0) = in_labels l0).
    { apply Hall. intros l Hl Hf. apply (Hdf l Hf). unfold in_labels in Hl.
      apply in_concat in Hl. destruct Hl as (x & Hx & Hlx). apply in_map_iff in Hx.
      destruct Hx as (op' & <- & Hop'). eapply in_labels_op; [|exact Hlx].
      apply Hl0. now right. }
    destruct q as [|q]; cbn [replace_nth]; unfold in_labels in *; cbn [map concat fst].
    - cbn [nth] in Hs. rewrite Hs. rewrite filter_app, Hrest. f_equal.
      rewrite filter_app. rewrite (Hall sub Hsub).
      rewrite filter_none; [apply app_nil_r|].
      intros l Hl. apply negb_false_iff, mem_In. assumption.
    - rewrite filter_app. rewrite (Hall (fst op)).
      + f_equal. apply IH; [intros; apply Hl0; now right|cbn in Hq; lia|exact Hs].
      + apply Hkeep. apply Hl0. now left. }
  apply (G i Hi ops); auto.
Qed.

Lemma out_fresh : forall l, In l out -> ~ In l fresh.
Proof. intros l Hl Hf. apply (Hdf l Hf). auto. Qed.

Lemma summed' : summed ops' out' = ss.
Proof.
  unfold ss, summed, out'. rewrite !filter_dedup. f_equal.
  rewrite <- in_labels'. 
  generalize (in_labels ops'). intros ls. induction ls as [|l ls IH]; [reflexivity|].
  cbn [filter]. unfold mem at 1. rewrite existsb_app. fold (mem l out). fold (mem l fresh).
  destruct (mem l out) eqn:E1, (mem l fresh) eqn:E2; cbn [orb negb filter]; rewrite ?E1; cbn [negb];
    rewrite IH; reflexivity.
Qed.

Lemma out'_labels : forall l, In l out' -> In l (in_labels ops').
Proof.
  intros l Hl. apply in_app_or in Hl. destruct Hl as [Hl|Hl].
  - apply Ho in Hl. rewrite <- in_labels' in Hl. now apply filter_In in Hl.
  - eapply in_labels_op with (op := (sub ++ fresh, identity_tensor s)).
    + unfold ops'.
      assert (E : nth i (replace_nth i (sub ++ fresh, identity_tensor s) ops) d0
                  = (sub ++ fresh, identity_tensor s)).
      { rewrite nth_replace by assumption. now rewrite Nat.eqb_refl. }
      pose proof (@nth_In _ i (replace_nth i (sub ++ fresh, identity_tensor s) ops) d0) as Hin.
      rewrite E in Hin. apply Hin. now rewrite replace_nth_length.
    + cbn [fst]. apply in_or_app. now right.
Qed.

Lemma NoDup_out' : NoDup out'.
Proof.
  unfold out'. apply NoDup_app_intro; auto using out_fresh.
Qed.

Lemma deriv_shape : shp (r_einsum ops' out') = map ext out ++ s.
Proof.
  rewrite (einsum_shape ext') by auto using conf', out'_labels.
  unfold out'. rewrite map_app, map_ext'_fresh. f_equal. now apply map_ext'_old.
Qed.

Lemma deriv_okb : einsum_okb ops' out' = true.
Proof. apply (okb_true ext'); auto using conf', out'_labels, NoDup_out'. Qed.

Lemma deriv_dat : forall o c, (o < size (map ext out))%nat -> (c < size s)%nat ->
  dat (r_einsum ops' out') (o * size s + c)%nat =
  rsum (size (map ext ss))
    (fun k => let e := env_at ext out ss o k in
       rprod (length ops) (fun j =>
         if Nat.eqb j i then (if Nat.eqb (ravel s (map e sub)) c then 1 else 0)
         else get (snd (nth j ops d0)) (map e (fst (nth j ops d0))))).
Proof.
  intros o c Hlo Hlc.
  rewrite (einsum_dat ext') by auto using conf', out'_labels.
  rewrite summed'.
  assert (Ess : map ext' ss = map ext ss).
  { apply map_ext'_old. intros l Hl. unfold ss in Hl. now apply summed_In in Hl. }
  rewrite Ess. apply rsum_ext. intros k Hk. cbv zeta.
  rewrite (term_rprod _ _ d0). unfold ops' at 1. rewrite replace_nth_length.
  apply rprod_ext. intros j Hj. unfold ops'. rewrite nth_replace by assumption.
  set (e := env_at ext out ss o k).
  assert (Hdis : forall l, In l ss -> ~ In l out).
  { intros l Hl. unfold ss in Hl. now apply summed_In in Hl. }
  (* the index splits *)
  assert (Eun : unravel (map ext' out') (o * size s + c) = unravel (map ext out) o ++ unravel s c).
  { assert (Em : map ext' out' = map ext out ++ s).
    { unfold out'. rewrite map_app, map_ext'_fresh. f_equal. now apply map_ext'_old. }
    rewrite Em.
    assert (Hin : inb (map ext out ++ s) (unravel (map ext out) o ++ unravel s c)).
    { apply inb_app; [now rewrite unravel_length|]. split; now apply unravel_inb. }
    rewrite <- (unravel_ravel _ _ Hin). f_equal.
    rewrite ravel_app by now rewrite unravel_length.
    now rewrite !ravel_unravel. }
  assert (Eold : forall l, ~ In l fresh ->
                   env_at ext' out' ss (o * size s + c) k l = e l).
  { intros l Hf. unfold e, env_at. rewrite Eun, Ess. unfold out'.
    destruct (in_dec Nat.eq_dec l out) as [Hl|Hl].
    - rewrite <- !app_assoc. rewrite !env_of_app_l; auto;
        rewrite unravel_length, map_length; reflexivity.
    - rewrite (env_of_app_r (out ++ fresh)).
      + rewrite env_of_app_r; auto. rewrite unravel_length, map_length. reflexivity.
      + rewrite !app_length, !unravel_length, map_length. unfold s. now rewrite map_length, Hlf.
      + intros Hx. apply in_app_or in Hx. tauto. }
  assert (Efresh : map (env_at ext' out' ss (o * size s + c) k) fresh = unravel s c).
  { transitivity (map (env_of fresh (unravel s c)) fresh).
    - apply map_ext_in. intros l Hl. unfold env_at. rewrite Eun. unfold out'.
      rewrite <- !app_assoc.
      rewrite env_of_app_r.
      + apply env_of_app_l; [|assumption]. rewrite unravel_length. unfold s. now rewrite map_length, Hlf.
      + rewrite unravel_length, map_length. reflexivity.
      + intros Hx. now apply (out_fresh l).
    - apply map_env_of; [assumption|]. rewrite unravel_length. unfold s. now rewrite map_length, Hlf. }
  assert (Emap : forall ls, (forall l, In l ls -> In l (in_labels ops)) ->
             map (env_at ext' out' ss (o * size s + c) k) ls = map e ls).
  { intros ls Hls. apply map_ext_in. intros l Hl. apply Eold. intros Hf. now apply (Hdf l Hf), Hls. }
  destruct (Nat.eqb_spec j i) as [->|Hne].
  - cbn [fst snd]. rewrite map_app, Efresh, (Emap sub sub_labels).
    rewrite identity_entry.
    + rewrite (ravel_unravel s c) by assumption. reflexivity.
    + apply inb_map_ext. intros l Hl. apply env_at_lt; auto.
      * apply summed_NoDup.
      * destruct (in_dec Nat.eq_dec l out); [now left|right].
        unfold ss. apply summed_In. split; [now apply sub_labels|assumption].
    + now apply unravel_inb.
  - rewrite Emap; [reflexivity|]. intros l Hl. eapply in_labels_op; [|exact Hl].
    now apply nth_In.
Qed.
End Deriv.
