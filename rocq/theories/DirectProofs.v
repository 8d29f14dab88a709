(** Proofs about the combinations whose options are given directly. *)
From Coq Require Import Reals Lra Lia Arith List Bool ZArith.
From Verif Require Import PyBase RSum NdArray Component JacSpec JacOpen CompReorder CompElem CompPoly
  SpecElem ElemProofs ArithProofs SpecPoly PolyProofs CompDirect SpecDirect.
Import ListNotations.
Local Open Scope R_scope.

(** ---- names ---- *)

Lemma existsb_in : forall x l, existsb (Nat.eqb x) l = true <-> In x l.
Proof.
  intros x l. rewrite existsb_exists. split.
  - intros (y & Hy & E). apply Nat.eqb_eq in E. now subst.
  - intros H. exists x. split; [assumption|apply Nat.eqb_refl].
Qed.

Lemma names_ok_nodup : forall l, names_ok l = true <-> NoDup l.
Proof.
  induction l as [|x l IH]; cbn [names_ok].
  - split; [constructor|reflexivity].
  - rewrite andb_true_iff, negb_true_iff, IH. split.
    + intros [H1 H2]. constructor; [|assumption]. intros H. apply existsb_in in H. congruence.
    + intros H. inversion H as [|? ? H1 H2]; subst. split; [|assumption].
      destruct (existsb (Nat.eqb x) l) eqn:E; [|reflexivity]. apply existsb_in in E. contradiction.
Qed.

Lemma processed_given : forall names cs dict l, given names cs dict l ->
  processed names cs dict = Some (map fst l, map snd l).
Proof.
  intros names cs dict l H. destruct H as [n c d Hd|n c|n c|l c|l cs Hl]; cbn [processed get_names_list get_scalars_list].
  - destruct d; [congruence|reflexivity].
  - reflexivity.
  - reflexivity.
  - rewrite !map_map. cbn [fst snd]. rewrite map_id. do 2 f_equal.
    induction l as [|x l IH]; [reflexivity|]. cbn [length repeat map]. now rewrite IH.
  - revert cs Hl. induction l as [|x l IH]; intros [|c cs] Hl; try discriminate; [reflexivity|].
    cbn [combine map fst snd]. injection Hl as Hl. specialize (IH cs Hl). injection IH as E1 E2.
    now rewrite <- E1, <- E2.
Qed.

(** ---- reading the inputs ---- *)

Lemma lookup_none : forall declared ins nm, ~ In nm declared -> lookup declared ins nm = None.
Proof.
  induction declared as [|n declared IH]; intros ins nm H; [reflexivity|].
  destruct ins as [|x ins]; [reflexivity|]. cbn [lookup].
  destruct (Nat.eqb_spec n nm) as [->|_]; [exfalso; apply H; now left|].
  apply IH. intros H'. apply H. now right.
Qed.

Lemma reads_none : forall (A : Type) declared ins (l : list (nat * A)) nm k,
  In (nm, k) l -> ~ In nm declared -> reads declared ins l = None.
Proof.
  intros A declared ins l nm k. induction l as [|[n j] l IH]; intros HI HN; [destruct HI|].
  cbn [reads]. destruct HI as [E|HI].
  - inversion E; subst. now rewrite lookup_none.
  - rewrite IH by assumption. now destruct (lookup declared ins n).
Qed.

Lemma reads_skip : forall (A : Type) n declared x ins (l : list (nat * A)),
  ~ In n (map fst l) -> reads (n :: declared) (x :: ins) l = reads declared ins l.
Proof.
  intros A n declared x ins. induction l as [|[m k] l IH]; intros H; [reflexivity|].
  cbn [reads lookup]. cbn [map fst] in H.
  destruct (Nat.eqb_spec n m) as [->|_]; [exfalso; apply H; now left|].
  rewrite IH; [reflexivity|]. intros H'. apply H. now right.
Qed.

Lemma map_fst_combine_in : forall (A : Type) (names : list nat) (ks : list A) nm,
  In nm (map fst (combine names ks)) -> In nm names.
Proof.
  intros A names ks nm H. apply in_map_iff in H. destruct H as ([a b] & <- & H).
  now apply in_combine_l in H.
Qed.

(** Distinct names, all declared: the loop reads the inputs in order. *)
Lemma reads_all : forall (A : Type) names ins (ks : list A), NoDup names ->
  length ins = length names -> reads names ins (combine names ks) = Some (combine ins ks).
Proof.
  intros A. induction names as [|n names IH]; intros ins ks HN HL.
  - destruct ins; [reflexivity|discriminate].
  - destruct ins as [|x ins]; [discriminate|]. inversion HN as [|? ? H1 H2]; subst.
    destruct ks as [|k ks]; [reflexivity|]. cbn [combine reads lookup]. rewrite Nat.eqb_refl.
    rewrite reads_skip.
    + rewrite IH; [reflexivity|assumption|]. now injection HL.
    + intros H. apply map_fst_combine_in in H. contradiction.
Qed.

Lemma firstn_combine_l : forall (A B : Type) (l : list A) (m : list B),
  combine (firstn (length m) l) m = combine l m.
Proof.
  intros A B. induction l as [|a l IH]; intros [|b m]; try reflexivity.
  cbn [length firstn combine]. now rewrite IH.
Qed.

Lemma inputs_length : forall s n v, length (inputs_of (repeat s n) v) = n.
Proof. intros s n v. unfold inputs_of. now rewrite map_length, seq_length, repeat_length. Qed.

Lemma inputs_shapes : forall s n v, Forall (fun x => shp x = s) (inputs_of (repeat s n) v).
Proof.
  intros s n v. rewrite inputs_arrays. apply Forall_forall. intros x Hx. unfold arrays in Hx.
  apply in_map_iff in Hx. now destruct Hx as (p & <- & _).
Qed.

(** ---- linear combinations ---- *)

Fixpoint wsum (x : nat -> R) (q : nat) (cs : list R) : R :=
  match cs with
  | [] => 0
  | c :: cs' => c * x q + wsum x (S q) cs'
  end.

Lemma lcomb_wsum : forall s v o cs q,
  lcomb o (combine (arrays s v q (length cs)) cs) = wsum (fun p => v p o) q cs.
Proof.
  intros s v o. induction cs as [|c cs IH]; intros q; [reflexivity|].
  unfold arrays in *. cbn [length seq map combine lcomb wsum dat]. now rewrite IH.
Qed.

Lemma wsum_ext : forall cs q x x',
  (forall p, (q <= p < q + length cs)%nat -> x p = x' p) -> wsum x q cs = wsum x' q cs.
Proof.
  induction cs as [|c cs IH]; intros q x x' H; [reflexivity|]. cbn [wsum]. cbn [length] in H.
  rewrite (H q) by lia. f_equal. apply IH. intros; apply H; lia.
Qed.

Lemma wsum_deriv : forall cs q me x, (q <= me < q + length cs)%nat ->
  derivable_pt_lim (fun t => wsum (upd x me t) q cs) (x me) (nth (me - q) cs 0).
Proof.
  induction cs as [|c cs IH]; intros q me x H; cbn [length] in H; [lia|]. cbn [wsum].
  destruct (Nat.eq_dec me q) as [->|Hne].
  - rewrite Nat.sub_diag. cbn [nth].
    apply derivable_pt_lim_ext with (f := fun t => c * t + wsum x (S q) cs).
    { intros t. rewrite upd_same. f_equal. apply wsum_ext. intros j Hj. now rewrite upd_other by lia. }
    eapply derivable_pt_lim_eq; [|apply derivable_pt_lim_plus;
      [apply derivable_pt_lim_scal, derivable_pt_lim_id|apply derivable_pt_lim_const]]. lra.
  - apply derivable_pt_lim_ext with (f := fun t => c * x q + wsum (upd x me t) (S q) cs).
    { intros t. now rewrite (upd_other x me q) by lia. }
    replace (me - q)%nat with (S (me - S q)) by lia. cbn [nth].
    eapply derivable_pt_lim_eq; [|apply derivable_pt_lim_plus;
      [apply derivable_pt_lim_const|apply IH; lia]]. lra.
Qed.

Lemma wsum_weighted : forall s v idx cs q,
  wsum (fun p => v p (ravel s idx)) q cs =
  weighted_sum cs (map (fun x => get x idx) (arrays s v q (length cs))).
Proof.
  intros s v idx. induction cs as [|c cs IH]; intros q; [reflexivity|].
  unfold weighted_sum, arrays, total in *. cbn [length seq map combine wsum fold_right fst snd].
  now rewrite IH.
Qed.

Theorem linear_direct_correct : forall s names coeffs dict l n a k,
  given names coeffs dict l -> NoDup (map fst l) -> constant_of s a k -> (length l <= n)%nat ->
  exists c, linear_direct s names coeffs dict (Some n) a = Some c /\
    c_ins c = repeat s (length l) /\ c_out c = s /\
    correct c (linear_meaning s k (map snd l)).
Proof.
  intros s names coeffs dict l n a k HG HN HK Hn. unfold linear_direct.
  rewrite (processed_given _ _ _ _ HG).
  rewrite firstn_all2 by (rewrite !map_length; lia).
  assert (Hok : names_ok (map fst l) = true) by now apply names_ok_nodup.
  rewrite Hok. rewrite map_length. eexists. split; [reflexivity|]. splits; auto.
  destruct (constant_assigned s a k HK) as (kf & Ek & Hkf). rewrite Ek.
  set (cs := map snd l). assert (Hcs : length cs = length l) by apply map_length.
  apply correct_within_true.
  apply elementwise_correct with (s := s) (n := length l)
    (G := fun o x => kf o + wsum x 0 cs) (D := fun v p o => nth p cs 0);
    cbn [c_ins c_out c_compute c_partials].
  - reflexivity.
  - reflexivity.
  - apply open_dom_true.
  - intros o x x' H. f_equal. apply wsum_ext. intros p Hp. apply H. lia.
  - intros v _. rewrite reads_all by (try assumption; now rewrite inputs_length, map_length).
    eexists. split; [reflexivity|].
    destruct (linear_loop_spec (combine (inputs_of (repeat s (length l)) v) cs) (Nd s kf)) as [H1 H2].
    split; [exact H1|]. intros o _. rewrite H2. cbn [dat]. f_equal.
    rewrite inputs_arrays, <- Hcs. apply lcomb_wsum.
  - intros v y _ Hs Hd. unfold linear_meaning. splits; auto.
    + now rewrite inputs_length.
    + apply inputs_shapes.
    + intros idx Hi. unfold get at 1. rewrite Hs, Hd by now apply ravel_lt.
      rewrite Hkf by assumption. f_equal. rewrite inputs_arrays, <- Hcs. apply wsum_weighted.
  - intros v p _ Hp. destruct (nth_error cs p) as [kp|] eqn:E.
    + rewrite scalar_partials. eexists. split; [reflexivity|]. cbn [nnz rows cols vals]. splits; auto.
      intros o _. symmetry. now apply nth_error_nth.
    + apply nth_error_None in E. lia.
  - intros v p o _ Hp Ho.
    eapply derivable_pt_lim_eq with (l := 0 + nth p cs 0); [lra|].
    apply derivable_pt_lim_plus with (f1 := fun _ => kf o); [apply derivable_pt_lim_const|].
    pose proof (wsum_deriv cs 0 p (fun q => v q o)) as D. rewrite Nat.sub_0_r in D. apply D. lia.
Qed.

(** Fewer values than names: setup succeeds, compute always raises. *)
Theorem linear_direct_few : forall s names coeffs dict l n a,
  given names coeffs dict l -> NoDup (map fst l) -> (n < length l)%nat ->
  linear_direct s names coeffs dict None a = None /\
  exists c, linear_direct s names coeffs dict (Some n) a = Some c /\
    c_ins c = repeat s n /\ forall ins, c_compute c ins = None.
Proof.
  intros s names coeffs dict l n a HG HN Hn. unfold linear_direct.
  rewrite (processed_given _ _ _ _ HG). split; [reflexivity|].
  rewrite map_length, Nat.min_r by lia.
  assert (HF : NoDup (firstn n (map fst l))).
  { rewrite <- (firstn_skipn n (map fst l)) in HN. revert HN. generalize (firstn n (map fst l)).
    intros l1 HN. induction l1 as [|x l1 IH]; [constructor|]. inversion HN as [|? ? H1 H2]; subst.
    constructor; [|auto]. intros H. apply H1. apply in_or_app. now left. }
  assert (Hok : names_ok (firstn n (map fst l)) = true) by now apply names_ok_nodup.
  rewrite Hok. eexists. split; [reflexivity|].
  assert (Hlen : length (firstn n (map fst l)) = n) by (rewrite firstn_length, map_length; lia).
  cbn [c_ins c_compute]. rewrite Hlen. split; [reflexivity|]. intros ins.
  assert (E : exists nm k, In (nm, k) (combine (map fst l) (map snd l)) /\ ~ In nm (firstn n (map fst l))).
  { destruct (nth_error l n) as [[nm k]|] eqn:E; [|apply nth_error_None in E; lia].
    exists nm, k. assert (Ec : combine (map fst l) (map snd l) = l).
    { clear. induction l as [|[x y] l IH]; [reflexivity|]. cbn [map combine fst snd]. now rewrite IH. }
    rewrite Ec. split; [now apply nth_error_In in E|]. intros HI.
    assert (E' : nth_error (map fst l) n = Some nm) by (rewrite nth_error_map, E; reflexivity).
    apply In_nth_error in HI. destruct HI as [j Hj].
    assert (Hlt : (j < n)%nat). { rewrite <- Hlen. apply nth_error_Some. congruence. }
    assert (Ej : nth_error (map fst l) j = Some nm).
    { rewrite <- (firstn_skipn n (map fst l)). rewrite nth_error_app1; [assumption|lia]. }
    assert (j = n). { eapply NoDup_nth_error; [exact HN| |congruence]. rewrite map_length. lia. }
    lia. }
  destruct E as (nm & k & HI & HI'). rewrite (reads_none _ _ _ _ nm k HI HI').
  now destruct (assign_output s a).
Qed.

(** Names without a coefficient are left out without an error. *)
Theorem linear_direct_short : forall s l cs vals a, (length cs <= length l)%nat ->
  linear_direct s (NList l) (SList cs) [] vals a =
  linear_direct s (NList (firstn (length cs) l)) (SList cs) [] vals a.
Proof.
  intros s l cs [n|] a H; unfold linear_direct; cbn [processed get_names_list get_scalars_list]; [|reflexivity].
  rewrite firstn_firstn. replace (Nat.min (Nat.min (length cs) n) (length cs)) with (Nat.min (length cs) n) by lia.
  now rewrite firstn_combine_l.
Qed.

(** ---- products of powers ---- *)

Lemma arrays_length : forall s v q n, length (arrays s v q n) = n.
Proof. intros. unfold arrays. now rewrite map_length, seq_length. Qed.

Lemma deriv_named_absent : forall s me names v row q d, shp d = s -> row_smooth s v q row ->
  ~ In me names ->
  exists y, deriv_named me d (combine names (combine (arrays s v q (length row)) row)) = Some y /\ shp y = s /\
    forall o, (o < size s)%nat ->
      dat y o = dat d o * gprod (fun p => v p o) q (firstn (length names) row).
Proof.
  intros s me. induction names as [|nm names IH]; intros v row q d Hd HR HN.
  - exists d. splits; auto. intros. cbn. lra.
  - destruct row as [|p row].
    + exists d. splits; auto. intros. cbn. lra.
    + apply row_smooth_cons in HR. destruct HR as [Hp HR].
      unfold arrays in *. cbn [length seq map combine deriv_named firstn].
      destruct (Nat.eqb_spec me nm) as [->|_]; [exfalso; apply HN; now left|].
      rewrite np_power_ok by (intros j Hj; cbn [shp dat] in *; apply pow_dom_defined; auto).
      destruct (inplace_mul_same d (np_map (fun t => 1 * t) (np_map (fun t => np_pow t p) (Nd s (v q)))) s Hd eq_refl)
        as (r & -> & Hr & Hrd).
      destruct (IH v row (S q) r Hr HR) as (y & E & Hy & Hyd); [intros H; apply HN; now right|].
      exists y. splits; auto. intros o Ho. rewrite Hyd, Hrd by assumption.
      cbn [np_map dat gprod]. ring.
Qed.

Lemma deriv_named_spec : forall s me names v row q d, shp d = s -> row_smooth s v q row ->
  NoDup names -> length names = length row -> (me < length names)%nat ->
  exists y, deriv_named (nth me names 0%nat) d (combine names (combine (arrays s v q (length row)) row)) = Some y /\
    shp y = s /\
    forall o, (o < size s)%nat -> dat y o = dat d o * gdiff (fun p => v p o) (q + me) q row.
Proof.
  intros s. induction me as [|me IH]; intros names v row q d Hd HR HN HL Hme;
    (destruct names as [|nm names]; [cbn in Hme; lia|]); (destruct row as [|p row]; [discriminate|]);
    apply NoDup_cons_iff in HN; destruct HN as [H1 H2];
    apply row_smooth_cons in HR; destruct HR as [Hp HR].
  - pose proof (deriv_named_absent s nm names v row (S q)) as A.
    unfold arrays in *. cbn [nth length seq map combine deriv_named]. rewrite Nat.eqb_refl.
    rewrite np_power_ok by (intros j Hj; cbn [shp dat] in *; now apply pow_dom_defined; auto).
    destruct (inplace_mul_same d (np_map (fun t => expo_val p * t) (np_map (fun t => np_pow t (expo_pred p)) (Nd s (v q)))) s Hd eq_refl)
      as (r & -> & Hr & Hrd).
    destruct (A r Hr HR H1) as (y & E & Hy & Hyd). exists y. splits; auto.
    intros o Ho. rewrite Hyd, Hrd by assumption. cbn [np_map dat gdiff].
    rewrite Nat.add_0_r, Nat.eqb_refl, gdiff_before by lia.
    rewrite firstn_all2 by (cbn in HL; lia). ring.
  - unfold arrays in *. cbn [nth length seq map combine deriv_named].
    destruct (Nat.eqb_spec (nth me names 0%nat) nm) as [E|_].
    { exfalso. apply H1. rewrite <- E. apply nth_In. cbn in Hme. lia. }
    rewrite np_power_ok by (intros j Hj; cbn [shp dat] in *; apply pow_dom_defined; auto).
    destruct (inplace_mul_same d (np_map (fun t => 1 * t) (np_map (fun t => np_pow t p) (Nd s (v q)))) s Hd eq_refl)
      as (r & -> & Hr & Hrd).
    destruct (IH names v row (S q) r Hr HR H2) as (y & E & Hy & Hyd); [cbn in HL; lia|cbn in Hme; lia|].
    exists y. splits; auto. intros o Ho. rewrite Hyd, Hrd by assumption.
    cbn [np_map dat gdiff]. destruct (Nat.eqb_spec (q + S me) q); [lia|].
    replace (q + S me)%nat with (S q + me)%nat by lia. ring.
Qed.

Lemma power_loop_row : forall s v row q acc, shp acc = s -> row_defined s v q row ->
  exists y, power_loop acc (combine (arrays s v q (length row)) row) = Some y /\ shp y = s /\
    forall o, (o < size s)%nat -> dat y o = dat acc o * gprod (fun p => v p o) q row.
Proof.
  intros s v. induction row as [|p row IH]; intros q acc Ha HR.
  - exists acc. splits; auto. intros. cbn. lra.
  - apply row_defined_cons in HR. destruct HR as [Hd HR].
    unfold arrays in *. cbn [length seq map combine power_loop].
    rewrite no_exit by exact Hd. rewrite np_power_ok by exact Hd.
    destruct (inplace_mul_same acc (np_map (fun t => np_pow t p) (Nd s (v q))) s Ha eq_refl) as (r & -> & Hs & Hr).
    destruct (IH (S q) r Hs HR) as (y & E & Hy & Hyd). exists y. splits; auto.
    intros o Ho. rewrite Hyd, Hr by assumption. cbn [np_map dat gprod]. ring.
Qed.

Lemma powers_row_smooth : forall s ps v, powers_smooth s ps v -> row_smooth s v 0 (map expo_of ps).
Proof.
  intros s ps v H j o Hj Ho. rewrite map_length in Hj.
  rewrite nth_indep with (d' := expo_of 0) by now rewrite map_length.
  rewrite map_nth. apply pow_dom_of. now apply H.
Qed.

Lemma powers_smooth_open : forall s ps, open_dom (repeat s (length ps)) (powers_smooth s ps).
Proof.
  intros s ps.
  pose proof (open_dom_each (repeat s (length ps)) (length ps) (size s)
    (fun q x => power_dom (nth q ps 0) x)) as H.
  exact (H (fun q => power_dom_open _)).
Qed.

Lemma power_factors : forall s v idx ps q, inb s idx ->
  (forall j o, (j < length ps)%nat -> (o < size s)%nat -> power_dom (nth j ps 0) (v (q + j)%nat o)) ->
  exists fs, Forall2 (fun e f => power_rel (fst e) (snd e) f)
      (combine ps (map (fun x => get x idx) (arrays s v q (length ps)))) fs /\
    gprod (fun p => v p (ravel s idx)) q (map expo_of ps) = product fs.
Proof.
  intros s v idx ps. induction ps as [|p ps IH]; intros q Hi H.
  - exists []. split; [constructor|reflexivity].
  - destruct (IH (S q) Hi) as (fs & HF & E).
    { intros j o Hj Ho. specialize (H (S j) o). cbn [length nth] in H.
      replace (q + S j)%nat with (S q + j)%nat in H by lia. apply H; [lia|assumption]. }
    exists (np_pow (v q (ravel s idx)) (expo_of p) :: fs).
    unfold arrays in *. cbn [length seq map combine gprod]. split.
    + constructor; [|exact HF]. cbn [fst snd get shp dat]. unfold get. cbn [shp dat].
      apply power_rel_ok. specialize (H 0%nat (ravel s idx)). cbn [length nth] in H.
      rewrite Nat.add_0_r in H. apply H; [lia|now apply ravel_lt].
    + unfold product in *. cbn [fold_right]. now rewrite E.
Qed.

Lemma all_declared : forall l, forallb (fun nm => existsb (Nat.eqb nm) l) l = true.
Proof. intros l. apply forallb_forall. intros x Hx. now apply existsb_in. Qed.

Theorem power_direct_correct : forall s names powers dict l n c0,
  given names powers dict l -> NoDup (map fst l) -> (length l <= n)%nat ->
  exists c, power_direct s names powers dict (Some n) c0 = Some c /\
    c_ins c = repeat s (length l) /\ c_out c = s /\
    correct_within (powers_smooth s (map snd l)) c (power_meaning s c0 (map snd l)).
Proof.
  intros s names powers dict l n c0 HG HN Hn. unfold power_direct.
  rewrite (processed_given _ _ _ _ HG).
  rewrite firstn_all2 by (rewrite map_length; lia).
  assert (Hok : names_ok (map fst l) = true) by now apply names_ok_nodup.
  rewrite Hok. rewrite map_length. eexists. split; [reflexivity|]. splits; auto.
  set (ps := map snd l). assert (Hps : length ps = length l) by apply map_length.
  assert (He : length (map expo_of ps) = length l) by (rewrite map_length; exact Hps).
  assert (Hnm : length (map fst l) = length l) by apply map_length.
  apply elementwise_correct with (s := s) (n := length l)
    (G := fun o x => c0 * gprod x 0 (map expo_of ps))
    (D := fun v p o => c0 * gdiff (fun q => v q o) p 0 (map expo_of ps));
    cbn [c_ins c_out c_compute c_partials].
  - reflexivity.
  - reflexivity.
  - rewrite <- Hps. apply powers_smooth_open.
  - intros o x x' H. f_equal. apply gprod_ext. intros p Hp. apply H. lia.
  - intros v Hv. rewrite reads_all by (try assumption; now rewrite inputs_length, map_length).
    rewrite inputs_arrays. destruct (assign_scalar s c0) as (kf & -> & Hk).
    pose proof (power_loop_row s v (map expo_of ps) 0 (Nd s kf) eq_refl
      (row_smooth_defined _ _ _ _ (powers_row_smooth _ _ _ Hv))) as (y & E & Hy & Hyd).
    rewrite He in E. exists y. splits; auto. intros o Ho. rewrite Hyd by assumption. cbn [dat].
    now rewrite Hk.
  - intros v y Hv Hs Hd. unfold power_meaning. splits; auto.
    + now rewrite inputs_length.
    + apply inputs_shapes.
    + intros idx Hi. destruct (power_factors s v idx ps 0 Hi Hv) as (fs & HF & E).
      exists fs. rewrite inputs_arrays, <- Hps. split; [exact HF|].
      unfold get. rewrite Hs, Hd by now apply ravel_lt. now rewrite E.
  - intros v p Hv Hp. rewrite reads_all by (try assumption; now rewrite inputs_length, map_length).
    rewrite inputs_arrays, all_declared.
    destruct (np_bcast2_scalar Rmult c0 (Nd s (fun _ => 1))) as (d & -> & Hs & Hd). cbn [shp dat] in *.
    pose proof (deriv_named_spec s p (map fst l) v (map expo_of ps) 0 d Hs (powers_row_smooth _ _ _ Hv) HN)
      as (y & E & Hy & Hyd); [lia|lia|].
    rewrite He in E. rewrite E.
    rewrite as_sparse_diag by (cbn [np_flatten shp]; now rewrite Hy).
    eexists. split; [reflexivity|]. cbn [nnz rows cols vals np_flatten dat]. splits; auto.
    intros o Ho. rewrite Hyd, Hd by assumption. cbn [plus]. ring.
  - intros v p o Hv Hp Ho. apply derivable_pt_lim_scal.
    apply (gprod_deriv (map expo_of ps) 0 p (fun q => v q o)); [lia|].
    rewrite Nat.sub_0_r. apply (powers_row_smooth _ _ _ Hv); [lia|assumption].
Qed.
