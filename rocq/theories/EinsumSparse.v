(** Proofs about einsum with sparse derivatives. *)
From Coq Require Import Reals Lra Lia Arith List Bool.
From Verif Require Import PyBase RSum NdArray NdEinsum Component JacSpec CompReorder CompEinsum
  SpecEinsum EinsumStrings EinsumCalc EinsumProofs CompEinsumSparse EinsumPattern.
Import ListNotations.
Local Open Scope R_scope.

(** A matrix given by the rows of index pairs: the entry listed, or zero. *)
Lemma coo_listed : forall so s (U : list (list nat)) (val : list nat -> R) o c,
  NoDup U -> (forall r, In r U -> exists a b, inb so a /\ inb s b /\ r = a ++ b) ->
  (o < size so)%nat -> (c < size s)%nat ->
  coo_entry (Coo (length U) (fun k => ravel so (firstn (length (nth k U []) - length s) (nth k U [])))
                 (fun k => ravel s (skipn (length (nth k U []) - length s) (nth k U [])))
                 (fun k => val (nth k U []))) o c =
  if in_dec (list_eq_dec Nat.eq_dec) (unravel so o ++ unravel s c) U
  then val (unravel so o ++ unravel s c) else 0.
Proof.
  intros so s U val o c Hn Hu Ho Hc. unfold coo_entry. cbn [nnz rows cols vals].
  assert (Hk : forall k, (k < length U)%nat ->
    Nat.eqb (ravel so (firstn (length (nth k U []) - length s) (nth k U []))) o &&
    Nat.eqb (ravel s (skipn (length (nth k U []) - length s) (nth k U []))) c = true <->
    nth k U [] = unravel so o ++ unravel s c).
  { intros k Hk. destruct (Hu (nth k U []) (nth_In _ _ Hk)) as (a & b & Ha & Hb & E).
    rewrite E. pose proof (inb_length _ _ Ha) as Hla. pose proof (inb_length _ _ Hb) as Hlb.
    rewrite app_length. replace (length a + length b - length s)%nat with (length a) by lia.
    rewrite firstn_app, skipn_app, Nat.sub_diag, firstn_O, skipn_O, app_nil_r.
    rewrite firstn_all, skipn_all. cbn [app].
    rewrite andb_true_iff, !Nat.eqb_eq. split.
    - intros [<- <-]. now rewrite !unravel_ravel.
    - intros H. apply app_inj_tail_iff in H || idtac.
      assert (Hab : a = unravel so o /\ b = unravel s c).
      { clear - H Hla Hlb. pose proof (unravel_length so o) as L. revert H. revert L.
        generalize (unravel so o) as x. rewrite <- Hla. generalize (unravel s c). clear.
        induction a as [|y a IH]; intros z [|x xs] L H; cbn in *; try discriminate; [auto|].
        injection H as -> H. injection L as L. destruct (IH _ _ L H). subst. auto. }
      destruct Hab as [-> ->]. rewrite !ravel_unravel by assumption. auto. }
  destruct (in_dec _ _ _) as [Hin|Hin].
  - destruct (In_nth U _ [] Hin) as (k0 & Hk0 & E0).
    rewrite (rsum_single _ _ k0 Hk0).
    + rewrite (proj2 (Hk k0 Hk0) E0). now rewrite E0.
    + intros k Hlt Hne.
      destruct (Nat.eqb _ o && Nat.eqb _ c) eqn:E; [|reflexivity].
      apply Hk in E; [|assumption]. exfalso. apply Hne.
      eapply (proj1 (NoDup_nth U [])); eauto. congruence.
  - apply rsum_zero. intros k Hlt.
    destruct (Nat.eqb _ o && Nat.eqb _ c) eqn:E; [|reflexivity].
    apply Hk in E; [|assumption]. exfalso. apply Hin. rewrite <- E. now apply nth_In.
Qed.

Lemma listed_pattern_ok : forall so s (U : list (list nat)) vs,
  NoDup U -> (forall r, In r U -> exists a b, inb so a /\ inb s b /\ r = a ++ b) ->
  coo_pattern_ok (size so) (size s)
    (Coo (length U) (fun k => ravel so (firstn (length (nth k U []) - length s) (nth k U [])))
         (fun k => ravel s (skipn (length (nth k U []) - length s) (nth k U []))) vs).
Proof.
  intros so s U vs Hn Hu.
  assert (Hk : forall k, (k < length U)%nat -> exists a b, inb so a /\ inb s b /\
    nth k U [] = a ++ b /\
    ravel so (firstn (length (nth k U []) - length s) (nth k U [])) = ravel so a /\
    ravel s (skipn (length (nth k U []) - length s) (nth k U [])) = ravel s b).
  { intros k Hk. destruct (Hu (nth k U []) (nth_In _ _ Hk)) as (a & b & Ha & Hb & E).
    exists a, b. rewrite E. pose proof (inb_length _ _ Hb) as Hlb.
    rewrite app_length. replace (length a + length b - length s)%nat with (length a) by lia.
    rewrite firstn_app, skipn_app, Nat.sub_diag, firstn_O, skipn_O, app_nil_r.
    rewrite firstn_all, skipn_all. cbn [app]. auto. }
  split; cbn [nnz rows cols].
  - intros k Hlt. destruct (Hk k Hlt) as (a & b & Ha & Hb & _ & -> & ->).
    split; now apply ravel_lt.
  - intros k k' Hlt Hlt'. destruct (Hk k Hlt) as (a & b & Ha & Hb & E & -> & ->).
    destruct (Hk k' Hlt') as (a' & b' & Ha' & Hb' & E' & -> & ->).
    intros E1 E2. apply ravel_inj in E1; try assumption. apply ravel_inj in E2; try assumption.
    subst. eapply (proj1 (NoDup_nth U [])); eauto. congruence.
Qed.

Section Sparse.
Variables (op : list nat) (subs : list (list nat)) (out : list nat) (ext : nat -> nat)
          (ds rs : list nat).
Let names := ds ++ rs.
Let shapes := map (map ext) subs.
Let n := length names.
Hypothesis Hparse : np_subscripts op = Some (subs, out).
Hypothesis Hlen : length subs = length names.
Hypothesis Hds : NoDup ds.
Hypothesis Hrs : incl rs ds.
Hypothesis Hsame : forall j j', (j < n)%nat -> (j' < n)%nat ->
  nth j names 0%nat = nth j' names 0%nat ->
  map ext (nth j subs []) = map ext (nth j' subs []).
Hypothesis Hno : NoDup out.
Hypothesis Ho : forall l, In l out -> In l (concat subs).
Hypothesis Hrank : forall r, In r subs -> (length r <= length (unused_chars op))%nat.
Hypothesis Hext : forall l, In l (concat subs) -> (0 < ext l)%nat.

Let ishp q := map ext (nth q subs []).

(** The pairs of indices in the pattern of operand [q]. *)
Definition listed (q : nat) (r : list nat) : Prop :=
  r = repeat 0%nat (length out + length (ishp q)) \/
  exists i o c, (i < n)%nat /\ nth i names 0%nat = nth q ds 0%nat /\
    inb (map ext out) o /\ inb (ishp q) c /\ r = o ++ c /\
    forall j, (j < length out)%nat -> In (nth j out 0%nat) (nth i subs []) ->
      nth j o 0%nat = nth (find_pos (nth i subs []) (nth j out 0%nat)) c 0%nat.

Lemma in_locations : forall m i, In i (locations names m) <-> (i < n)%nat /\ nth i names 0%nat = m.
Proof.
  intros m i. unfold locations. rewrite filter_In, in_seq, Nat.eqb_eq. fold n. split; intros [H1 H2]; split; auto; lia.
Qed.

Lemma ds_nth : forall q, (q < length ds)%nat -> nth q names 0%nat = nth q ds 0%nat /\ (q < n)%nat.
Proof.
  intros q Hq. split; [unfold names; now apply app_nth1|]. unfold n, names. rewrite app_length. lia.
Qed.

Lemma subs_In : forall j, (j < n)%nat -> In (nth j subs []) subs.
Proof. intros j Hj. apply nth_In. rewrite Hlen. exact Hj. Qed.

Lemma ishp_pos : forall q, (q < n)%nat -> inb (ishp q) (repeat 0%nat (length (ishp q))).
Proof.
  intros q Hq. unfold ishp.
  assert (G : forall ls, (forall l, In l ls -> In l (concat subs)) ->
             inb (map ext ls) (repeat 0%nat (length (map ext ls)))).
  { induction ls as [|l ls IH]; intros H; cbn; [auto|]. split; [apply Hext, H; now left|].
    apply IH. intros; apply H; now right. }
  apply G. intros l Hl. apply in_concat. exists (nth q subs []). split; [now apply subs_In|assumption].
Qed.

Lemma out_pos : inb (map ext out) (repeat 0%nat (length out)).
Proof.
  assert (G : forall ls, (forall l, In l ls -> In l (concat subs)) ->
             inb (map ext ls) (repeat 0%nat (length ls))).
  { induction ls as [|l ls IH]; intros H; cbn; [auto|]. split; [apply Hext, H; now left|].
    apply IH. intros; apply H; now right. }
  now apply G.
Qed.

Lemma listed_inb : forall q r, (q < length ds)%nat -> listed q r ->
  exists o c, inb (map ext out) o /\ inb (ishp q) c /\ r = o ++ c.
Proof.
  intros q r Hq [->|(i & o & c & _ & _ & H1 & H2 & H3 & _)]; [|eauto].
  rewrite repeat_app. eexists _, _. splits; [exact out_pos| |reflexivity].
  apply ishp_pos. now apply ds_nth.
Qed.

Definition keepsb (q : nat) : bool :=
  forallb (fun i => match surviving (nth i (subs ++ [out]) []) out with [] => false | _ => true end)
          (locations names (nth q ds 0%nat)).

Lemma keepsb_true : forall q, keepsb q = true <-> keeps subs out names (nth q ds 0%nat).
Proof.
  intros q. unfold keepsb, keeps. rewrite forallb_forall. split.
  - intros H j Hj E. specialize (H j (proj2 (in_locations _ _) (conj Hj E))).
    rewrite app_nth1 in H by (rewrite Hlen; exact Hj).
    destruct (surviving (nth j subs []) out) as [|k l] eqn:Es; [discriminate|].
    assert (Hk : In k (surviving (nth j subs []) out)) by (rewrite Es; now left).
    unfold surviving in Hk. apply in_flat_map in Hk. destruct Hk as (x & Hx & Hm).
    destruct (mem x out) eqn:Em; [|destruct Hm]. apply mem_In in Em. eauto.
  - intros H i Hi. apply in_locations in Hi. destruct Hi as [Hi E].
    rewrite app_nth1 by (rewrite Hlen; exact Hi).
    destruct (surviving (nth i subs []) out) eqn:Es; [|reflexivity].
    rewrite surviving_nil in Es. destruct (H i Hi E) as (l & H1 & H2). exfalso. eapply Es; eauto.
Qed.

Lemma pattern_call : forall q, (q < length ds)%nat ->
  exists pat, sparse_pattern op names shapes (result_shape ext out) q = Some pat /\
    (keepsb q = false -> pat = None) /\
    (keepsb q = true -> exists U, pat = Some U /\ NoDup U /\ forall r, In r U <-> listed q r).
Proof.
  intros q Hq. unfold sparse_pattern. rewrite (tolist_is_parse _ _ _ Hparse).
  unfold names. rewrite (names_distinct ds rs Hds Hrs), last_last. fold names.
  change (forallb _ (locations names (nth q ds 0%nat))) with (keepsb q).
  destruct (keepsb q) eqn:Ek.
  2:{ exists None. splits; [reflexivity|reflexivity|discriminate]. }
  destruct (ds_nth q Hq) as [Enq Hqn].
  assert (Ef : find_pos names (nth q ds 0%nat) = q) by exact (first_prefix ds rs Hds q Hq).
  rewrite Ef. rewrite (app_nth1 subs [out] [] (n := q)) by (rewrite Hlen; exact Hqn).
  rewrite <- Enq. unfold names, shapes.
  rewrite (shape_named subs ext ds rs Hsame q Hqn). fold names. rewrite Enq. fold (ishp q).
  assert (El : length (ishp q) = length (nth q subs [])) by (unfold ishp; now rewrite map_length).
  rewrite (proj2 (Nat.eqb_eq _ _) (eq_sym El)).
  assert (Er : Nat.leb (length (nth q subs [])) (length (unused_chars op)) = true).
  { apply Nat.leb_le. apply Hrank. now apply subs_In. }
  rewrite Er. cbn [andb].
  pose proof (proj1 (keepsb_true q) Ek) as Hkeep.
  destruct (Hkeep q Hqn Enq) as (l0 & Hl0 & Hl0').
  assert (Hout : result_shape ext out = map ext out) by (destruct out; [destruct Hl0'|reflexivity]).
  rewrite Hout.
  assert (Hspos : (0 < length (ishp q))%nat).
  { rewrite El. destruct (nth q subs []); [destruct Hl0|cbn; lia]. }
  set (m := (length out + length (ishp q))%nat).
  set (pl := fun i => place_columns (nth i (subs ++ [out]) []) out (ishp q) (map ext out)).
  assert (Hpl : forall i, In i (locations names (nth q ds 0%nat)) ->
            nth i (subs ++ [out]) [] = nth i subs [] /\ ishp q = map ext (nth i subs [])).
  { intros i Hi. apply in_locations in Hi. destruct Hi as [Hi Ei]. split.
    - apply app_nth1. rewrite Hlen. exact Hi.
    - unfold ishp. apply Hsame; [assumption|assumption|]. congruence. }
  set (rws := unique_rows _).
  assert (Hin : forall r, In r rws <-> listed q r).
  { intros r. unfold rws. rewrite unique_rows_In.
    change (fun acc i => append_columns acc (place_columns (nth i (subs ++ [out]) []) out (ishp q) (map ext out)))
      with (fun acc i => append_columns acc (pl i)).
    rewrite (fold_rows pl m) with (L := 1%nat).
    - rewrite rows_of_zeros by (unfold m; lia). unfold listed. fold m. split.
      + intros [H|(i & Hi & H)]; [now left|]. right.
        destruct (Hpl i Hi) as [E1 E2]. unfold pl in H. rewrite E1 in H.
        rewrite (place_rows ext (nth i subs []) out (ishp q) E2 Hno Hspos) in H.
        destruct H as (o & c & H1 & H2 & H3 & H4). apply in_locations in Hi.
        exists i, o, c. splits; tauto.
      + intros [H|(i & o & c & Hi & Ei & H1 & H2 & H3 & H4)]; [now left|]. right.
        assert (Hil : In i (locations names (nth q ds 0%nat))) by now apply in_locations.
        exists i. split; [assumption|]. destruct (Hpl i Hil) as [E1 E2]. unfold pl. rewrite E1.
        rewrite (place_rows ext (nth i subs []) out (ishp q) E2 Hno Hspos). eauto 6.
    - unfold m. lia.
    - intros i Hi. destruct (Hpl i Hi) as [E1 E2]. unfold pl. rewrite E1. split.
      + exact (place_length ext (nth i subs []) out (ishp q) Hno).
      + eexists. exact (place_uniform ext (nth i subs []) out (ishp q) E2 Hno).
    - apply repeat_length.
    - intros c Hc. apply repeat_spec in Hc. now subst. }
  assert (Hb : forallb (inbb (map ext out ++ ishp q)) rws = true).
  { apply forallb_forall. intros r Hr. apply Hin in Hr.
    destruct (listed_inb q r Hq Hr) as (o & c & H1 & H2 & ->).
    apply inbb_inb. apply inb_app; [now apply inb_length|auto]. }
  rewrite Hb. exists (Some rws). splits; [reflexivity|discriminate|].
  intros _. exists rws. splits; [reflexivity|apply unique_rows_NoDup|assumption].
Qed.

(** The value outside the pattern is zero. *)
Lemma D_outside : forall v q o c i, (q < length ds)%nat -> (i < n)%nat ->
  nth i names 0%nat = nth q ds 0%nat ->
  (o < size (map ext out))%nat -> (c < size (ishp q))%nat ->
  ~ listed q (unravel (map ext out) o ++ unravel (ishp q) c) ->
  D subs out ext ds rs v i o c = 0.
Proof.
  intros v q o c i Hq Hi Ei Hlo Hlc Hnl. unfold D. apply rsum_zero. intros k Hk. cbv zeta.
  set (e := env_at ext out (ss subs out) o k).
  apply rprod_zero with (j := i); [exact Hi|]. rewrite Nat.eqb_refl.
  destruct (Nat.eqb_spec (ravel (map ext (nth i subs [])) (map e (nth i subs []))) c) as [Ec|];
    [|reflexivity].
  exfalso. apply Hnl. right. destruct (ds_nth q Hq) as [Enq Hqn].
  assert (Es : ishp q = map ext (nth i subs [])) by (unfold ishp; apply Hsame; auto; congruence).
  assert (Hss : forall l, In l (ss subs out) <-> In l (concat subs) /\ ~ In l out).
  { intros l. unfold ss. rewrite filter_In, negb_true_iff, mem_not_In. now rewrite dedup_In. }
  assert (Hnss : NoDup (ss subs out)) by (apply NoDup_filter, dedup_NoDup).
  assert (Hin : inb (map ext (nth i subs [])) (map e (nth i subs []))).
  { apply inb_map_ext. intros l Hl. apply env_at_lt; auto.
    - intros l' Hl'. now apply Hss in Hl'.
    - assert (Hc : In l (concat subs)).
      { apply in_concat. exists (nth i subs []). split; [now apply subs_In|assumption]. }
      destruct (in_dec Nat.eq_dec l out); [now left|right]. now apply Hss. }
  exists i, (unravel (map ext out) o), (unravel (ishp q) c).
  splits; try assumption.
  - now apply unravel_inb.
  - now apply unravel_inb.
  - reflexivity.
  - intros j Hj Hl. rewrite Es, <- Ec, unravel_ravel by assumption.
    rewrite <- (env_at_out ext out (ss subs out) o k Hno). fold e.
    rewrite (nth_indep (map e out) 0%nat (e 0%nat)) by now rewrite map_length.
    rewrite map_nth.
    rewrite (nth_indep (map e (nth i subs [])) 0%nat (e 0%nat))
      by (rewrite map_length; now apply find_pos_lt).
    rewrite map_nth. now rewrite nth_find_pos.
Qed.

Lemma full_call : forall v q, (q < length ds)%nat ->
  exists y, full_partial op names shapes (inputs_of (in_shapes subs ext ds rs) v) q = Some y /\
    shp y = map ext out ++ ishp q /\
    forall o c, (o < size (map ext out))%nat -> (c < size (ishp q))%nat ->
      dat y (o * size (ishp q) + c)%nat =
      lsum (locations names (nth q ds 0%nat)) (fun i => D subs out ext ds rs v i o c).
Proof.
  intros v q Hq. destruct (ds_nth q Hq) as [Enq Hqn].
  unfold full_partial. unfold names. rewrite (names_distinct ds rs Hds Hrs). 
  rewrite (first_prefix ds rs Hds q Hq). fold names.
  rewrite (tolist_is_parse _ _ _ Hparse). rewrite app_nth1 by (rewrite Hlen; exact Hqn).
  set (m := nth q ds 0%nat) in *.
  assert (Es : shape_of_name names shapes m = ishp q).
  { rewrite <- Enq. exact (shape_named subs ext ds rs Hsame q Hqn). }
  set (ids := map (fun m => identity_tensor (shape_of_name names shapes m)) ds).
  assert (Eid : nth_error ids q = Some (identity_tensor (ishp q))).
  { unfold ids. rewrite nth_error_map, (nth_error_nth' ds 0%nat Hq). cbn [option_map].
    fold m. now rewrite Es. }
  rewrite !Eid.
  pose proof (deriv_call_shape op subs out ext ds rs Hparse Hlen Hds Hrs Hsame Hno Ho Hrank v)
    as Hcall.
  destruct (Hcall q Hqn) as (y0 & E0 & Hs0 & Hd0). fold names in E0. fold (ishp q) in E0, Hs0, Hd0.
  rewrite E0.
  assert (Hm : In m names) by (rewrite <- Enq; now apply nth_In).
  destruct (locations_head names m Hm) as [tl_ Etl].
  assert (Ef : find_pos names m = q) by exact (first_prefix ds rs Hds q Hq).
  rewrite Ef in Etl. rewrite Etl. cbn [tl].
  assert (Hloc : forall i, In i tl_ -> (i < n)%nat /\ nth i names 0%nat = m).
  { intros i Hi. apply in_locations. rewrite Etl. now right. }
  clear Etl E0.
  assert (G : forall l y, (forall i, In i l -> (i < n)%nat /\ nth i names 0%nat = m) ->
    shp y = map ext out ++ ishp q ->
    exists y', fold_left (fun acc i => add_same acc
                 (deriv_einsum op names (inputs_of (in_shapes subs ext ds rs) v) i (length (nth q subs []))
                    (identity_tensor (ishp q)))) l (Some y) = Some y' /\
      shp y' = map ext out ++ ishp q /\
      forall o c, (o < size (map ext out))%nat -> (c < size (ishp q))%nat ->
        dat y' (o * size (ishp q) + c)%nat =
        dat y (o * size (ishp q) + c)%nat + lsum l (fun i => D subs out ext ds rs v i o c)).
  { induction l as [|i l IH]; intros y Hl Hy.
    - exists y. cbn [fold_left]. splits; try assumption; try reflexivity. intros. cbn. ring.
    - destruct (Hl i ltac:(now left)) as [Hin Him].
      assert (Ei : nth i names 0%nat = nth q names 0%nat) by congruence.
      pose proof (Hsame i q Hin Hqn Ei) as Eshape.
      pose proof (same_rank subs ext ds rs Hlen Hsame i q Hin Hqn Ei) as Er.
      destruct (Hcall i Hin) as (yi & Ei' & Hsi & Hdi). fold names in Ei'.
      rewrite Eshape, <- Er in *. fold (ishp q) in Ei', Hsi, Hdi.
      cbn [fold_left]. rewrite Ei'. cbn [add_same]. rewrite Hy, Hsi.
      destruct (list_eq_dec Nat.eq_dec _ _) as [_|Hne]; [|congruence].
      destruct (IH (np_map2 Rplus y yi)) as (y' & E' & Hs' & Hd').
      + intros i' Hi'. apply Hl. now right.
      + cbn [np_map2 shp]. exact Hy.
      + exists y'. splits; try assumption.
        intros o c Hlo Hlc. rewrite Hd' by assumption. cbn [np_map2 dat].
        rewrite Hdi by assumption. cbn [lsum fold_right]. fold (lsum l (fun i => D subs out ext ds rs v i o c)). ring. }
  destruct (G tl_ y0 Hloc Hs0) as (y' & E' & Hs' & Hd').
  exists y'. splits; try assumption.
  intros o c Hlo Hlc. rewrite Hd', Hd0 by assumption. reflexivity.
Qed.

Hypothesis Horder : forall q q', (q < q')%nat -> (q' < length ds)%nat ->
  keeps subs out names (nth q' ds 0%nat) -> keeps subs out names (nth q ds 0%nat).

Lemma indices_prefix : forall (pats : list (option (list (list nat)))) q U,
  nth_error pats q = Some (Some U) ->
  (forall p, (p < q)%nat -> exists V, nth_error pats p = Some (Some V)) ->
  nth_error (indices_list pats) q = Some U.
Proof.
  induction pats as [|x pats IH]; intros q U Hq Hp; [destruct q; discriminate|].
  destruct q as [|q].
  - cbn in Hq. inversion Hq; subst. reflexivity.
  - destruct (Hp 0%nat ltac:(lia)) as [V HV]. cbn in HV. inversion HV; subst.
    unfold indices_list. cbn [flat_map app nth_error]. fold (indices_list pats).
    apply IH; [exact Hq|]. intros p Hlt. apply (Hp (S p)). lia.
Qed.

Theorem einsum_sparse_lemma :
  exists c, einsum_sparse_comp op names shapes = Some c /\ c_ins c = firstn (length ds) shapes /\
    c_out c = result_shape ext out /\
    correct c (einsum_meaning subs out ext ds names).
Proof.
  destruct (einsum_prefix_lemma op subs out ext ds rs Hparse Hlen Hds Hrs Hsame Hno Ho Hrank)
    as (c0 & E0 & Hci & Hco & Fd & Hval & _).
  fold names shapes in E0, Hval. unfold einsum_comp in E0.
  unfold einsum_sparse_comp. rewrite (tolist_is_parse _ _ _ Hparse) in *.
  unfold shapes at 1 in E0. unfold shapes at 1.
  rewrite (einsum_shape_right ext subs out Ho) in *.
  assert (Ed : distinct names = ds) by now apply names_distinct.
  rewrite Ed in *.
  destruct (map_opt_exists _ _ (sparse_pattern op names shapes (result_shape ext out))
              (seq 0 (length ds))) as (pats & Ep & Hlp & Hnp).
  { intros q Hq. apply in_seq in Hq. destruct (pattern_call q ltac:(lia)) as (p & Hp & _). eauto. }
  rewrite Ep. inversion E0; subst c0. clear E0. cbn [c_ins c_out c_compute] in *.
  eexists. split; [reflexivity|]. split; [exact Hci|]. split; [reflexivity|].
  assert (Hpat : forall q, (q < length ds)%nat ->
            nth_error pats q = sparse_pattern op names shapes (result_shape ext out) q).
  { intros q Hq. apply Hnp. rewrite (nth_error_nth' _ 0%nat) by now rewrite seq_length.
    now rewrite seq_nth. }
  assert (Eins : map (shape_of_name names shapes) ds = in_shapes subs ext ds rs) by reflexivity.
  apply correct_intro with (F := F subs out ext ds rs).
  - intros v. cbn [c_compute c_ins c_out]. destruct (Hval v) as [Hv1 Hv2].
    eexists. split; [exact Hv1|]. splits; [reflexivity|exact Hv2|].
    intros o Hlt. cbn [dat]. rewrite Eins in Hv1.
    unfold names in Hv1.
    rewrite (inputs_eq subs ext ds rs Hlen Hds Hrs Hsame v) in Hv1.
    rewrite (einsum_call op subs out ext ds rs Hparse Hlen Hno Ho v) in Hv1.
    unfold assign_output in Hv1.
    rewrite (einsum_shape ext _ out (ops_conf subs ext ds rs Hlen v) (ops_out subs out ext ds rs Hlen Ho v)) in Hv1.
    rewrite result_size, Nat.eqb_refl in Hv1. inversion Hv1 as [Hv3].
    exact (value_dat subs out ext ds rs Hlen Ho v o).
  - intros v p _ Hp. cbn [c_partials c_ins c_out] in *. rewrite map_length in Hp.
    rewrite Eins.
    set (ins := inputs_of (in_shapes subs ext ds rs) v).
    assert (Eshape : forall q, (q < length ds)%nat -> shape_of_name names shapes (nth q ds 0%nat) = ishp q).
    { intros q Hq. destruct (ds_nth q Hq) as [Enq Hqn]. rewrite <- Enq.
      exact (shape_named subs ext ds rs Hsame q Hqn). }
    assert (Hone : forall q, (q < length ds)%nat ->
      exists j, sparse_partial op names shapes (result_shape ext out) pats ins q = Some j /\
        exact_jac (size (result_shape ext out)) (size (ishp q))
          (fun x => F subs out ext ds rs (set_op v q x)) (v q) j).
    { intros q Hq. unfold sparse_partial. rewrite Ed, (Eshape q Hq).
      destruct (full_call v q Hq) as (y & Ey & Hsy & Hdy). fold ins in Ey. rewrite Ey.
      destruct (pattern_call q Hq) as (pat & Epat & Hpf & Hpt).
      rewrite (nth_error_nth pats q None (eq_trans (Hpat q Hq) Epat)).
      destruct (keepsb q) eqn:Ek.
      - destruct (Hpt eq_refl) as (U & -> & HU & HUin).
        pose proof (proj1 (keepsb_true q) Ek) as Hkeep.
        assert (Hprev : forall q', (q' < q)%nat -> exists V, nth_error pats q' = Some (Some V)).
        { intros q' Hq'. rewrite Hpat by lia.
          destruct (pattern_call q' ltac:(lia)) as (pat' & Ep' & _ & Ht').
          assert (Ek' : keepsb q' = true).
          { apply keepsb_true. eapply Horder; [exact Hq'|exact Hq|exact Hkeep]. }
          destruct (Ht' Ek') as (V & -> & _). eauto. }
        rewrite (indices_prefix pats q U (eq_trans (Hpat q Hq) Epat) Hprev).
        destruct (ds_nth q Hq) as [Enq Hqn]. destruct (Hkeep q Hqn Enq) as (l0 & _ & Hl0).
        assert (Hout : result_shape ext out = map ext out) by (destruct out; [destruct Hl0|reflexivity]).
        rewrite Hout.
        assert (HUb : forall r, In r U -> exists a b, inb (map ext out) a /\ inb (ishp q) b /\ r = a ++ b).
        { intros r Hr. apply HUin in Hr. exact (listed_inb q r Hq Hr). }
        unfold fancy_index. rewrite Hsy.
        assert (Hb : forallb (inbb (map ext out ++ ishp q)) U = true).
        { apply forallb_forall. intros r Hr. destruct (HUb r Hr) as (a & b & H1 & H2 & ->).
          apply inbb_inb. apply inb_app; [now apply inb_length|auto]. }
        rewrite Hb.
        rewrite (sparse_partials_vec (length U)) by reflexivity. cbn [option_map].
        eexists. split; [reflexivity|]. cbn [exact_jac flat_rows flat_cols dat].
        split; [now apply listed_pattern_ok|].
        intros o c Hlo Hlc.
        rewrite (coo_listed (map ext out) (ishp q) U (get y) o c HU HUb Hlo Hlc).
        apply partial_ext with (f := fun x => F subs out ext ds rs (set_op v q x) o)
          (l := lsum (locations names (nth q ds 0%nat)) (fun i => D subs out ext ds rs v i o c));
          [reflexivity| |exact (D_sum subs out ext ds rs Hds Hrs v q o c Hq)].
        destruct (in_dec _ _ _) as [Hin|Hin].
        + unfold get. rewrite Hsy, ravel_app by now rewrite unravel_length, map_length.
          rewrite !ravel_unravel by assumption. symmetry. now apply Hdy.
        + rewrite HUin in Hin. 
          assert (G : forall l, (forall i, In i l -> (i < n)%nat /\ nth i names 0%nat = nth q ds 0%nat) ->
                        lsum l (fun i => D subs out ext ds rs v i o c) = 0).
          { induction l as [|i l IH]; intros Hl; [reflexivity|]. cbn [lsum fold_right].
            fold (lsum l (fun i => D subs out ext ds rs v i o c)).
            destruct (Hl i ltac:(now left)) as [Hi Ei].
            rewrite (D_outside v q o c i Hq Hi Ei Hlo Hlc Hin), IH; [ring|].
            intros; apply Hl; now right. }
          apply G. intros i Hi. now apply in_locations.
      - rewrite (Hpf eq_refl). rewrite Hsy, size_app, result_size, Nat.eqb_refl.
        exists (Dense y). split; [reflexivity|]. cbn [exact_jac]. split.
        + now rewrite Hsy, size_app.
        + intros o c Hlo Hlc. unfold dense_entry. rewrite Hdy by assumption.
          exact (D_sum subs out ext ds rs Hds Hrs v q o c Hq). }
    destruct (map_opt_exists _ _ (sparse_partial op names shapes (result_shape ext out) pats ins)
                (seq 0 (length ds))) as (js & Ej & Hlj & Hnj).
    { intros q Hq. apply in_seq in Hq. destruct (Hone q ltac:(lia)) as (j & Hj & _). eauto. }
    rewrite Ej. destruct (Hone p Hp) as (j & Hj & Hex). exists j. split.
    + rewrite <- Hj. apply Hnj. rewrite (nth_error_nth' _ 0%nat) by now rewrite seq_length.
      now rewrite seq_nth.
    + rewrite (in_shapes_nth subs ext ds rs Hlen Hsame p Hp). exact Hex.
Qed.
End Sparse.
