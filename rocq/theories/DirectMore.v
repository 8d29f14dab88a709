(** Proofs about options that do not fit together, and about powers given as a
    matrix. *)
From Coq Require Import Reals Lra Lia Arith List Bool ZArith.
From Verif Require Import PyBase RSum NdArray Component JacSpec JacOpen CompReorder CompElem CompPoly
  SpecElem SpecExtremum ElemProofs ArithProofs SpecPoly PolyProofs CompDirect SpecDirect DirectProofs.
Import ListNotations.
Local Open Scope R_scope.

(** ---- fewer powers than names ---- *)

Lemma firstn_arrays : forall s v n q m, (m <= n)%nat -> firstn m (arrays s v q n) = arrays s v q m.
Proof.
  intros s v. induction n as [|n IH]; intros q m H.
  - replace m with 0%nat by lia. reflexivity.
  - destruct m as [|m]; [reflexivity|]. unfold arrays in *. cbn [seq map firstn]. rewrite IH by lia. reflexivity.
Qed.

Lemma combine_arrays : forall (A : Type) s v n q (row : list A), (length row <= n)%nat ->
  combine (arrays s v q n) row = combine (arrays s v q (length row)) row.
Proof.
  intros A s v n q row H. rewrite <- firstn_combine_l. now rewrite firstn_arrays.
Qed.

Lemma nodup_not_firstn : forall (l : list nat) m q, NoDup l -> (m <= q < length l)%nat ->
  ~ In (nth q l 0%nat) (firstn m l).
Proof.
  intros l m q HN Hq HI. apply In_nth_error in HI. destruct HI as [j Hj].
  assert (Hlt : (j < m)%nat).
  { assert (j < length (firstn m l))%nat by (apply nth_error_Some; congruence).
    rewrite firstn_length in *. lia. }
  assert (Ej : nth_error l j = Some (nth q l 0%nat)).
  { rewrite <- (firstn_skipn m l) at 1. rewrite nth_error_app1; [assumption|].
    rewrite firstn_length. lia. }
  assert (E : nth_error l q = Some (nth q l 0%nat)) by (apply nth_error_nth'; lia).
  assert (j = q). { eapply NoDup_nth_error; [exact HN|lia|congruence]. }
  lia.
Qed.

(** An input without a power does not change the output, and its partial is the
    output itself. *)
Theorem power_direct_short : forall s l ps n c0,
  NoDup l -> (length ps < length l <= n)%nat ->
  exists c, power_direct s (NList l) (SList ps) [] (Some n) c0 = Some c /\
    c_ins c = repeat s (length l) /\ c_out c = s /\
    forall v, powers_smooth s ps v ->
    exists y, c_compute c (inputs_of (c_ins c) v) = Some y /\
      power_meaning s c0 ps (firstn (length ps) (inputs_of (c_ins c) v)) y /\
      forall q, (length ps <= q < length l)%nat ->
      exists j, c_partials c (inputs_of (c_ins c) v) q = Some j /\
        forall o i, (o < size s)%nat -> (i < size s)%nat ->
          jac_entry (size s) j o i = if Nat.eqb o i then dat y o else 0.
Proof.
  intros s l ps n c0 HN Hn. unfold power_direct. cbn [processed get_names_list get_scalars_list].
  rewrite firstn_all2 by lia.
  assert (Hok : names_ok l = true) by now apply names_ok_nodup.
  rewrite Hok. eexists. split; [reflexivity|]. cbn [c_ins c_out c_compute c_partials]. splits; auto.
  intros v Hv. rewrite reads_all by (try assumption; now rewrite inputs_length).
  rewrite inputs_arrays. rewrite combine_arrays by (rewrite map_length; lia).
  destruct (assign_scalar s c0) as (kf & -> & Hk).
  pose proof (powers_row_smooth _ _ _ Hv) as HS.
  destruct (power_loop_row s v (map expo_of ps) 0 (Nd s kf) eq_refl (row_smooth_defined _ _ _ _ HS))
    as (y & E & Hy & Hyd).
  exists y. splits; auto.
  - unfold power_meaning. rewrite firstn_arrays by lia. splits; auto.
    + now rewrite arrays_length.
    + rewrite <- inputs_arrays. apply inputs_shapes.
    + intros idx Hi. destruct (power_factors s v idx ps 0 Hi Hv) as (fs & HF & Eg).
      exists fs. split; [exact HF|]. unfold get. rewrite Hy, Hyd by now apply ravel_lt. cbn [dat].
      rewrite Hk by now apply ravel_lt. now rewrite Eg.
  - intros q Hq. rewrite all_declared.
    destruct (np_bcast2_scalar Rmult c0 (Nd s (fun _ => 1))) as (d & -> & Hs & Hd). cbn [shp dat] in *.
    set (row := map expo_of ps) in *. assert (Hrow : length row = length ps) by apply map_length.
    rewrite <- (firstn_combine_l _ _ l).
    rewrite combine_length, arrays_length, Nat.min_id, Hrow.
    destruct (deriv_named_absent s (nth q l 0%nat) (firstn (length ps) l) v row 0 d Hs HS)
      as (z & E' & Hz & Hzd); [apply nodup_not_firstn; [assumption|lia]|].
    rewrite Hrow in E'. rewrite E'.
    rewrite as_sparse_diag by (cbn [np_flatten shp]; now rewrite Hz).
    eexists. split; [reflexivity|]. intros o i Ho Hi. cbn [jac_entry]. unfold coo_entry.
    cbn [nnz rows cols vals np_flatten dat].
    rewrite (rsum_single _ _ o Ho).
    + rewrite Nat.eqb_refl. cbn [andb]. destruct (Nat.eqb_spec o i); [|reflexivity].
      rewrite Hzd, Hd, Hyd by assumption. cbn [dat]. rewrite Hk by assumption.
      rewrite firstn_length, (firstn_all2 row) by lia. ring.
    + intros k Hlt Hne. destruct (Nat.eqb_spec k o); [contradiction|reflexivity].
Qed.

(** x0 to the power one, with a second input that has no power *)
Theorem power_short_refuted : exists c,
  power_direct [1%nat] (NList [0; 1]%nat) (SList [1]) [] (Some 2%nat) 1 = Some c /\
  c_ins c = [[1]; [1]]%nat /\
  forall v : nat -> nat -> R,
    (exists y, c_compute c (inputs_of (c_ins c) v) = Some y /\ dat y 0%nat = v 0%nat 0%nat) /\
    exists j, c_partials c (inputs_of (c_ins c) v) 1%nat = Some j /\
      jac_entry 1 j 0 0 = v 0%nat 0%nat /\
      (v 0%nat 0%nat <> 0 ->
       ~ derivable_pt_lim (fun _ => v 0%nat 0%nat) (v 1%nat 0%nat) (jac_entry 1 j 0 0)).
Proof.
  destruct (power_direct_short [1%nat] [0; 1]%nat [1] 2 1) as (c & E & Hi & Ho & H).
  - repeat constructor; cbn; intuition congruence.
  - cbn. lia.
  - exists c. split; [exact E|]. split; [exact Hi|]. intros v.
    destruct (H v) as (y & Ey & (_ & _ & _ & Hm) & Hj).
    { intros q o Hq _. cbn in Hq. replace q with 0%nat by lia. right. right. now exists 0%nat. }
    assert (Hy : dat y 0%nat = v 0%nat 0%nat).
    { destruct (Hm [0%nat]) as (fs & HF & Eg); [now repeat constructor|].
      rewrite Hi in HF. cbn in HF. inversion HF as [|? f ? fs' HF1 HF2]; subst. inversion HF2; subst.
      destruct HF1 as [HF1 _]. specialize (HF1 1%nat eq_refl). cbn [fst snd] in HF1.
      unfold get in Eg, HF1. unfold power_direct in E. cbn in Eg, HF1.
      assert (Hs : shp y = [1%nat]).
      { destruct (H v) as (y' & Ey' & (Hs & _) & _).
        - intros q o Hq _. cbn in Hq. replace q with 0%nat by lia. right. right. now exists 0%nat.
        - congruence. }
      rewrite Hs in Eg. cbn in Eg. rewrite Eg, HF1. unfold product. cbn. lra. }
    split; [now exists y|].
    destruct (Hj 1%nat) as (j & Ej & Hje); [cbn; lia|]. exists j. split; [exact Ej|].
    specialize (Hje 0%nat 0%nat). cbn [size fold_right Nat.mul Nat.add Nat.eqb] in Hje.
    assert (Ent : jac_entry 1 j 0 0 = v 0%nat 0%nat) by (rewrite <- Hy; apply Hje; cbn; lia).
    split; [exact Ent|]. intros Hne HD. rewrite Ent in HD. apply Hne.
    eapply uniqueness_limite; [exact HD|]. apply derivable_pt_lim_const.
Qed.

(** ---- powers given as a matrix ---- *)

Lemma add_keys_known : forall l acc, (forall x, In x l -> In x acc) -> add_keys acc l = acc.
Proof.
  induction l as [|x l IH]; intros acc H; [reflexivity|]. cbn [add_keys].
  assert (E : existsb (Nat.eqb x) acc = true) by (apply existsb_in, H; now left).
  rewrite E. apply IH. intros y Hy. apply H. now right.
Qed.

Lemma add_keys_new : forall l acc, NoDup (acc ++ l) -> add_keys acc l = acc ++ l.
Proof.
  induction l as [|x l IH]; intros acc H; [now rewrite app_nil_r|]. cbn [add_keys].
  destruct (existsb (Nat.eqb x) acc) eqn:E.
  - exfalso. apply existsb_in in E. apply NoDup_remove_2 in H. apply H. apply in_or_app. now left.
  - rewrite IH.
    + now rewrite <- app_assoc.
    + now rewrite <- app_assoc.
Qed.

Lemma add_keys_app : forall l l' acc, add_keys acc (l ++ l') = add_keys (add_keys acc l) l'.
Proof. induction l as [|x l IH]; intros l' acc; [reflexivity|]. cbn [app add_keys]. apply IH. Qed.

Lemma map_fst_combine : forall (A : Type) (names : list nat) (row : list A),
  (length names <= length row)%nat -> map fst (combine names row) = names.
Proof.
  intros A. induction names as [|n names IH]; intros [|x row] H; try reflexivity; [cbn in H; lia|].
  cbn [combine map fst]. rewrite IH; [reflexivity|]. cbn in H. lia.
Qed.

Lemma matrix_names : forall names m powers coeffs, NoDup names ->
  Forall (fun row => length row = m) powers -> (length names <= m)%nat ->
  (length powers <= length coeffs)%nat -> powers <> [] ->
  in_names (matrix_terms names powers coeffs) = names.
Proof.
  intros names m powers coeffs HN HF Hm Hc Hne. unfold in_names, matrix_terms.
  destruct powers as [|row powers]; [congruence|]. destruct coeffs as [|c coeffs]; [cbn in Hc; lia|].
  inversion HF as [|? ? Hrow HF']; subst. cbn [map combine flat_map fst snd].
  rewrite map_fst_combine by assumption. rewrite add_keys_app.
  rewrite (add_keys_new names []) by exact HN.
  cbn [app]. apply add_keys_known. intros x Hx. apply in_flat_map in Hx.
  destruct Hx as ([c' d] & Hin & Hx). cbn [snd] in Hx. apply in_combine_r in Hin.
  apply in_map_iff in Hin. destruct Hin as (row' & <- & _). now apply map_fst_combine_in in Hx.
Qed.

Lemma power_of_combine : forall names row, NoDup names -> (length names <= length row)%nat ->
  map (fun nm => expo_of (power_of (combine names row) nm)) names = map expo_of (firstn (length names) row).
Proof.
  induction names as [|n names IH]; intros [|x row] HN HL; try reflexivity; [cbn in HL; lia|].
  cbn [combine map power_of length firstn]. rewrite Nat.eqb_refl. f_equal.
  inversion HN as [|? ? H1 H2]; subst. rewrite <- IH; [|assumption|cbn in HL; lia].
  apply map_ext_in. intros nm Hnm. destruct (Nat.eqb_spec n nm) as [->|]; [contradiction|reflexivity].
Qed.

Lemma matrix_rows : forall names m powers coeffs, NoDup names ->
  Forall (fun row => length row = m) powers -> (length names <= m)%nat ->
  map (powers_row names) (matrix_terms names powers coeffs) =
  combine coeffs (map (fun row => map expo_of (firstn (length names) row)) powers).
Proof.
  intros names m powers coeffs HN HF Hm. unfold matrix_terms. revert coeffs.
  induction HF as [|row powers Hrow HF IH]; intros [|c coeffs]; try reflexivity.
  cbn [map combine]. rewrite IH. f_equal. unfold powers_row. cbn [fst snd].
  rewrite power_of_combine; [reflexivity|assumption|lia].
Qed.

Lemma poly_direct_terms : forall s names m powers coeffs a, NoDup names ->
  Forall (fun row => length row = m) powers -> (length names <= m)%nat ->
  (length powers <= length coeffs)%nat -> powers <> [] ->
  poly_direct s (IList names) m powers coeffs a = poly_comp s (matrix_terms names powers coeffs) a.
Proof.
  intros s names m powers coeffs a HN HF Hm Hc Hne. unfold poly_direct. cbn [iterated].
  assert (Hok : names_ok names = true) by now apply names_ok_nodup. rewrite Hok.
  assert (ER : poly_rows names m powers coeffs =
               Some (map (powers_row names) (matrix_terms names powers coeffs))).
  { unfold poly_rows. rewrite matrix_rows with (m := m) by assumption.
    destruct powers as [|row powers]; [congruence|].
    apply Nat.leb_le in Hm. apply Nat.leb_le in Hc. now rewrite Hm, Hc. }
  rewrite ER. pose proof (matrix_names names m powers coeffs HN HF Hm Hc Hne) as EN.
  unfold poly_comp. rewrite EN.
  destruct (matrix_terms names powers coeffs) as [|t terms] eqn:E; [|reflexivity].
  exfalso. unfold matrix_terms in E. destruct powers; [congruence|]. destruct coeffs; [cbn in Hc; lia|discriminate].
Qed.

Lemma matrix_dicts : forall names powers coeffs, NoDup names -> dicts (matrix_terms names powers coeffs).
Proof.
  intros names powers coeffs HN. unfold dicts, matrix_terms. apply Forall_forall. intros [c d] Hin.
  apply in_combine_r in Hin. apply in_map_iff in Hin. destruct Hin as (row & <- & _). cbn [snd].
  revert row. induction HN as [|n names H1 H2 IH]; intros [|x row]; try constructor.
  - intros H. apply map_fst_combine_in in H. contradiction.
  - apply IH.
Qed.

Lemma matrix_smooth_iff : forall s names m powers coeffs v, NoDup names ->
  Forall (fun row => length row = m) powers -> (length names <= m)%nat ->
  (length powers <= length coeffs)%nat ->
  matrix_smooth s (length names) powers v <-> smooth s names (matrix_terms names powers coeffs) v.
Proof.
  intros s names m powers coeffs v HN HF Hm Hc. rewrite Forall_forall in HF.
  assert (HT : forall q row p, In row powers -> (q < length names)%nat ->
            has_power (0, combine names row) (nth q names 0%nat) p <-> p = nth q row 0).
  { intros q row p Hrow Hq. specialize (HF row Hrow). unfold has_power. cbn [snd].
    rewrite map_fst_combine by lia.
    assert (Hin : In (nth q names 0%nat, nth q row 0) (combine names row)).
    { clear Hrow. revert q row HF Hq Hm. clear. revert m.
      induction names as [|n names IH]; intros m [|q] [|x row] HF Hq Hm; cbn [length] in *; try lia.
      - now left.
      - cbn [nth combine]. right. apply (IH (length row)); lia. }
    split.
    - intros [H|[H _]]; [|exfalso; apply H; now apply nth_In].
      assert (HD : NoDup (map fst (combine names row))) by (rewrite map_fst_combine by lia; assumption).
      revert H Hin HD. generalize (nth q names 0%nat), (nth q row 0). clear.
      induction (combine names row) as [|[a b] l IH]; intros n x H H' HD; [destruct H|].
      cbn [map fst] in HD. inversion HD as [|? ? H1 H2]; subst.
      destruct H as [E|H], H' as [E'|H'].
      + congruence.
      + exfalso. inversion E; subst. apply H1. apply in_map_iff. now exists (n, x).
      + exfalso. inversion E'; subst. apply H1. apply in_map_iff. now exists (n, p).
      + now apply (IH n x).
    - intros ->. now left. }
  assert (HR : forall row, In row powers -> exists c, In (c, combine names row) (matrix_terms names powers coeffs)).
  { intros row Hrow. clear HF HT Hm. unfold matrix_terms. revert coeffs Hc. induction powers as [|r powers IH]; intros coeffs Hc; [destruct Hrow|].
    destruct coeffs as [|c coeffs]; [cbn in Hc; lia|]. cbn [map combine].
    destruct Hrow as [->|Hrow]; [exists c; now left|].
    destruct (IH Hrow coeffs) as (c' & H); [cbn in Hc; lia|]. exists c'. now right. }
  split.
  - intros H q o [c d] p Hq Ho Ht Hp. unfold matrix_terms in Ht. apply in_combine_r in Ht.
    apply in_map_iff in Ht. destruct Ht as (row & <- & Hrow).
    assert (E : p = nth q row 0) by now apply HT. subst p. now apply H.
  - intros H q o row Hq Ho Hrow. destruct (HR row Hrow) as (c & Hin).
    apply (H q o (c, combine names row)); auto. now apply HT.
Qed.

Lemma correct_within_iff : forall (P Q : (nat -> nat -> R) -> Prop) c meaning,
  (forall v, P v <-> Q v) -> correct_within P c meaning -> correct_within Q c meaning.
Proof.
  intros P Q c meaning H (Ho & F & H1 & H2). split.
  - intros v p i Hv Hp Hi. destruct (Ho v p i) as (d & Hd & K); auto; [now apply H|].
    exists d. split; [assumption|]. intros t Ht. now apply H, K.
  - exists F. split.
    + intros v Hv. apply H1. now apply H.
    + intros v p Hv Hp. apply H2; [now apply H|assumption].
Qed.

Theorem poly_direct_correct : forall s names m powers coeffs a k, NoDup names ->
  Forall (fun row => length row = m) powers -> (length names <= m)%nat ->
  (length powers <= length coeffs)%nat -> powers <> [] -> constant_of s a k ->
  exists c, poly_direct s (IList names) m powers coeffs a = Some (names, c) /\
    c_ins c = repeat s (length names) /\ c_out c = s /\
    correct_within (matrix_smooth s (length names) powers) c
      (poly_meaning s names k (matrix_terms names powers coeffs)).
Proof.
  intros s names m powers coeffs a k HN HF Hm Hc Hne HK.
  rewrite poly_direct_terms by assumption.
  destruct (poly_correct s (matrix_terms names powers coeffs) a k) as (names' & c & E & _ & _ & H1 & H2 & H3).
  - destruct powers; [congruence|]. destruct coeffs; [cbn in Hc; lia|discriminate].
  - now apply matrix_dicts.
  - assumption.
  - assert (EN : names' = names).
    { rewrite <- (matrix_names names m powers coeffs) by assumption.
      unfold poly_comp in E. destruct (matrix_terms names powers coeffs); [discriminate|]. now inversion E. }
    subst names'. exists c. splits; auto. eapply correct_within_iff; [|exact H3].
    intros v. symmetry. now apply matrix_smooth_iff with (m := m).
Qed.

(** A column or a coefficient is missing: compute always raises. *)
Theorem poly_direct_missing : forall s names m powers coeffs a nms c, powers <> [] ->
  (m < length (iterated names) \/ length coeffs < length powers)%nat ->
  poly_direct s names m powers coeffs a = Some (nms, c) ->
  forall ins, c_compute c ins = None.
Proof.
  intros s names m powers coeffs a nms c Hne Hm E ins. unfold poly_direct in E.
  destruct (names_ok (iterated names)); [|discriminate]. inversion E; subst. cbn [c_compute].
  assert (ER : poly_rows (iterated names) m powers coeffs = None).
  { unfold poly_rows. destruct powers as [|row powers]; [congruence|].
    destruct Hm as [Hm|Hm]; apply Nat.leb_gt in Hm; rewrite Hm; [reflexivity|now rewrite andb_false_r]. }
  rewrite ER. now destruct (assign_output s a).
Qed.

(** One name given as a string of several characters and one column of powers. *)
Theorem poly_string : forall s cs powers coeffs a, (1 < length cs)%nat -> powers <> [] ->
  poly_direct s (IStr cs) 1 powers coeffs a = None \/
  exists c, poly_direct s (IStr cs) 1 powers coeffs a = Some (cs, c) /\
    length (c_ins c) = length cs /\ forall ins, c_compute c ins = None.
Proof.
  intros s cs powers coeffs a Hl Hne.
  destruct (poly_direct s (IStr cs) 1 powers coeffs a) as [[nms c]|] eqn:E; [|now left]. right. exists c.
  assert (H : nms = cs /\ length (c_ins c) = length cs).
  { unfold poly_direct in E. cbn [iterated] in E. destruct (names_ok cs); [|discriminate]. inversion E; subst.
    cbn [c_ins]. now rewrite repeat_length. }
  destruct H as [-> H]. splits; auto. eapply poly_direct_missing; [exact Hne| |exact E]. now left.
Qed.

(** ---- cases ---- *)

Example linear_direct_case : exists c,
  linear_direct [2; 2]%nat (NList [5; 3; 8]%nat) (SList [1; -2; 3]) [] (Some 3%nat) (Nd [] (fun _ => 3 / 2)) = Some c /\
  correct c (linear_meaning [2; 2]%nat (fun _ => 3 / 2) [1; -2; 3]).
Proof.
  destruct (linear_direct_correct [2; 2]%nat (NList [5; 3; 8]%nat) (SList [1; -2; 3]) []
    (combine [5; 3; 8]%nat [1; -2; 3]) 3 (Nd [] (fun _ => 3 / 2)) (fun _ => 3 / 2)) as (c & E & _ & _ & H).
  - now apply given_lists.
  - cbn. repeat constructor; cbn; intuition congruence.
  - left. now exists (3 / 2).
  - cbn. lia.
  - now exists c.
Qed.

Example power_direct_case : exists c,
  power_direct [2]%nat NNone (SNum 1) [(4%nat, 2); (7%nat, / 2); (1%nat, -1)] (Some 3%nat) (3 / 2) = Some c /\
  correct_within (powers_smooth [2]%nat [2; / 2; -1]) c (power_meaning [2]%nat (3 / 2) [2; / 2; -1]) /\
  powers_smooth [2]%nat [2; / 2; -1] (fun q _ => if Nat.eqb q 2 then -3 else 5).
Proof.
  destruct (power_direct_correct [2]%nat NNone (SNum 1) [(4%nat, 2); (7%nat, / 2); (1%nat, -1)]
    [(4%nat, 2); (7%nat, / 2); (1%nat, -1)] 3 (3 / 2)) as (c & E & _ & _ & H).
  - now apply given_dict.
  - cbn. repeat constructor; cbn; intuition congruence.
  - cbn. lia.
  - exists c. splits; auto. intros q o Hq _. cbn [length] in Hq.
    destruct q as [|[|[|q]]]; cbn [nth Nat.eqb]; [left; lra|left; lra| |lia].
    right. left. split; [lra|]. now exists (-1)%Z.
Qed.

Example poly_direct_case : exists c,
  poly_direct [2]%nat (IList [4; 7]%nat) 2 [[2; 1]; [1; -1]] [1; -2] (Nd [] (fun _ => 5)) = Some ([4; 7]%nat, c) /\
  correct_within (matrix_smooth [2]%nat 2 [[2; 1]; [1; -1]]) c
    (poly_meaning [2]%nat [4; 7]%nat (fun _ => 5)
       [(1, [(4%nat, 2); (7%nat, 1)]); (-2, [(4%nat, 1); (7%nat, -1)])]) /\
  matrix_smooth [2]%nat 2 [[2; 1]; [1; -1]] (fun _ _ => -3).
Proof.
  destruct (poly_direct_correct [2]%nat [4; 7]%nat 2 [[2; 1]; [1; -1]] [1; -2] (Nd [] (fun _ => 5)) (fun _ => 5))
    as (c & E & _ & _ & H).
  - repeat constructor; cbn; intuition congruence.
  - repeat constructor.
  - cbn. lia.
  - cbn. lia.
  - discriminate.
  - left. now exists 5.
  - exists c. splits; auto. intros q o row Hq _ Hrow.
    assert (Hz : exists z, nth q row 0 = IZR z).
    { cbn in Hrow. destruct Hrow as [<-|[<-|[]]]; (destruct q as [|[|q]]; [| |lia]); cbn [nth]; eexists; reflexivity. }
    right. left. split; [lra|exact Hz].
Qed.

(** Options that name no inputs, or one input twice, are refused. *)
Lemma direct_names_needed : forall s numbers vals a c,
  linear_direct s NNone numbers [] vals a = None /\ power_direct s NNone numbers [] vals c = None.
Proof. intros. split; reflexivity. Qed.

Lemma direct_names_distinct : forall s names numbers dict l n a c,
  given names numbers dict l -> ~ NoDup (map fst l) -> (length l <= n)%nat ->
  linear_direct s names numbers dict (Some n) a = None /\ power_direct s names numbers dict (Some n) c = None.
Proof.
  intros s names numbers dict l n a c HG HD HL. unfold linear_direct, power_direct.
  rewrite (processed_given _ _ _ _ HG).
  assert (F : names_ok (map fst l) = false).
  { destruct (names_ok (map fst l)) eqn:E; [|reflexivity]. now apply names_ok_nodup in E. }
  rewrite map_length, Nat.min_l by assumption.
  rewrite (firstn_all2 (map fst l)) by (rewrite map_length; lia).
  rewrite (firstn_all2 (map fst l)) by (rewrite map_length; lia).
  rewrite F. auto.
Qed.

Example names_distinct_case : linear_direct [2]%nat (NList [4; 7; 4]%nat) (SNum 2) [] (Some 3%nat) (scalar 0) = None.
Proof.
  apply (direct_names_distinct [2]%nat (NList [4; 7; 4]%nat) (SNum 2) [] [(4%nat, 2); (7%nat, 2); (4%nat, 2)] 3 (scalar 0) 0).
  - exact (given_number [4; 7; 4]%nat 2).
  - intros H. inversion H as [|? ? H1 _]. apply H1. cbn. auto.
  - cbn. lia.
Qed.

(** one character *)
Theorem poly_one_character : forall s x m powers coeffs a k,
  Forall (fun row => length row = m) powers -> (1 <= m)%nat ->
  (length powers <= length coeffs)%nat -> powers <> [] -> constant_of s a k ->
  exists c, poly_direct s (IStr [x]) m powers coeffs a = Some ([x], c) /\
    c_ins c = [s] /\ c_out c = s /\
    correct_within (matrix_smooth s 1 powers) c
      (poly_meaning s [x] k (matrix_terms [x] powers coeffs)).
Proof.
  intros s x m powers coeffs a k HF Hm Hc Hne Ha.
  exact (poly_direct_correct s [x] m powers coeffs a k (NoDup_cons x (@in_nil nat x) (NoDup_nil nat)) HF Hm Hc Hne Ha).
Qed.
