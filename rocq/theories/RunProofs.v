(** One pass in the order computed by setup evaluates every expression tree. *)
From Verif Require Import PyBase PySet SpecGraph GraphLemmas Graph SpecSetup Replace GroupApi SpecApi
  GroupApiProofs GroupApiAcyclic GroupApiShape GroupApiWired GroupApiSetup GroupApiUses Run SpecRun.

Section Run.
Variable V : Type.
Variable op_sem : nat -> list V -> V.
Variable indep_sem : nat -> V.
Variable asm_sem : nat -> list V -> V.
Variable part_sem : nat -> V -> V.
Variable sub_sem : nat -> list V -> list V.
Variables (sub_reads sub_writes : nat -> list name).

Local Notation write := (write V).
Local Notation reads := (comp_reads sub_reads).
Local Notation writes := (comp_writes sub_writes).
Local Notation outputs := (comp_outputs V op_sem indep_sem asm_sem part_sem sub_sem).
Local Notation run_comp := (run_comp V op_sem indep_sem asm_sem part_sem sub_sem sub_reads sub_writes).
Local Notation run_model := (run_model V op_sem indep_sem asm_sem part_sem sub_sem sub_reads sub_writes).

Lemma write_other : forall names vals s x, ~ In x names -> write names vals s x = s x.
Proof.
  induction names as [|nm names IH]; intros [|v vals] s x H; cbn [Run.write]; auto.
  rewrite IH by (simpl in H; tauto). destruct (name_eqb x nm) eqn:E; [|reflexivity].
  apply name_eqb_eq in E. subst. simpl in H. tauto.
Qed.

Lemma write_map : forall names vals s, NoDup names -> length vals = length names ->
  map (write names vals s) names = vals.
Proof.
  induction names as [|nm names IH]; intros [|v vals] s ND L; cbn [Run.write map]; try discriminate; auto.
  inversion ND; subst. f_equal.
  - rewrite write_other by assumption. assert (name_eqb nm nm = true) as -> by (now apply name_eqb_eq). reflexivity.
  - apply IH; [assumption|]. simpl in L. lia.
Qed.

Lemma run_other st : forall l s x, (forall n, In n l -> ~ In x (writes st n)) -> run_model st l s x = s x.
Proof.
  unfold Run.run_model. induction l as [|n l IH]; intros s x H; cbn [fold_left]; [reflexivity|].
  rewrite IH by (intros m Hm; apply H; now right).
  unfold Run.run_comp. apply write_other. apply H. now left.
Qed.

(** Every component's equation holds in the final store. *)
Lemma run_equations st added s :
  NoDup added ->
  (forall m n x, In m added -> In n added -> In x (writes st m) -> In x (writes st n) -> m = n) ->
  (forall n, In n added -> NoDup (writes st n)) ->
  (forall n vals, In n added -> length vals = length (reads st n) ->
     length (outputs st n vals) = length (writes st n)) ->
  (forall m n x, In m added -> In n added -> In x (writes st m) -> In x (reads st n) -> before added m n) ->
  forall n, In n added ->
    map (run_model st added s) (writes st n) = outputs st n (map (run_model st added s) (reads st n)).
Proof.
  intros ND UW NW LW RW n Hn.
  apply in_split in Hn. destruct Hn as (l1 & l2 & ->).
  assert (Hin : In n (l1 ++ n :: l2)) by (apply in_or_app; right; now left).
  assert (NB : forall m, In m (n :: l2) -> ~ before (l1 ++ n :: l2) m n).
  { intros m Hm BF. destruct BF as (a & b & c & E).
    assert (l1 ++ n :: l2 = (a ++ m :: b) ++ n :: c) as E' by (rewrite <- app_assoc; exact E).
    destruct (nodup_middle l1 (a ++ m :: b) l2 c n) as [Q _].
    - exact ND.
    - exact E'.
    - subst l1. destruct Hm as [->|Hm].
      + apply NoDup_remove_2 in ND. apply ND. apply in_or_app. left. apply in_or_app. right. now left.
      + apply (NoDup_remove_2) in ND as ND2. rewrite <- app_assoc in ND. 
        apply in_split in Hm. destruct Hm as (p & q & ->).
        assert (NoDup (a ++ m :: (b ++ n :: p) ++ m :: q)) as ND3.
        { rewrite <- app_assoc. simpl. simpl in ND. exact ND. }
        apply NoDup_remove_2 in ND3. apply ND3. apply in_or_app. right. apply in_or_app. right. now left. }
  set (s1 := run_model st l1 s).
  assert (E : forall x, run_model st (l1 ++ n :: l2) s x = run_model st l2 (run_comp st s1 n) x).
  { intros x. unfold s1, Run.run_model. now rewrite fold_left_app. }
  assert (R1 : map (run_model st (l1 ++ n :: l2) s) (reads st n) = map s1 (reads st n)).
  { apply map_ext_in. intros x Hx. rewrite E. rewrite run_other.
    - unfold Run.run_comp. apply write_other. intros Hw. apply (NB n); [now left|]. now apply (RW n n x).
    - intros m Hm Hw. apply (NB m); [now right|]. apply (RW m n x); auto.
      apply in_or_app. right. now right. }
  rewrite R1.
  rewrite <- (write_map (writes st n) (outputs st n (map s1 (reads st n))) s1).
  - apply map_ext_in. intros x Hx. rewrite E. rewrite run_other; [reflexivity|].
    intros m Hm Hw. assert (m = n).
    { apply (UW m n x); auto. apply in_or_app. right. now right. }
    subst m. apply NoDup_remove_2 in ND. apply ND. apply in_or_app. now right.
  - now apply NW.
  - apply LW; [assumption|]. now rewrite map_length.
Qed.

Section Final.
Variable st : api.
Hypothesis INV : ainv st.
Hypothesis SH : shape st.
Hypothesis WI : wired st.
Hypothesis UO : uses_ok st.
Hypothesis AC : acyclic (adeps st).
Hypothesis DEF : forall n, akind st n = KExplicit -> adefined st n = true.
Hypothesis NO : names_ok sub_reads sub_writes st.
Hypothesis SUBLEN : forall k vals, length vals = length (sub_reads k) ->
  length (sub_sem k vals) = length (sub_writes k).

Variable added : list nat.
Hypothesis ND : NoDup added.
Hypothesis SP : forall n, In n added <-> dep_on (adeps st) root n /\ has_build st n = true.
Hypothesis BF : forall u v, In u added -> In v added -> dep_on (adeps st) u v -> before added v u.

Lemma build_decomp n x : abuild st n = BDecomp x -> adecomp st x = Some n.
Proof.
  intros E. destruct INV as [B _]. destruct (akind st n) eqn:K.
  - destruct (Nat.eq_dec n root) as [->|NR].
    { destruct (s_root st SH) as [Q _]. congruence. }
    destruct (Nat.lt_ge_cases n (anext st)) as [L|L].
    2: { destruct (s_fresh st SH n L) as [Q _]. congruence. }
    destruct (s_var st SH n) as [(f & args & Q)|[[Q _]|[y Q]]]; try congruence.
    + unfold root in NR. lia.
    + destruct (s_decomp st SH y n Q) as (_ & _ & _ & Q' & _). rewrite Q' in E. injection E as <-. assumption.
  - rewrite (s_input st SH n K) in E. discriminate.
  - destruct (s_indep st SH n K) as (s & Q & _). congruence.
  - destruct (s_expl st SH n K) as [[Q _]|[_ [[e Q]|Q]]]; congruence.
  - now apply (s_imp st SH) in K.
  - destruct (v_sub st B n K) as (k & g & Q). congruence.
Qed.

Lemma reach_dep u v : dep_on (adeps st) root u -> In v (adeps st u) -> dep_on (adeps st) root v.
Proof. intros D H. apply dep_on_trans with u; [assumption|now constructor]. Qed.

Lemma writes_build n x : In x (writes st n) -> has_build st n = true.
Proof. unfold comp_writes, has_build. destruct (abuild st n); auto. Qed.

(** A used object's writer is below the user. *)
Lemma used_writer n a m : dep_on (adeps st) root n -> In a (adeps st n) -> value_object st a ->
  dep_on (adeps st) root m -> In (aname st a) (writes st m) -> dep_on (adeps st) n m.
Proof.
  intros Dn Ha VO Dm Hw. pose proof (reach_dep n a Dn Ha) as Da.
  assert (K : akind st a = KInput \/ akind st a <> KInput) by (destruct (akind st a); auto; right; discriminate).
  destruct K as [K|K].
  - apply dep_step with a; [assumption|]. now apply (no_input _ _ st NO).
  - destruct (value_producer sub_writes st a SH VO K (DEF a)) as (m' & _ & Hw' & Q).
    destruct Q as [->|[k Q]].
    + assert (m = a) as -> by (now apply (no_single _ _ st NO m a (aname st a))). now constructor.
    + pose proof (w_part st WI m' k a Q) as Hm'.
      assert (m = m') as ->.
      { apply (no_single _ _ st NO m m' (aname st a)); auto. now apply (reach_dep a). }
      apply dep_step with a; [assumption|now constructor].
Qed.

Lemma read_before m n x : In m added -> In n added -> In x (writes st m) -> In x (reads st n) -> before added m n.
Proof.
  intros Hm Hn Hw Hr. apply BF; auto. apply SP in Hm. apply SP in Hn.
  destruct Hm as [Dm _], Hn as [Dn _].
  unfold comp_reads in Hr. destruct (abuild st n) as [|f args|nm|e| |k g|x0] eqn:EB; try contradiction.
  - apply in_map_iff in Hr. destruct Hr as (a & <- & Ha).
    apply used_writer with a; auto.
    + now apply (w_expr st WI n f args).
    + apply (UO n). left. now apply (uses_arg _ _ f args).
  - destruct Hr as [<-|[]]. apply used_writer with e; auto.
    + now apply (w_pass st WI).
    + apply (UO n). left. now apply uses_def.
  - apply in_map_iff in Hr. destruct Hr as ([nm a] & Q & Ha). simpl in Q. subst nm.
    pose proof (no_stale _ _ st NO n x a EB Ha) as ->.
    apply used_writer with a; auto.
    + now apply (w_tgt st WI n (aname st a)).
    + apply (UO n). right. eauto.
  - now apply (no_sub _ _ st NO n k g x m).
  - destruct Hr as [<-|[]]. apply used_writer with x0; auto.
    + apply (w_dec st WI). now apply build_decomp.
    + apply (UO n). left. now apply uses_whole.
Qed.

Lemma output_length n vals : length vals = length (reads st n) -> length (outputs st n vals) = length (writes st n).
Proof.
  unfold comp_reads, comp_writes, comp_outputs. intros L.
  destruct (abuild st n); simpl in *; auto.
  destruct vals as [|v [|w vals]]; simpl in L; try lia. simpl. now rewrite app_nil_r, !map_length.
Qed.

Variable s : store V.
Let fin := run_model st added s.

Lemma final_equation n : dep_on (adeps st) root n -> has_build st n = true ->
  map fin (writes st n) = outputs st n (map fin (reads st n)).
Proof.
  intros D HB. unfold fin. apply run_equations; auto.
  - intros m n' x Hm Hn. apply SP in Hm. apply SP in Hn. apply (no_single _ _ st NO); tauto.
  - intros m Hm. apply SP in Hm. now apply (no_once _ _ st NO).
  - intros m vals _. apply output_length.
  - apply read_before.
  - apply SP. auto.
Qed.

Lemma final_other x : (forall n, dep_on (adeps st) root n -> ~ In x (writes st n)) -> fin x = s x.
Proof. intros H. unfold fin. apply run_other. intros n Hn. apply H. now apply SP. Qed.

Local Notation value := (tree_value V op_sem indep_sem asm_sem part_sem st).
Local Notation values := (tree_values V op_sem indep_sem asm_sem part_sem st).
Let inp i := fin (aname st i).

Lemma values_of l : (forall a, In a l -> value inp a (fin (aname st a))) ->
  values inp l (map (fun a => fin (aname st a)) l).
Proof. induction l as [|a l IH]; intros H; simpl; constructor; [apply H; now left|apply IH; intros; apply H; now right]. Qed.

Lemma final_value : forall n, dep_on (adeps st) root n -> value_object st n -> value inp n (fin (aname st n)).
Proof.
  destruct INV as [B R].
  set (rank := height (adeps st) (anext st)).
  assert (RK : ranked (adeps st) rank) by (apply finite_acyclic_ranked; [apply (v_fin st B)|assumption]).
  assert (G : forall k n, rank n < k -> dep_on (adeps st) root n -> value_object st n -> value inp n (fin (aname st n))).
  2: { intros n. apply (G (S (rank n))). lia. }
  induction k as [|k IH]; intros n L D VO; [lia|].
  assert (IHd : forall a, In a (adeps st n) -> value_object st a -> value inp a (fin (aname st a))).
  { intros a Ha Va. apply IH; auto.
    - pose proof (RK n a Ha). lia.
    - now apply (reach_dep n). }
  assert (EQ := final_equation n D).
  destruct VO as (V1 & V2 & V3 & V4).
  destruct (akind st n) eqn:K; try congruence.
  - destruct (s_var st SH n V1 V2 K) as [(f & args & A)|[[A (dc & j & P)]|[x A]]].
    + unfold comp_reads, comp_writes, comp_outputs, has_build in EQ. rewrite A in EQ.
      specialize (EQ eq_refl). simpl in EQ. injection EQ as ->. rewrite map_map.
      apply (tv_expr _ _ _ _ _ _ _ n f args); [assumption|].
      apply values_of. intros a Ha. apply IHd.
      * now apply (w_expr st WI n f args).
      * apply (UO n). left. now apply (uses_arg _ _ f args).
    + destruct (s_parts st SH dc j n P) as (_ & _ & _ & x & DX).
      destruct (s_decomp st SH x dc DX) as (_ & _ & _ & DB & _).
      assert (Dd : In dc (adeps st n)) by (now apply (w_part st WI dc j)).
      assert (Dx : In x (adeps st dc)) by (now apply (w_dec st WI)).
      pose proof (final_equation dc (reach_dep n dc D Dd)) as EQ'.
      unfold comp_reads, comp_writes, comp_outputs, has_build in EQ'. rewrite DB in EQ'.
      specialize (EQ' eq_refl). simpl in EQ'. rewrite app_nil_r, map_map in EQ'.
      assert (Q : fin (aname st n) = part_sem j (fin (aname st x))).
      { clear - EQ' P. induction (aparts st dc) as [|p l IHl]; [contradiction|].
        simpl in EQ'. injection EQ' as E1 E2. destruct P as [->|P]; [exact E1|now apply IHl]. }
      rewrite Q. apply (tv_part _ _ _ _ _ _ _ n x dc); auto.
      apply IH.
      * pose proof (RK n dc Dd). pose proof (RK dc x Dx). lia.
      * apply (reach_dep dc); [now apply (reach_dep n)|assumption].
      * apply (UO dc). left. now apply uses_whole.
    + now apply V4 in A.
  - now apply tv_input.
  - destruct (s_indep st SH n K) as (u & A & AN).
    unfold comp_reads, comp_writes, comp_outputs, has_build in EQ. rewrite A in EQ.
    specialize (EQ eq_refl). simpl in EQ. injection EQ as EQ. rewrite AN, EQ. now apply (tv_indep _ _ _ _ _ _ _ n (User u)).
  - destruct (s_expl st SH n K) as [[_ Q]|[_ [[e A]|A]]].
    + rewrite DEF in Q by assumption. discriminate.
    + unfold comp_reads, comp_writes, comp_outputs, has_build in EQ. rewrite A in EQ.
      specialize (EQ eq_refl). simpl in EQ. injection EQ as ->.
      apply (tv_define _ _ _ _ _ _ _ n e); [assumption|].
      apply IHd; [now apply (w_pass st WI)|]. apply (UO n). left. now apply uses_def.
    + unfold comp_reads, comp_writes, comp_outputs, has_build in EQ. rewrite A in EQ.
      specialize (EQ eq_refl). simpl in EQ. injection EQ as ->. rewrite map_map.
      apply (tv_assign _ _ _ _ _ _ _ n); [assumption|].
      replace (map (fun x => fin (fst x)) (atgt st n)) with (map (fun a => fin (aname st a)) (map snd (atgt st n))).
      * apply values_of. intros a Ha. apply in_map_iff in Ha. destruct Ha as ([nm a'] & <- & Ha).
        apply IHd; [now apply (w_tgt st WI n nm)|]. apply (UO n). right. eauto.
      * rewrite map_map. apply map_ext_in. intros [nm a] Ha. simpl.
        now rewrite (no_stale _ _ st NO n nm a A Ha).
  - now apply (s_imp st SH) in K.
Qed.

Lemma final_sub b k g : dep_on (adeps st) root b -> abuild st b = BSub k g ->
  map fin (sub_writes k) = sub_sem k (map fin (sub_reads k)).
Proof.
  intros D E. pose proof (final_equation b D) as EQ.
  unfold comp_reads, comp_writes, comp_outputs, has_build in EQ. rewrite E in EQ. now apply EQ.
Qed.
End Final.

(** The tree value is a function of the inputs. *)
Lemma tree_value_det st inp : shape st -> forall n v, tree_value V op_sem indep_sem asm_sem part_sem st inp n v ->
  forall w, tree_value V op_sem indep_sem asm_sem part_sem st inp n w -> v = w.
Proof.
  intros SH.
  assert (NP : forall x dc k n, adecomp st x = Some dc -> In (k, n) (aparts st dc) ->
     abuild st n = NoBuild /\ akind st n = KVar).
  { intros x dc k n _ H. destruct (s_parts st SH dc k n H) as (_ & A & C & _). auto. }
  pose proof (s_input st SH) as SI.
  apply (tree_value_ind2 V op_sem indep_sem asm_sem part_sem st inp
    (fun n v _ => forall w, tree_value V op_sem indep_sem asm_sem part_sem st inp n w -> v = w)
    (fun l vs _ => forall ws, tree_values V op_sem indep_sem asm_sem part_sem st inp l ws -> vs = ws)).
  - intros n K w H. inversion H; subst; try reflexivity; try (rewrite (SI n K) in *; discriminate).
    destruct (NP _ _ _ _ H0 H1). congruence.
  - intros n nm A w H. inversion H; subst; try congruence; try (rewrite (SI n H0) in *; discriminate).
    destruct (NP _ _ _ _ H0 H1). congruence.
  - intros n f args vs A HV IH w H. inversion H; subst; try congruence; try (rewrite (SI n H0) in *; discriminate).
    + rewrite A in H0. injection H0 as <- <-. f_equal. now apply IH.
    + destruct (NP _ _ _ _ H0 H1). congruence.
  - intros n e v A HV IH w H. inversion H; subst; try congruence; try (rewrite (SI n H0) in *; discriminate).
    + rewrite A in H0. injection H0 as <-. now apply IH.
    + destruct (NP _ _ _ _ H0 H1). congruence.
  - intros n vs A HV IH w H. inversion H; subst; try congruence; try (rewrite (SI n H0) in *; discriminate).
    + f_equal. now apply IH.
    + destruct (NP _ _ _ _ H0 H1). congruence.
  - intros n x dc k v D P HV IH w H. destruct (NP _ _ _ _ D P) as [NB KV].
    inversion H; subst; try congruence.
    destruct (s_partinj st SH dc k n dc0 k0 P H1) as [<- <-].
    assert (x0 = x) as ->.
    { destruct (s_decomp st SH x dc D) as (_ & _ & _ & Q1 & _), (s_decomp st SH x0 dc H0) as (_ & _ & _ & Q2 & _). congruence. }
    f_equal. now apply IH.
  - intros ws H. inversion H. reflexivity.
  - intros n v ns vs H1 IH1 H2 IH2 ws H. inversion H; subst. f_equal; auto.
Qed.
End Run.
