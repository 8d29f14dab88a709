(** One pass computes what the user's formulas mean. *)
From Coq Require Import Reals Lra Lia Arith List Bool ZArith.
From Verif Require Import PyBase PySet SpecGraph GraphLemmas Graph SpecSetup Replace GroupApi SpecApi
  GroupApiProofs GroupApiAcyclic GroupApiShape GroupApiWired GroupApiSetup GroupApiUses Run SpecRun RunProofs
  GroupApiHistory ApiTheorems.
From Verif Require Import RSum NdArray NdIndex Component JacSpec JacOpen SpecNorm SpecExtremum SpecTotal TotalCalc
  CompElem CompCond StdCalls SpecStd SpecDeriv DerivProofs DerivMain Indexing SpecIndex Setitem SpecSetitem SpecShapes
  TotalMain DerivExample SpecMeaning.
Import ListNotations.
Local Open Scope nat_scope.

(** The chain rule already says that a component does not look beyond its inputs. *)
Lemma chain_ext dom c u w : chain_rule dom c -> dom u ->
  (forall q i, q < length (c_ins c) -> i < size (nth q (c_ins c) []) -> u q i = w q i) ->
  forall o, o < size (c_out c) -> value_of c u o = value_of c w o.
Proof.
  intros CH D E o Ho.
  set (g := fun t : R => if Req_EM_T t 0 then u else w).
  assert (G0 : g 0%R = u) by (unfold g; destruct (Req_EM_T 0 0); congruence).
  assert (G1 : forall t, t <> 0%R -> g t = w) by (intros t Ht; unfold g; destruct (Req_EM_T t 0); congruence).
  destruct (CH g (fun _ _ => 0%R) 0%R) as (js & _ & H).
  - intros q i Hq Hi. apply derivable_pt_lim_ext with (f := fun _ => u q i); [|apply derivable_pt_lim_const].
    intros t. unfold g. destruct (Req_EM_T t 0); auto.
  - now rewrite G0.
  - specialize (H o Ho). set (l := along _ _ _) in H.
    assert (C : continuity_pt (fun t => value_of c (g t) o) 0) by (apply derivable_continuous_pt; now exists l).
    destruct (Req_dec (value_of c u o) (value_of c w o)) as [|NE]; [assumption|exfalso].
    destruct (C (Rabs (value_of c w o - value_of c u o))) as (a & Ha & K).
    { apply Rabs_pos_lt. lra. }
    specialize (K (a / 2)%R). unfold dist in K. cbn in K. unfold R_dist in K.
    rewrite G0, G1 in K by lra.
    assert (Rabs (value_of c w o - value_of c u o) < Rabs (value_of c w o - value_of c u o))%R; [|lra].
    apply K. split; [split; [exact I|lra]|]. rewrite Rminus_0_r, Rabs_right; lra.
Qed.

Lemma inputs_entries xs : inputs_of (map shp xs) (entries_of xs) = xs.
Proof.
  unfold inputs_of, entries_of, args. rewrite map_length.
  assert (G : forall l k, map (fun p => Nd (nth p (repeat [] k ++ map shp l) []) (nth p (repeat (fun _ => 0%R) k ++ map dat l) (fun _ => 0%R)))
                 (seq k (length l)) = l).
  { induction l as [|x l IH]; intros k; cbn [length seq map]; [reflexivity|]. f_equal.
    - rewrite !app_nth2; rewrite !repeat_length; try lia. rewrite Nat.sub_diag. now destruct x.
    - transitivity (map (fun p => Nd (nth p (repeat [] (S k) ++ map shp l) [])
                                     (nth p (repeat (fun _ => 0%R) (S k) ++ map dat l) (fun _ => 0%R)))
                        (seq (S k) (length l))); [|apply IH].
      apply map_ext_in. intros p Hp. apply in_seq in Hp.
      f_equal; rewrite !app_nth2; rewrite !repeat_length; try lia; replace (p - k) with (S (p - S k)) by lia; reflexivity. }
  exact (G xs 0).
Qed.

(** what a component computes from the same entries *)
Lemma component_value c dom m xs y vs :
  correct_within dom c m -> chain_rule dom c -> determined dom c m -> map shp xs = c_ins c ->
  dom (entries_of xs) -> m xs y -> shp y = c_out c ->
  Forall2 (fun x v => forall i, i < size (shp x) -> dat x i = v i) xs vs ->
  forall o, o < size (c_out c) -> dat y o = computed c vs o.
Proof.
  intros (_ & F & HF & _) CH DT Hi D M Hs F2 o Ho.
  pose proof (inputs_entries xs) as IE. rewrite Hi in IE.
  destruct (HF _ D) as [E1 E2]. cbv zeta in E1, E2.
  transitivity (F (entries_of xs) o).
  - apply (DT (entries_of xs) y (Nd (c_out c) (F (entries_of xs))) o); auto. now rewrite IE.
  - transitivity (value_of c (entries_of xs) o); [unfold value_of; now rewrite E1|].
    unfold computed. apply chain_ext with dom; auto.
    rewrite <- Hi. clear - F2. unfold entries_of, args.
    induction F2 as [|x v xs vs H F2 IH]; intros q i Hq Hi; cbn in *; [lia|].
    destruct q as [|q]; [now apply H|]. apply IH; [lia|assumption].
Qed.

Section Model.
Variables (table asm part : nat -> component) (subs : nat -> list component).
Variables (sub_reads sub_writes : nat -> list name).
Variable shape_of : name -> list nat.
Variable st : api.
Hypothesis INV : ainv st.
Hypothesis SH : GroupApiShape.shape st.
Hypothesis WI : wired st.
Hypothesis UO : uses_ok st.
Hypothesis AC : acyclic (adeps st).
Hypothesis DEF : forall n, akind st n = KExplicit -> adefined st n = true.
Hypothesis NO : SpecRun.names_ok sub_reads sub_writes st.
Hypothesis SUBLEN : forall k, length (subs k) = length (sub_writes k).
Variable added : list nat.
Hypothesis ND : NoDup added.
Hypothesis SP : forall n, In n added <-> dep_on (adeps st) root n /\ has_build st n = true.
Hypothesis BF : forall u v, In u added -> In v added -> dep_on (adeps st) u v -> before added v u.

Variable call : nat -> std_call.
Variable key : nat -> Indexing.key.
Variable kept : nat -> list Setitem.assignment.
Variable start : nat -> nat -> R.
Hypothesis BT : built call key kept start shape_of st table asm part.
Hypothesis SA : shapes_agree shape_of st table asm part subs sub_reads sub_writes.

Variable ind : nat -> values.
Variable s : store values.
Let fin := pass table asm part subs sub_reads sub_writes st added ind s.
Let arr n := Nd (shape_of (aname st n)) (fin (aname st n)).
Local Notation denotes := (denotes call key kept start shape_of st).
Local Notation denotes_all := (denotes_all call key kept start shape_of st).

Lemma fin_equation n : dep_on (adeps st) root n -> has_build st n = true -> (forall nm, abuild st n <> BIndep nm) ->
  map fin (comp_writes sub_writes st n)
  = map (fun c => computed c (map fin (comp_reads sub_reads st n))) (parts_of table asm part subs shape_of st n).
Proof.
  intros D HB NI. unfold fin.
  apply (pass_equation table asm part subs sub_reads sub_writes shape_of st INV SH WI UO DEF NO SUBLEN added ND SP BF);
    [now apply SP|]. intros [nm E]. now apply (NI nm).
Qed.

Lemma reach u v : dep_on (adeps st) root u -> In v (adeps st u) -> dep_on (adeps st) root v.
Proof. exact (reach_dep st u v). Qed.

(** the equations of the objects that carry a value, and their operands *)
Lemma at_call n f operands : dep_on (adeps st) root n -> abuild st n = BExpr f operands ->
  fin (aname st n) = computed (table f) (map (fun a => fin (aname st a)) operands)
  /\ c_out (table f) = shape_of (aname st n)
  /\ c_ins (table f) = map (fun a => shape_of (aname st a)) operands
  /\ forall a, In a operands -> In a (adeps st n) /\ value_object st a.
Proof.
  intros D E.
  assert (NI : forall nm, abuild st n <> BIndep nm) by (intros nm; congruence).
  assert (HB : has_build st n = true) by (unfold has_build; now rewrite E).
  pose proof (fin_equation n D HB NI) as EQ. pose proof (SA n D NI) as S1.
  unfold comp_writes, comp_reads, parts_of in EQ, S1. rewrite E in EQ, S1. cbn [map] in EQ. injection EQ as EQ.
  inversion S1; subst. destruct H2 as [H2 H3]. splits; auto.
  - now rewrite EQ, map_map.
  - now rewrite H3, map_map.
  - intros a Ha. split; [now apply (w_expr st WI n f operands)|]. apply (UO n). left. now apply (uses_arg _ _ f operands).
Qed.

Lemma at_define n e : dep_on (adeps st) root n -> abuild st n = BPass e ->
  fin (aname st n) = fin (aname st e) /\ shape_of (aname st e) = shape_of (aname st n)
  /\ In e (adeps st n) /\ value_object st e.
Proof.
  intros D E.
  assert (NI : forall nm, abuild st n <> BIndep nm) by (intros nm; congruence).
  assert (HB : has_build st n = true) by (unfold has_build; now rewrite E).
  pose proof (fin_equation n D HB NI) as EQ. pose proof (SA n D NI) as S1.
  unfold comp_writes, comp_reads, parts_of in EQ, S1. rewrite E in EQ, S1. cbn [map] in EQ.
  inversion S1; subst. destruct H2 as [H2 H3]. cbn in H3. injection H3 as H3.
  rewrite computed_pass in EQ by reflexivity. injection EQ as EQ. splits; auto.
  - now apply (w_pass st WI).
  - apply (UO n). left. now apply uses_def.
Qed.

Lemma at_assign n : dep_on (adeps st) root n -> abuild st n = BIndexed ->
  fin (aname st n) = computed (asm n) (map (fun a => fin (aname st a)) (map snd (atgt st n)))
  /\ c_out (asm n) = shape_of (aname st n)
  /\ c_ins (asm n) = map (fun a => shape_of (aname st a)) (map snd (atgt st n))
  /\ forall a, In a (map snd (atgt st n)) -> In a (adeps st n) /\ value_object st a.
Proof.
  intros D E.
  assert (NI : forall nm, abuild st n <> BIndep nm) by (intros nm; congruence).
  assert (HB : has_build st n = true) by (unfold has_build; now rewrite E).
  pose proof (fin_equation n D HB NI) as EQ. pose proof (SA n D NI) as S1.
  unfold comp_writes, comp_reads, parts_of in EQ, S1. rewrite E in EQ, S1. cbn [map] in EQ. injection EQ as EQ.
  assert (RN : map fst (atgt st n) = map (aname st) (map snd (atgt st n))).
  { rewrite map_map. apply map_ext_in. intros [nm a] Ha. cbn. now rewrite (no_stale _ _ st NO n nm a E Ha). }
  rewrite RN in EQ, S1. inversion S1; subst. destruct H2 as [H2 H3]. splits; auto.
  - now rewrite EQ, map_map.
  - now rewrite H3, map_map.
  - intros a Ha. apply in_map_iff in Ha. destruct Ha as ([nm a'] & <- & Ha).
    split; [now apply (w_tgt st WI n nm)|]. apply (UO n). right. eauto.
Qed.

Lemma at_part n x dc k : dep_on (adeps st) root n -> adecomp st x = Some dc -> In (k, n) (aparts st dc) ->
  fin (aname st n) = computed (part k) [fin (aname st x)]
  /\ c_out (part k) = shape_of (aname st n) /\ c_ins (part k) = [shape_of (aname st x)]
  /\ dep_on (adeps st) root dc /\ abuild st dc = BDecomp x
  /\ In dc (adeps st n) /\ In x (adeps st dc) /\ value_object st x.
Proof.
  intros D DX P. destruct (s_decomp st SH x dc DX) as (_ & _ & _ & E & _).
  assert (Dd : In dc (adeps st n)) by (now apply (w_part st WI dc k)).
  assert (Dx : In x (adeps st dc)) by (now apply (w_dec st WI)).
  pose proof (reach n dc D Dd) as Ddc.
  assert (NI : forall nm, abuild st dc <> BIndep nm) by (intros nm; congruence).
  assert (HB : has_build st dc = true) by (unfold has_build; now rewrite E).
  pose proof (fin_equation dc Ddc HB NI) as EQ. pose proof (SA dc Ddc NI) as S1.
  unfold comp_writes, comp_reads, parts_of in EQ, S1. rewrite E in EQ, S1. cbn [map] in EQ, S1.
  assert (Q : fin (aname st n) = computed (part k) [fin (aname st x)] /\ c_out (part k) = shape_of (aname st n)
              /\ c_ins (part k) = [shape_of (aname st x)]).
  { clear - EQ S1 P. induction (aparts st dc) as [|p l IHl]; [contradiction|].
    cbn [map] in EQ, S1. injection EQ as E1 E2. inversion S1; subst. destruct P as [->|P]; [tauto|now apply IHl]. }
  destruct Q as (Q1 & Q2 & Q3). splits; auto. apply (UO dc). left. now apply uses_whole.
Qed.

Lemma at_indep n nm : dep_on (adeps st) root n -> abuild st n = BIndep nm -> fin nm = ind n.
Proof.
  intros D E. unfold fin.
  apply (pass_indep table asm part subs sub_reads sub_writes st INV SH WI UO DEF NO SUBLEN added ND SP BF ind s n nm);
    [|assumption]. apply SP. split; [assumption|]. unfold has_build. now rewrite E.
Qed.

Definition reads_right (a : nat) (x : nd R) : Prop :=
  dep_on (adeps st) root a -> value_object st a -> same_array x (arr a).

Lemma all_right n operands xs : dep_on (adeps st) root n ->
  (forall a, In a operands -> In a (adeps st n) /\ value_object st a) ->
  Forall2 reads_right operands xs ->
  map shp xs = map (fun a => shape_of (aname st a)) operands /\
  Forall2 (fun x v => forall i, i < size (shp x) -> dat x i = v i) xs (map (fun a => fin (aname st a)) operands).
Proof.
  intros D H F2. induction F2 as [|a x l xs R F2 IH]; cbn; [split; constructor|].
  destruct IH as [I1 I2]; [intros; apply H; now right|].
  destruct (H a) as [A1 A2]; [now left|]. destruct (R (reach n a D A1) A2) as [S1 S2].
  split; [f_equal; auto|]. constructor; [exact S2|assumption].
Qed.

Lemma documented_table n f operands dom m : dep_on (adeps st) root n -> abuild st n = BExpr f operands ->
  documented (call f) dom m ->
  correct_within dom (table f) m /\ chain_rule dom (table f) /\ determined dom (table f) m.
Proof.
  intros D E H. destruct (documented_chain _ _ _ H) as (c & S1 & _ & C1 & C2 & C3).
  pose proof (bt_call _ _ _ _ _ _ _ _ _ BT n f operands D E) as S2. rewrite S1 in S2. injection S2 as _ <-. auto.
Qed.

Lemma selects_table n x k e : dep_on (adeps st) root n -> abuild st n = BDecomp x -> In (k, e) (aparts st n) ->
  correct_within everywhere (part k) (selects (key k)) /\ chain_rule everywhere (part k)
  /\ determined everywhere (part k) (selects (key k)).
Proof.
  intros D E P. destruct (bt_part _ _ _ _ _ _ _ _ _ BT n x k e D E P) as (ks & v & rs & v' & i & p & A1 & A2 & A3 & A4 & A5).
  destruct (part_chain _ _ _ _ _ _ _ A1 A2 A3) as (p' & c & B1 & B2 & _ & _ & B3 & B4 & B5).
  assert (c = part k) as -> by congruence. splits; auto. now apply correct_is_within.
Qed.

Lemma assembles_table n : dep_on (adeps st) root n -> abuild st n = BIndexed ->
  let m := assembles (shape_of (aname st n)) (start n) (kept n) in
  map as_name (kept n) = map snd (atgt st n) /\
  correct_within everywhere (asm n) m /\ chain_rule everywhere (asm n) /\ determined everywhere (asm n) m.
Proof.
  intros D E m. destruct (bt_asm _ _ _ _ _ _ _ _ _ BT n D E) as (hs & o & rs & A1 & A2 & A3 & A4 & A5 & A6 & A7).
  destruct (assembled_chain _ _ _ _ (start n) A1 A2 A3 A4) as (c & B1 & _ & _ & B2 & B3 & B4).
  assert (c = asm n) as -> by congruence. rewrite <- A5 in *. splits; auto. now apply correct_is_within.
Qed.

(** whatever the formula stands for, the pass has computed it *)
Lemma meaning_computed n y : denotes ind fin n y -> reads_right n y.
Proof.
  apply (denotes_ind2 call key kept start shape_of st ind fin
    (fun n y _ => reads_right n y) (fun ns ys _ => Forall2 reads_right ns ys)); clear n y.
  - intros n K D V. split; [reflexivity|]. intros k _. reflexivity.
  - intros n nm E D V. split; [reflexivity|]. intros k _. cbn.
    assert (K : aname st n = nm).
    { destruct V as (V1 & V2 & V3 & V4). destruct (akind st n) eqn:K; try congruence.
      - destruct (s_var st SH n V1 V2 K) as [(f & l & A)|[[A _]|[x A]]]; congruence.
      - rewrite (s_input st SH n K) in E. discriminate.
      - destruct (s_indep st SH n K) as (u & A & AN). congruence.
      - destruct (s_expl st SH n K) as [[Q _]|[_ [[e Q]|Q]]]; congruence.
      - now apply (s_imp st SH) in K. }
    rewrite K. now rewrite (at_indep n nm D E).
  - intros n f operands xs dom m y E _ IH DC DM M Hs D V.
    destruct (at_call n f operands D E) as (A1 & A2 & A3 & A4).
    destruct (all_right n operands xs D A4 IH) as [F1 F2].
    destruct (documented_table n f operands dom m D E DC) as (C1 & C2 & C3).
    split; [exact Hs|]. intros o Ho. cbn [dat arr]. rewrite Hs, <- A2 in Ho. rewrite A1.
    apply (component_value (table f) dom m xs y); auto; congruence.
  - intros n e y E _ IH D V. destruct (at_define n e D E) as (A1 & A2 & A3 & A4).
    destruct (IH (reach n e D A3) A4) as [S1 S2]. split; [cbn in *; congruence|].
    intros k Hk. cbn in *. rewrite A1. now apply S2.
  - intros n xs y E _ IH M D V.
    destruct (assembles_table n D E) as (T & C1 & C2 & C3).
    destruct (at_assign n D E) as (A1 & A2 & A3 & A4). rewrite T in IH.
    destruct (all_right n _ xs D A4 IH) as [F1 F2].
    destruct M as [Hs M]. split; [exact Hs|]. intros o Ho. cbn [dat arr]. rewrite Hs, <- A2 in Ho. rewrite A1.
    apply (component_value (asm n) everywhere (assembles (shape_of (aname st n)) (start n) (kept n)) xs y); auto;
      [congruence|exact I|now split|congruence].
  - intros n x dc k xv y DX P _ IH M D V.
    destruct (at_part n x dc k D DX P) as (A1 & A2 & A3 & A4 & A5 & A6 & A7 & A8).
    destruct (selects_table dc x k n A4 A5 P) as (C1 & C2 & C3).
    destruct (IH (reach dc x A4 A7) A8) as [S1 S2].
    assert (Hs : shp y = c_out (part k)).
    { destruct C1 as (_ & F & HF & _). destruct (HF (entries_of [xv]) I) as [_ K].
      rewrite A3 in K. pose proof (inputs_entries [xv]) as IE. cbn [map] in IE. rewrite S1 in IE. cbn [arr shp] in IE.
      rewrite IE in K.
      destruct K as (x1 & y1 & E1 & E2 & E3 & _), M as (x2 & y2 & E4 & E5 & E6 & _).
      injection E1 as <-. injection E4 as <-. cbn [shp] in E3. congruence. }
    split; [cbn; congruence|]. intros o Ho. cbn [dat arr]. rewrite Hs in Ho. rewrite A1.
    apply (component_value (part k) everywhere (selects (key k)) [xv] y); auto.
    + cbn [map]. rewrite S1. cbn. now rewrite A3.
    + exact I.
  - constructor.
  - intros n y ns ys _ IH1 _ IH2. now constructor.
Qed.

Lemma denotes_list ns : (forall a, In a ns -> denotes ind fin a (arr a)) -> denotes_all ind fin ns (map arr ns).
Proof. induction ns as [|a ns IH]; intros H; cbn; constructor; [apply H; now left|apply IH; intros; apply H; now right]. Qed.

Lemma inputs_arr l : inputs_of (map (fun a => shape_of (aname st a)) l) (args (map (fun a => fin (aname st a)) l)) = map arr l.
Proof.
  rewrite <- (inputs_entries (map arr l)) at 1. unfold entries_of. rewrite !map_map. reflexivity.
Qed.

(** where every call is used within its domain, every expression has a meaning *)
Lemma meaning_exists : within call st fin ->
  forall n, dep_on (adeps st) root n -> value_object st n -> denotes ind fin n (arr n).
Proof.
  intros W. destruct INV as [B R].
  set (rank := height (adeps st) (anext st)).
  assert (RK : ranked (adeps st) rank) by (apply finite_acyclic_ranked; [apply (v_fin st B)|assumption]).
  assert (G : forall k n, rank n < k -> dep_on (adeps st) root n -> value_object st n -> denotes ind fin n (arr n)).
  2: { intros n. apply (G (S (rank n))). lia. }
  induction k as [|k IH]; intros n L D VO; [lia|].
  assert (IHd : forall a, In a (adeps st n) -> value_object st a -> denotes ind fin a (arr a)).
  { intros a Ha Va. apply IH; auto.
    - pose proof (RK n a Ha). lia.
    - now apply (reach n). }
  destruct VO as (V1 & V2 & V3 & V4).
  destruct (akind st n) eqn:K; try congruence.
  - destruct (s_var st SH n V1 V2 K) as [(f & l & E)|[[A (dc & j & P)]|[x A]]].
    + destruct (at_call n f l D E) as (A1 & A2 & A3 & A4).
      destruct (W n f l D E) as (dom & m & DC & DM).
      destruct (documented_table n f l dom m D E DC) as ((_ & F & HF & _) & _ & _).
      apply (dn_call _ _ _ _ _ _ _ _ n f l (map arr l) dom m); auto.
      * apply denotes_list. intros a Ha. destruct (A4 a Ha). now apply IHd.
      * unfold entries_of. rewrite map_map. exact DM.
      * destruct (HF _ DM) as [E1 E2]. rewrite A3 in E2. rewrite inputs_arr in E2.
        assert (Q : arr n = Nd (c_out (table f)) (F (args (map (fun a => fin (aname st a)) l)))).
        { unfold arr. rewrite A2, A1. f_equal. unfold computed, value_of. now rewrite E1. }
        rewrite Q. exact E2.
    + destruct (s_parts st SH dc j n P) as (_ & _ & _ & x & DX).
      destruct (at_part n x dc j D DX P) as (A1 & A2 & A3 & A4 & A5 & A6 & A7 & A8).
      destruct (selects_table dc x j n A4 A5 P) as ((_ & F & HF & _) & _ & _).
      apply (dn_part _ _ _ _ _ _ _ _ n x dc j (arr x)); auto.
      * apply IH; auto.
        -- pose proof (RK n dc A6). pose proof (RK dc x A7). lia.
        -- now apply (reach dc).
      * destruct (HF (args [fin (aname st x)]) I) as [E1 E2]. rewrite A3 in E2.
        change (inputs_of [shape_of (aname st x)] (args [fin (aname st x)])) with
          (inputs_of (map (fun a => shape_of (aname st a)) [x]) (args (map (fun a => fin (aname st a)) [x]))) in E2.
        rewrite inputs_arr in E2.
        assert (Q : arr n = Nd (c_out (part j)) (F (args [fin (aname st x)]))).
        { unfold arr. rewrite A2, A1. f_equal. unfold computed, value_of. now rewrite E1. }
        rewrite Q. exact E2.
    + now apply V4 in A.
  - now apply dn_input.
  - destruct (s_indep st SH n K) as (u & A & AN).
    replace (arr n) with (Nd (shape_of (aname st n)) (ind n)); [now apply dn_indep with (User u)|].
    unfold arr. rewrite AN. now rewrite (at_indep n (User u) D A).
  - destruct (s_expl st SH n K) as [[_ Q]|[_ [[e A]|A]]].
    + rewrite DEF in Q by assumption. discriminate.
    + destruct (at_define n e D A) as (A1 & A2 & A3 & A4).
      replace (arr n) with (arr e); [apply dn_define with e; auto|]. unfold arr. now rewrite A1, A2.
    + destruct (at_assign n D A) as (A1 & A2 & A3 & A4).
      destruct (assembles_table n D A) as (T & (_ & F & HF & _) & _ & _).
      apply (dn_assign _ _ _ _ _ _ _ _ n (map arr (map snd (atgt st n)))); auto.
      * rewrite T. apply denotes_list. intros a Ha. destruct (A4 a Ha). now apply IHd.
      * destruct (HF (args (map (fun a => fin (aname st a)) (map snd (atgt st n)))) I) as [E1 E2].
        rewrite A3, inputs_arr in E2.
        assert (Q : arr n = Nd (c_out (asm n)) (F (args (map (fun a => fin (aname st a)) (map snd (atgt st n)))))).
        { unfold arr. rewrite A2, A1. f_equal. unfold computed, value_of. now rewrite E1. }
        rewrite Q. exact E2.
  - now apply (s_imp st SH) in K.
Qed.

(** ... and the chain rule holds there *)
Lemma within_chained : within call st fin ->
  (forall n k g c, dep_on (adeps st) root n -> abuild st n = BSub k g -> In c (subs k) ->
     exists dom, chain_rule dom c /\ dom (args (map fin (sub_reads k)))) ->
  chained table asm part subs sub_reads shape_of st fin.
Proof.
  intros W SB n c D H. unfold parts_of in H.
  destruct (abuild st n) as [|f l|nm|e| |k g|x] eqn:E; try contradiction; unfold comp_reads; rewrite E.
  - destruct H as [<-|[]]. destruct (W n f l D E) as (dom & m & DC & DM). exists dom. split.
    + exact (proj1 (proj2 (documented_table n f l dom m D E DC))).
    + now rewrite map_map.
  - destruct H as [<-|[]]. exists everywhere. split; [|exact I].
    exact (proj1 (proj2 (defined_chain _ (Facts 0 (shape_of (aname st n)) []) eq_refl))).
  - destruct H as [<-|[]]. exists everywhere. split; [|exact I].
    exact (proj1 (proj2 (proj2 (assembles_table n D E)))).
  - exact (SB n k g c D E H).
  - apply in_map_iff in H. destruct H as ([k e] & <- & P). exists everywhere. split; [|exact I].
    exact (proj1 (proj2 (selects_table n x k e D E P))).
Qed.
End Model.

Lemma shapes_sizes shape_of st table asm part subs sub_reads sub_writes :
  shapes_agree shape_of st table asm part subs sub_reads sub_writes ->
  sizes_agree table asm part subs sub_reads sub_writes shape_of st.
Proof.
  intros H n D NI. specialize (H n D NI). induction H as [|x c xs cs [H1 H2] H IH]; constructor; auto.
  rewrite H1, H2, map_map. auto.
Qed.

Lemma model_means call key kept start table asm part subs sub_reads sub_writes shape_of O uid reverse fuel h st rs :
  run_ops O fuel api0 h = Some (st, rs) ->
  throughout O no_self_reference fuel api0 h ->
  all_tidy st -> uid_distinct root uid (adeps st) ->
  (forall out, created_output h rs out -> exists i, given_value h rs i out) ->
  labels_distinct st -> SpecRun.names_ok sub_reads sub_writes st ->
  (forall k, length (subs k) = length (sub_writes k)) ->
  built call key kept start shape_of st table asm part ->
  shapes_agree shape_of st table asm part subs sub_reads sub_writes ->
  exists added, eventually (fun f => group_setup O set_list uid f reverse st) (Ok added)
    /\ let fin ind s := pass table asm part subs sub_reads sub_writes st added ind s in
       let denotes ind s := denotes call key kept start shape_of st ind (fin ind s) in
       (forall ind s x, ~ written sub_writes st x -> fin ind s x = s x)
       /\ (forall ind s n y, dep_on (adeps st) root n -> value_object st n -> denotes ind s n y ->
          same_array y (Nd (shape_of (aname st n)) (fin ind s (aname st n))))
       /\ (forall ind s, within call st (fin ind s) ->
             forall n, dep_on (adeps st) root n -> value_object st n ->
               denotes ind s n (Nd (shape_of (aname st n)) (fin ind s (aname st n))))
       /\ (forall s ind t0 ds dind T n val e i,
             given_rates sub_writes shape_of st s ind t0 ds dind ->
             within call st (fin (ind t0) (s t0)) ->
             (forall n k g c, dep_on (adeps st) root n -> abuild st n = BSub k g -> In c (subs k) ->
                exists dom, chain_rule dom c /\ dom (args (map (fin (ind t0) (s t0)) (sub_reads k)))) ->
             solves table asm part subs sub_reads sub_writes shape_of st (fin (ind t0) (s t0)) ds dind T ->
             dep_on (adeps st) root n -> value_object st n ->
             (0 < e)%R -> (forall t, (Rabs (t - t0) < e)%R -> denotes (ind t) (s t) n (val t)) ->
             i < size (shape_of (aname st n)) ->
             derivable_pt_lim (fun t => dat (val t) i) t0 (T (aname st n) i)).
Proof.
  intros E TH NW UD G LD NO SL BT SA. pose proof (shapes_sizes _ _ _ _ _ _ _ _ SA) as SZ.
  destruct (history_inv O _ _ _ _ E) as [I SH].
  assert (AC : acyclic (adeps st)).
  { apply (run_acyclic O fuel h api0 st rs ainv0 acyclic0); [|assumption].
    apply (throughout_weaken O no_self_reference); [apply self_reference_assign|assumption]. }
  assert (W : wired st) by (now apply (run_wired O fuel h api0 st rs ainv0 shape0 acyclic0 wired0)).
  assert (U : uses_ok st) by (exact (run_uses O fuel h api0 st rs ainv0 shape0 uses_ok0 E)).
  assert (D := all_defined O fuel h st rs E G).
  destruct (api_setup_ok O uid reverse st I (conj AC (conj NW UD)) SH D LD) as (added & A1 & A2 & A3 & A4 & _).
  exists added. split; [assumption|]. cbv zeta.
  assert (P1 : forall ind s n y, dep_on (adeps st) root n -> value_object st n ->
     denotes call key kept start shape_of st ind (pass table asm part subs sub_reads sub_writes st added ind s) n y ->
     same_array y (Nd (shape_of (aname st n)) (pass table asm part subs sub_reads sub_writes st added ind s (aname st n)))).
  { intros ind s n y Dn V H.
    exact (meaning_computed table asm part subs sub_reads sub_writes shape_of st I SH W U D NO SL added A2 A3 A4
             call key kept start BT SA ind s n y H Dn V). }
  split.
  { intros ind s x Hx. apply (pass_other table asm part subs sub_reads sub_writes st added A3 ind s x Hx). }
  split; [exact P1|split].
  - intros ind s WI n Dn V.
    exact (meaning_exists table asm part subs sub_reads sub_writes shape_of st I SH W U AC D NO SL added A2 A3 A4
             call key kept start BT SA ind s WI n Dn V).
  - intros s ind t0 ds dind T n val e i RT WI SB ST Dn V He DV Hi.
    assert (CH : chained table asm part subs sub_reads shape_of st
                   (pass table asm part subs sub_reads sub_writes st added (ind t0) (s t0))).
    { exact (within_chained table asm part subs sub_reads sub_writes shape_of st added
               call key kept start BT (ind t0) (s t0) WI SB). }
    pose proof (solution_is_derivative table asm part subs sub_reads sub_writes shape_of st I SH W U D NO SL
             added A2 A3 A4 SZ s ind t0 ds dind RT CH T ST (aname st n) i Hi) as DD.
    eapply derivable_pt_lim_ext_loc; [exact He| |exact DD].
    intros t Ht. cbn beta. destruct (P1 _ _ _ _ Dn V (DV t Ht)) as [S1 S2]. symmetry. apply S2. now rewrite S1.
Qed.
