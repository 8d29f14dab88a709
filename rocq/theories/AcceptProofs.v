(** Which calls return an expression. *)
From Coq Require Import Reals Lia Arith List ZArith Bool.
From Verif Require Import PyBase RSum NdArray NdEinsum Component SpecReduce SpecReorder CompReorder CompReduce CompProduct CompTensor
  CompElem CompExtremum CompNorm CompEinsum CompCond StdCalls ShapeMain SpecBuild BuildProofs EinsumStrings EinsumProofs EinsumNew
  ReorderProofs BroadcastProofs SpecAccept.
Import ListNotations.
Local Open Scope nat_scope.

(** ---- axes ---- *)
Lemma norm_axis_some r z a : norm_axis r z = Some a <-> axis_named r z a.
Proof.
  unfold norm_axis, axis_named.
  destruct (Z.leb_spec 0 z); destruct (Z.ltb_spec z (Z.of_nat r)); cbn [andb].
  all: try (destruct (Z.leb_spec (- Z.of_nat r) z); destruct (Z.ltb_spec z 0); cbn [andb]).
  all: split; [intros E; first [discriminate|injection E as <-; lia]|intros [G1 G2]; first [lia|f_equal; lia]].
Qed.
Lemma norm_axis_named r z : norm_axis r z <> None <-> exists a, axis_named r z a.
Proof.
  destruct (norm_axis r z) as [a|] eqn:E.
  - split; [intros _; exists a; now apply norm_axis_some|discriminate].
  - split; [congruence|]. intros [a H]. apply norm_axis_some in H. congruence.
Qed.
Lemma norm_axes_named r zs : norm_axes r zs <> None <-> all_named r zs.
Proof.
  unfold all_named. induction zs as [|z zs IH]; cbn.
  - split; [intros _ z []|discriminate].
  - destruct (norm_axis r z) as [a|] eqn:E.
    + assert (N := proj1 (norm_axis_some r z a) E). destruct (norm_axes r zs) as [l|].
      * split; [|discriminate]. intros _ y [<-|H]; [eauto|]. now apply (proj1 IH).
      * split; [congruence|]. intros H. apply IH. intros y Hy. apply H. now right.
    + split; [congruence|]. intros H. destruct (H z (or_introl eq_refl)) as [a Ha]. apply norm_axis_some in Ha. congruence.
Qed.

Lemma returns_iff o (c : option component) : returns o c <> None <-> o <> None.
Proof. destruct o; cbn; split; congruence. Qed.
Lemma delete_iff s zs : np_delete_axes s zs <> None <-> all_named (length s) zs.
Proof. rewrite <- norm_axes_named. unfold np_delete_axes. destruct (norm_axes _ _); cbn; split; congruence. Qed.

(** ---- arrows ---- *)
Lemma split_step c d s : split_arrow (c :: d :: s) =
  if Nat.eqb c c_minus && Nat.eqb d c_gt then ([], Some s)
  else let (a, b) := split_arrow (d :: s) in (c :: a, b).
Proof. reflexivity. Qed.

Lemma arrow_head l a b : l = a ++ arrow ++ b -> a = [] -> exists s, l = 45 :: 62 :: s.
Proof. intros -> ->. cbn. eauto. Qed.

Lemma no_arrow_tail c l : no_arrow (c :: l) -> no_arrow l.
Proof. intros H a b ->. apply (H (c :: a) b). reflexivity. Qed.

Lemma split_arrow_iff l : match split_arrow l with
  | (a, Some b) => l = a ++ arrow ++ b /\ no_arrow a
  | (a, None) => l = a /\ no_arrow l
  end.
Proof.
  induction l as [|c l IH]; [cbn; split; [reflexivity|]; intros [|x a] b E; discriminate|].
  destruct l as [|d s].
  - cbn. split; [reflexivity|]. intros [|x [|y a]] b E; discriminate.
  - rewrite split_step. destruct (Nat.eqb c c_minus && Nat.eqb d c_gt) eqn:E.
    + apply andb_true_iff in E. destruct E as [E1 E2]. apply Nat.eqb_eq in E1, E2. subst. split; [reflexivity|].
      intros [|x a] b E; discriminate.
    + assert (NE : ~ (c = 45 /\ d = 62)).
      { intros [-> ->]. discriminate. }
      destruct (split_arrow (d :: s)) as [a [b|]].
      * destruct IH as [EQ NA]. split; [now rewrite EQ|].
        intros [|x p] q Q.
        -- cbn in Q. injection Q as Qc Q. destruct a as [|y a]; [discriminate|]. cbn in EQ. injection Q as Qy _.
           apply NE. split; [assumption|]. injection EQ as EQ _. congruence.
        -- cbn in Q. injection Q as -> Q. now apply (NA p q).
      * destruct IH as [<- NA]. split; [reflexivity|]. intros [|x p] q Q.
        -- cbn in Q. injection Q as -> -> _. now apply NE.
        -- cbn in Q. injection Q as -> Q. now apply (NA p q).
Qed.

Lemma split_arrow_at a b : no_arrow a -> split_arrow (a ++ arrow ++ b) = (a, Some b).
Proof.
  induction a as [|c a IH]; intros NA; [reflexivity|].
  specialize (IH (no_arrow_tail _ _ NA)). cbn [app]. destruct a as [|d a].
  - cbn [app] in *. change (arrow ++ b) with (45 :: 62 :: b) in *. rewrite split_step.
    assert (E : Nat.eqb c c_minus && Nat.eqb 45 c_gt = false) by (apply andb_false_r). rewrite E, IH. reflexivity.
  - cbn [app] in *. rewrite split_step, IH.
    destruct (Nat.eqb c c_minus && Nat.eqb d c_gt) eqn:E; [|reflexivity].
    apply andb_true_iff in E. destruct E as [E1 E2]. apply Nat.eqb_eq in E1, E2. subst. exfalso. now apply (NA [] a).
Qed.
Lemma split_arrow_no a : no_arrow a -> split_arrow a = (a, None).
Proof.
  intros NA. pose proof (split_arrow_iff a) as H. destruct (split_arrow a) as [p [b|]].
  - destruct H as [E _]. exfalso. now apply (NA p b).
  - now destruct H as [-> _].
Qed.

(** ---- first occurrences ---- *)
Lemma find_first l c : In c l -> first_at l c (find_pos l c).
Proof.
  induction l as [|x l IH]; [intros []|]. intros H. cbn. destruct (Nat.eqb_spec x c) as [->|NE].
  - split; [reflexivity|]. intros i Hi. lia.
  - destruct H as [|H]; [contradiction|]. destruct (IH H) as [A B]. split; [exact A|].
    intros [|i] Hi; cbn; [congruence|]. apply B. lia.
Qed.
Lemma first_unique l c j : first_at l c j -> In c l /\ j = find_pos l c.
Proof.
  intros [A B]. assert (I := nth_error_In _ _ A). split; [assumption|]. destruct (find_first l c I) as [A' B'].
  destruct (Nat.lt_trichotomy j (find_pos l c)) as [L|[E|L]]; [|assumption|].
  - now apply B' in L.
  - now apply B in L.
Qed.

Lemma map_opt_iff {A B} (f : A -> option B) l : map_opt f l <> None <-> forall x, In x l -> f x <> None.
Proof.
  induction l as [|x l IH]; cbn.
  - split; [intros _ x []|discriminate].
  - destruct (f x) as [y|] eqn:E.
    + destruct (map_opt f l) as [r|].
      * split; [|discriminate]. intros _ z [<-|H]; [congruence|now apply (proj1 IH)].
      * split; [congruence|]. intros H. apply IH. intros z Hz. apply H. now right.
    + split; [congruence|]. intros H. now apply H in E; [|left].
Qed.

Lemma reorder_accepts s op : reorder_std s op <> None <->
  exists ins rest outs, filter (fun c => negb (Nat.eqb c 32)) op = ins ++ arrow ++ rest /\ no_arrow ins /\
    up_to_arrow rest outs /\ forall c, In c outs -> exists j, first_at ins c j /\ j < length s.
Proof.
  unfold reorder_std, new_axes. change c_space with 32. set (str := filter _ op).
  assert (K : forall ins outs, (match map_opt (str_index ins) outs with
      Some p => map_opt (fun i => nth_error s i) p | None => None end) <> None <->
      forall c, In c outs -> exists j, first_at ins c j /\ j < length s).
  { intros ins. induction outs as [|c outs IH]; cbn [map_opt].
    - split; [intros _ c []|discriminate].
    - unfold str_index at 1. destruct (mem c ins) eqn:M.
      + apply mem_In in M. assert (F := find_first ins c M).
        destruct (map_opt (str_index ins) outs) as [p|]; cbn [map_opt].
        * destruct (nth_error s (find_pos ins c)) as [n|] eqn:E.
          -- assert (L : find_pos ins c < length s) by (apply nth_error_Some; congruence).
             destruct (map_opt (fun i => nth_error s i) p) as [t|].
             ++ split; [|discriminate]. intros _ d [<-|H]; [eauto|]. now apply (proj1 IH).
             ++ split; [congruence|]. intros H. apply IH. intros d Hd. apply H. now right.
          -- split; [congruence|]. intros H. destruct (H c (or_introl eq_refl)) as (j & F' & L).
             apply first_unique in F'. destruct F' as [_ ->]. apply nth_error_None in E. lia.
        * split; [congruence|]. intros H. apply IH. intros d Hd. apply H. now right.
      + split; [congruence|]. intros H. destruct (H c (or_introl eq_refl)) as (j & F & _).
        apply first_unique in F. destruct F as [I _]. apply mem_In in I. congruence. }
  pose proof (split_arrow_iff str) as P. destruct (split_arrow str) as [ins [rest|]] eqn:E.
  - destruct P as [P NA]. rewrite K. split.
    + intros H. exists ins, rest, (fst (split_arrow rest)). splits; auto.
      pose proof (split_arrow_iff rest) as Q. unfold up_to_arrow. destruct (split_arrow rest) as [o [r|]]; cbn [fst].
      * destruct Q as [-> Q]. split; [assumption|]. right. now exists r.
      * destruct Q as [-> Q]. auto.
    + intros (ins' & rest' & outs & H1 & H2 & H3 & H4).
      rewrite H1, split_arrow_at in E by assumption. injection E as <- <-.
      destruct H3 as [N [->|[r ->]]]; [rewrite split_arrow_no by assumption|rewrite split_arrow_at by assumption]; exact H4.
  - destruct P as [_ P]. split; [congruence|]. intros (ins' & rest' & outs & H1 & _). exfalso. now apply (P ins' rest').
Qed.

(** ---- expand ---- *)
Lemma kept_positions ins : forall outs s, kept ins outs s =
  shape_at s (select_positions (length s) (expand_positions ins outs)).
Proof.
  assert (G : forall s outs k all (full : list nat), (forall i, nth (k + i) full 0 = nth i s 0) ->
    (forall i, nth_error all (k + i) = nth_error outs i) ->
    kept ins outs s = map (fun i => nth i full 0)
      (filter (fun i => negb (mem i (expand_positions ins all))) (seq k (length s)))).
  { induction s as [|n s IH]; intros outs k all full F A; [reflexivity|]. cbn [length seq filter].
    assert (F' : forall i, nth (S k + i) full 0 = nth i s 0).
    { intros i. specialize (F (S i)). cbn in F. rewrite <- F. f_equal. lia. }
    assert (X : mem k (expand_positions ins all) = match outs with [] => false | c :: _ => negb (mem c ins) end).
    { apply eq_true_iff_eq. rewrite mem_In. unfold expand_positions. rewrite filter_In, in_seq.
      specialize (A 0). rewrite Nat.add_0_r in A. destruct outs as [|c outs].
      - cbn in A. apply nth_error_None in A. split; [lia|discriminate].
      - cbn in A. assert (k < length all) by (apply nth_error_Some; congruence).
        rewrite (nth_error_nth _ _ 0 A). split; [intros [_ H']; exact H'|]. intros H'. split; [lia|exact H']. }
    rewrite X. assert (F0 := F 0). rewrite Nat.add_0_r in F0. cbn in F0.
    destruct outs as [|c outs].
    - cbn [kept negb map]. rewrite F0. f_equal. apply IH; [exact F'|].
      intros i. rewrite Nat.add_succ_comm, A. now destruct i.
    - cbn [kept]. rewrite Bool.negb_involutive.
      assert (A' : forall i, nth_error all (S k + i) = nth_error outs i).
      { intros i. rewrite Nat.add_succ_comm, A. reflexivity. }
      destruct (in_dec Nat.eq_dec c ins) as [I|I].
      + apply mem_In in I. rewrite I. cbn [map]. rewrite F0. f_equal. now apply IH.
      + apply mem_not_In in I. rewrite I. now apply IH. }
  intros outs s. unfold shape_at, select_positions. apply G; reflexivity.
Qed.

Lemma expand_accepts xs s indices : expand_std xs s indices <> None <->
  match indices with
  | None => xs = [1]
  | Some str => exists ins outs, one_arrow str ins outs /\ (xs = [1] \/ length s <= 10 /\ kept ins outs s = xs)
  end.
Proof.
  unfold expand_std. destruct indices as [str|].
  2:{ destruct (list_eq_dec _ xs [1]); split; congruence. }
  pose proof (split_arrow_iff str) as P. destruct (split_arrow str) as [ins [r|]] eqn:E.
  2:{ destruct P as [_ P]. split; [congruence|]. intros (i & o & (H & _) & _). exfalso. now apply (P i o). }
  destruct P as [P NA]. pose proof (split_arrow_iff r) as Q. destruct (split_arrow r) as [outs [r'|]] eqn:E'.
  { destruct Q as [Q _]. split; [congruence|]. intros (i & o & (H & N1 & N2) & _). exfalso.
    rewrite H, split_arrow_at in E by assumption. injection E as <- <-. now apply (N2 outs r'). }
  destruct Q as [-> NR].
  assert (U : forall i o, one_arrow str i o -> i = ins /\ o = outs).
  { intros i o (H & N1 & N2). rewrite H, split_arrow_at in E by assumption. injection E as -> ->. auto. }
  assert (OA : one_arrow str ins outs) by (unfold one_arrow; splits; auto).
  destruct (list_eq_dec _ xs [1]) as [X|X].
  - split; [|discriminate]. intros _. exists ins, outs. auto.
  - unfold decompose_shape_tuple. destruct (Nat.leb_spec (length s) 10) as [L|L].
    + cbn [d_in_shape]. rewrite <- kept_positions. destruct (list_eq_dec _ (kept ins outs s) xs) as [K|K].
      * split; [|discriminate]. intros _. exists ins, outs. auto.
      * split; [congruence|]. intros (i & o & H & [?|[_ H']]); [contradiction|]. apply U in H. destruct H as [-> ->]. contradiction.
    + split; [congruence|]. intros (i & o & H & [?|[H' _]]); [contradiction|lia].
Qed.

(** ---- einsum ---- *)
Lemma char_found c : forall subs shapes, shape_of_char subs shapes c <> None <-> extent_found subs shapes c.
Proof.
  induction subs as [|r subs IH]; intros shapes; cbn [shape_of_char].
  - split; [|discriminate]. intros _ [|p pre] r post j E; discriminate.
  - destruct (mem c r) eqn:M.
    + apply mem_In in M. assert (F := find_first r c M). split.
      * intros H [|p pre] r' post j E N FA.
        -- injection E as <- <-. apply first_unique in FA. destruct FA as [_ ->]. destruct shapes as [|s shapes]; [congruence|].
           exists s. split; [reflexivity|]. destruct (nth_error s (find_pos r c)) eqn:E'; [|cbn in H; congruence].
           apply nth_error_Some. congruence.
        -- injection E as <- _. exfalso. now apply (N r (or_introl eq_refl)).
      * intros H. destruct (H [] r subs (find_pos r c) eq_refl ltac:(intros p []) F) as (s & E & L).
        destruct shapes as [|s' shapes]; [discriminate|]. cbn in E. injection E as ->.
        destruct (nth_error s (find_pos r c)) eqn:E'; [discriminate|]. apply nth_error_None in E'. lia.
    + apply mem_not_In in M. rewrite IH. split.
      * intros H [|p pre] r' post j E N FA.
        -- injection E as <- <-. apply first_unique in FA. now destruct FA.
        -- injection E as <- ->. destruct (H pre r' post j eq_refl) as (s & Es & L); [intros q Hq; apply N; now right|assumption|].
           exists s. split; [|assumption]. cbn [length]. destruct shapes as [|s' shapes]; [destruct (length pre); discriminate|exact Es].
      * intros H pre r' post j -> N FA. destruct (H (r :: pre) r' post j eq_refl) as (s & Es & L); [|assumption|].
        -- intros q [<-|Hq]; [assumption|now apply N].
        -- exists s. split; [|assumption]. cbn [length] in Es. destruct shapes as [|s' shapes]; [discriminate|exact Es].
Qed.

Lemma shape_found subs out shapes : compute_einsum_shape (subs ++ [out]) shapes <> None <->
  forall c, In c out -> extent_found subs shapes c.
Proof.
  unfold compute_einsum_shape. rewrite last_last, removelast_last. destruct out as [|c out].
  - split; [intros _ c []|discriminate].
  - assert (K := map_opt_iff (shape_of_char subs shapes) (c :: out)).
    destruct (map_opt (shape_of_char subs shapes) (c :: out)); cbn [option_map].
    + split; [|discriminate]. intros _ d Hd. apply char_found. now apply (proj1 K).
    + split; [congruence|]. intros H. exfalso. apply (proj2 K); [|reflexivity]. intros d Hd. apply char_found. auto.
Qed.

(** the letters of the tuple form *)
Lemma name_axes_few : forall t axes axes' rep, NoDup axes -> length axes <= 26 -> name_axes axes t = Some (axes', rep) ->
  axes' = dedup (axes ++ t) /\ length axes' <= 26.
Proof.
  induction t as [|a t IH]; intros axes axes' rep ND L E; cbn [name_axes] in E.
  - injection E as <- _. rewrite app_nil_r, dedup_id by assumption. auto.
  - set (ax := if mem a axes then axes else axes ++ [a]) in *.
    assert (EA : ax = dedup (axes ++ [a])) by (unfold ax; now rewrite dedup_app_in).
    destruct (letter_of ax a) as [c|] eqn:EL; [|discriminate].
    destruct (name_axes ax t) as [[axes'' rep']|] eqn:EN; [|discriminate]. injection E as <- _.
    assert (La : length ax <= 26).
    { unfold ax in *. destruct (mem a axes) eqn:M; [assumption|]. apply mem_not_In in M.
      unfold letter_of in EL. destruct (mem a (axes ++ [a])); [|discriminate].
      assert (P : find_pos (axes ++ [a]) a = length axes).
      { clear -M. induction axes as [|x l IH]; cbn.
        - now rewrite Nat.eqb_refl.
        - destruct (Nat.eqb_spec x a) as [->|]; [exfalso; apply M; now left|]. f_equal. apply IH. intros H. apply M. now right. }
      rewrite P in EL. assert (length axes < length alphabet) by (apply nth_error_Some; congruence).
      unfold alphabet in H. rewrite seq_length in H. rewrite app_length. cbn. lia. }
    destruct (IH ax axes'' rep' ltac:(rewrite EA; apply dedup_NoDup) La EN) as [-> H]. split; [|assumption].
    rewrite EA, dedup_dedup_app, <- app_assoc. reflexivity.
Qed.
Lemma name_tuples_few : forall ts axes axes' reps, NoDup axes -> length axes <= 26 -> name_tuples axes ts = Some (axes', reps) ->
  length (dedup (axes ++ concat ts)) <= 26.
Proof.
  induction ts as [|t ts IH]; intros axes axes' reps ND L E; cbn [name_tuples concat] in *.
  - rewrite app_nil_r, dedup_id by assumption. assumption.
  - destruct (name_axes axes t) as [[ax rep]|] eqn:EN; [|discriminate].
    destruct (name_tuples ax ts) as [[ax' reps']|] eqn:ET; [|discriminate].
    destruct (name_axes_few _ _ _ _ ND L EN) as [-> L'].
    specialize (IH _ _ _ (dedup_NoDup _) L' ET). rewrite dedup_dedup_app, <- app_assoc in IH. exact IH.
Qed.

Lemma few_names l : length (dedup l) <= 26 <-> forall names, NoDup names -> incl names l -> length names <= 26.
Proof.
  split.
  - intros H names ND I. apply Nat.le_trans with (length (dedup l)); [|assumption]. apply NoDup_incl_length; [assumption|].
    intros x Hx. apply (proj2 (dedup_In _ _)). auto.
  - intros H. apply H; [apply dedup_NoDup|]. intros x Hx. exact (proj1 (dedup_In _ _) Hx).
Qed.

Lemma renamed_found (g : nat -> nat) subs shapes c :
  (forall a, In a (concat subs) -> g a = g c -> a = c) ->
  (extent_found (map (map g) subs) shapes (g c) <-> extent_found subs shapes c).
Proof.
  intros INJ. rewrite <- !char_found. revert shapes.
  induction subs as [|r subs IH]; intros shapes; cbn [map shape_of_char]; [reflexivity|].
  cbn [concat] in INJ.
  assert (INJ' : forall a, In a (concat subs) -> g a = g c -> a = c) by (intros a Ha; apply INJ, in_or_app; now right).
  assert (IR : forall a, In a r -> g a = g c -> a = c) by (intros a Ha; apply INJ, in_or_app; now left).
  assert (M : mem (g c) (map g r) = mem c r).
  { apply eq_true_iff_eq. rewrite !mem_In, in_map_iff. split; [|intros H; now exists c].
    intros (a & E & Ha). rewrite <- (IR a Ha E). assumption. }
  assert (P : find_pos (map g r) (g c) = find_pos r c).
  { clear -IR. induction r as [|x r IH]; [reflexivity|]. cbn.
    assert (E : Nat.eqb (g x) (g c) = Nat.eqb x c).
    { apply eq_true_iff_eq. rewrite !Nat.eqb_eq. split; [apply IR; now left|now intros ->]. }
    rewrite E. destruct (Nat.eqb x c); [reflexivity|]. f_equal. apply IH. intros a Ha. apply IR. now right. }
  rewrite M, P. destruct (mem c r); [reflexivity|]. now apply IH.
Qed.

Lemma tuples_accepts tuples shapes : 
  let ins := input_tuples tuples (length shapes) in
  let out := output_tuple tuples (length shapes) in
  einsum_new_shape tuples shapes <> None <->
  (forall names, NoDup names -> incl names (concat ins) -> length names <= 26) /\
  incl out (concat ins) /\ forall c, In c out -> extent_found ins shapes c.
Proof.
  intros ins out. rewrite <- few_names. unfold einsum_new_shape, new_subscripts.
  set (sc := Nat.eqb (length shapes) (length tuples)) in *.
  assert (EI : firstn (if sc then length tuples else length tuples - 1) tuples = ins).
  { unfold ins, input_tuples. fold sc. destruct sc; [apply firstn_all|].
    rewrite removelast_firstn_len. now rewrite Nat.sub_1_r. }
  rewrite EI. set (g := letter (dedup (concat ins))).
  destruct (le_dec (length (dedup (concat ins))) 26) as [L|L].
  2:{ destruct (name_tuples [] ins) as [[ax reps]|] eqn:E; [|split; [congruence|tauto]].
      apply name_tuples_few in E; [|constructor|cbn; lia]. cbn in E. contradiction. }
  rewrite (name_tuples_ok ins [] (NoDup_nil _) L). cbn [app]. fold g.
  assert (EO : (if Nat.eqb (length tuples) ((if sc then length tuples else length tuples - 1) + 1)
               then map_opt (letter_of (dedup (concat ins))) (last tuples []) else Some [])
             = map_opt (letter_of (dedup (concat ins))) out).
  { unfold out, output_tuple. fold sc. destruct sc.
    - destruct (Nat.eqb_spec (length tuples) (length tuples + 1)); [lia|reflexivity].
    - destruct tuples as [|t tuples]; [reflexivity|].
      destruct (Nat.eqb_spec (length (t :: tuples)) (length (t :: tuples) - 1 + 1)) as [|NE]; [reflexivity|]. cbn in NE. lia. }
  rewrite EO.
  assert (LO : forall c, letter_of (dedup (concat ins)) c <> None <-> In c (concat ins)).
  { intros c. destruct (in_dec Nat.eq_dec c (concat ins)) as [I|I].
    - rewrite (letter_of_in _ c (proj2 (dedup_In _ _) I) L). split; [auto|discriminate].
    - unfold letter_of. assert (M : mem c (dedup (concat ins)) = false) by (apply mem_not_In; now rewrite dedup_In). rewrite M.
      split; [congruence|contradiction]. }
  assert (K := map_opt_iff (letter_of (dedup (concat ins))) out).
  destruct (map_opt (letter_of (dedup (concat ins))) out) as [outs|] eqn:E.
  2:{ split; [congruence|]. intros (_ & I & _). apply K. intros c Hc. apply LO. auto. }
  assert (I : incl out (concat ins)) by (intros c Hc; apply LO; now apply (proj1 K)).
  assert (EG : outs = map g out).
  { clear -E I L. revert outs E. induction out as [|c o IH]; intros outs E; cbn in E; [now injection E as <-|].
    rewrite (letter_of_in _ c (proj2 (dedup_In _ _) (I c (or_introl eq_refl))) L) in E.
    destruct (map_opt (letter_of (dedup (concat ins))) o) as [r|]; [|discriminate]. injection E as <-. cbn. f_equal.
    apply IH; [intros x Hx; apply I; now right|reflexivity]. }
  rewrite EG, shape_found. 
  assert (R : forall c, In c out -> (extent_found (map (map g) ins) shapes (g c) <-> extent_found ins shapes c)).
  { intros c Hc. apply renamed_found. intros a Ha Eg.
    apply (letter_inj (dedup (concat ins))); [now apply dedup_In|apply dedup_In; auto|exact Eg]. }
  split.
  - intros H. splits; auto. intros c Hc. apply R; [assumption|]. apply H. apply in_map_iff. eauto.
  - intros (_ & _ & H) d Hd. apply in_map_iff in Hd. destruct Hd as (c & <- & Hc). apply R; auto.
Qed.

(** ---- all calls ---- *)
Lemma some_not {A} (x : A) : Some x <> None.
Proof. discriminate. Qed.

Lemma reduced_accepts xs axes : reduced_shape xs axes <> None <->
  xs <> [] /\ match axes with None => True | Some zs => all_named (length (x_shape (last_of xs))) zs end.
Proof.
  unfold reduced_shape, last_of. destruct (rev xs) as [|x l] eqn:E.
  - assert (xs = []) as -> by (rewrite <- (rev_involutive xs), E; reflexivity). split; [congruence|tauto].
  - assert (EX : xs = rev l ++ [x]) by (rewrite <- (rev_involutive xs), E; reflexivity). rewrite EX, last_last.
    assert (NE : rev l ++ [x] <> []) by (now destruct (rev l)).
    destruct axes as [zs|].
    + rewrite <- delete_iff. destruct l; tauto.
    + destruct l; split; intros; auto; discriminate.
Qed.

Lemma guard_iff (P : Prop) (d : {P} + {~ P}) o (Q : Prop) : of_outcome o <> None -> (P <-> Q) ->
  (of_outcome (if d then o else Raises) <> None <-> Q).
Proof. intros H PQ. destruct d; cbn; [tauto|]. split; [congruence|tauto]. Qed.
Lemma guard_iff' (P : Prop) (d : {P} + {~ P}) o (Q : Prop) : of_outcome o <> None -> (~ P <-> Q) ->
  (of_outcome (if d then Raises else o) <> None <-> Q).
Proof. intros H PQ. destruct d; cbn; [|tauto]. split; [congruence|tauto]. Qed.

Lemma binop_accepts op a b : of_outcome (py_binop op a b) <> None <-> accepts (KBinop op a b).
Proof.
  cbn [accepts]. destruct a as [n s|c|c|].
  - cbn [py_binop]. destruct b as [m t|c|c|].
    + destruct op; cbn [elementwise addition subtraction multiplication division power];
        try (apply guard_iff; [discriminate|split; [auto|intros [?|?]; [discriminate|assumption]]]).
      split; [auto|]. intros _. discriminate.
    + destruct op; cbn [elementwise addition subtraction multiplication division power];
        try (split; [intros _ ?; discriminate|intros _; discriminate]).
      apply guard_iff'; [discriminate|]. tauto.
    + destruct op; cbn [elementwise addition subtraction multiplication division power];
        try (split; [intros _; split; intros ?; discriminate|intros _; discriminate]).
      * destruct (Nat.eqb_spec (size (shp c)) 1) as [E|E].
        -- apply guard_iff'; [discriminate|]. split; [intros H; split; [auto|discriminate]|intros [H _]; now apply H].
        -- cbn. split; [congruence|]. intros [H _]. now destruct (H eq_refl).
      * apply guard_iff; [discriminate|]. split; [intros H; split; [discriminate|auto]|intros [_ H]; now apply H].
    + destruct op; (split; [auto|intros _; discriminate]).
  - destruct b; destruct op; cbn; split; intros H; try congruence; try tauto; try discriminate; now contradiction H.
  - destruct b; destruct op; cbn; split; intros H; try congruence; tauto.
  - destruct b; cbn; split; intros H; try congruence; tauto.
Qed.

Theorem which_accepted : forall k, in_scope k -> (std k <> None <-> accepts k).
Proof.
  intros k SC. destruct k as [e x|op a b|a|xs axes|xs axes|neg xs axis rho|x p axis|x y axes|x y axis|x y|x y|x y|x y axis|x axis
    |x s|x|x op|x s indices|sparse op xs|sparse tuples xs|c t f]; cbn [std accepts].
  - split; [auto|]. intros _. unfold std_elem. cbn. discriminate.
  - apply binop_accepts.
  - split; [auto|]. intros _. destruct a; cbn; discriminate.
  - rewrite returns_iff. apply reduced_accepts.
  - rewrite returns_iff. apply reduced_accepts.
  - unfold extremum. destruct xs as [|x [|y xs]]; cbn [map name_shape]; destruct axis as [z|].
    + split; [congruence|]. intros (x & a & E & _). discriminate.
    + split; [congruence|tauto].
    + assert (K := norm_axis_named (length (x_shape x)) z). destruct (norm_axis _ z) as [a|] eqn:E.
      * split; [|discriminate]. intros _. exists x, a. split; [reflexivity|]. now apply norm_axis_some.
      * split; [congruence|]. intros (x' & a & E' & H). injection E' as <-. exfalso. apply (proj2 K); [eauto|reflexivity].
    + split; [|discriminate]. intros _. split; [discriminate|]. intros u v [<-|[]] [<-|[]]. reflexivity.
    + split; [congruence|]. intros (x' & a & E' & H). discriminate.
    + unfold all_shapes. destruct (forallb _ _) eqn:E.
      * split; [|discriminate]. intros _. split; [discriminate|]. rewrite forallb_forall in E.
        assert (H : forall u, In u (x :: y :: xs) -> x_shape x = x_shape u).
        { intros u Hu. specialize (E (name_shape u)). cbn [snd name_shape] in E.
          destruct (list_eq_dec Nat.eq_dec (x_shape x) (x_shape u)); [assumption|].
          discriminate E. change (In (name_shape u) (map name_shape (x :: y :: xs))). now apply in_map. }
        intros u v Hu Hv. rewrite <- (H u Hu). auto.
      * split; [congruence|]. intros [_ H]. exfalso. rewrite <- not_true_iff_false in E. apply E. clear E.
        apply forallb_forall. intros p Hp. change (In p (map name_shape (x :: y :: xs))) in Hp. apply in_map_iff in Hp.
        destruct Hp as (u & <- & Hu). cbn [snd name_shape].
        destruct (list_eq_dec Nat.eq_dec (x_shape x) (x_shape u)) as [|NE]; [reflexivity|]. exfalso. apply NE. apply H; [now left|assumption].
  - unfold pnorm.
    assert (EV : negb (Z.eqb (p mod 2) 0) || Z.leb p 0 = false <-> (0 < p)%Z /\ Z.Even p).
    { rewrite orb_false_iff, negb_false_iff, Z.eqb_eq, Z.leb_gt. rewrite <- Z.even_spec, Zeven_mod.
      rewrite Z.eqb_eq || rewrite <- Zeq_is_eq_bool || idtac. tauto. }
    destruct axis as [|zs|]; [| |split; [congruence|tauto]].
    + destruct (negb _ || _); split; try congruence; try discriminate.
      * intros (H1 & H2 & _). assert (true = false) by (apply EV; auto). discriminate.
      * intros _. assert (H := proj1 EV eq_refl). tauto.
    + rewrite <- norm_axes_named. destruct (negb _ || _); [split; [congruence|]|].
      * intros (H1 & H2 & _). assert (true = false) by (apply EV; auto). discriminate.
      * assert (H := proj1 EV eq_refl). destruct (norm_axes _ zs); split; try congruence; try tauto; try discriminate. intros _.
        splits; try tauto; discriminate.
  - rewrite returns_iff. unfold inner_shape.
    assert (K : match axes with None => None | Some (z0, z1) => match np_delete_axes (x_shape x) z0, np_delete_axes (x_shape y) z1 with
        Some r0, Some r1 => Some (r0 ++ r1) | _, _ => None end end <> None <->
        exists zs zs', axes = Some (zs, zs') /\ all_named (length (x_shape x)) zs /\ all_named (length (x_shape y)) zs').
    { destruct axes as [[z0 z1]|]; [|split; [congruence|intros (? & ? & ? & _); discriminate]].
      assert (D0 := delete_iff (x_shape x) z0). assert (D1 := delete_iff (x_shape y) z1).
      destruct (np_delete_axes (x_shape x) z0); [destruct (np_delete_axes (x_shape y) z1)|].
      - split; [|discriminate]. intros _. exists z0, z1. splits; [reflexivity|apply D0; discriminate|apply D1; discriminate].
      - split; [congruence|]. intros (zs & zs' & E & _ & H). injection E as -> ->. exfalso. now apply (proj2 D1).
      - split; [congruence|]. intros (zs & zs' & E & H & _). injection E as -> ->. exfalso. now apply (proj2 D0). }
    destruct (x_shape x) as [|n [|m l]]; [rewrite K; cbn; split; [auto|intros [[? _]|H]; [discriminate|exact H]]| |
      rewrite K; cbn [length]; split; [auto|intros [[H _]|H]; [discriminate|exact H]]].
    destruct (x_shape y) as [|n' [|m' l']]; [rewrite K; cbn [length]; split; [auto|intros [[_ H]|H]; [discriminate|exact H]]|
      split; [intros _; now left|discriminate]|rewrite K; cbn [length]; split; [auto|intros [[_ H]|H]; [discriminate|exact H]]].
  - rewrite returns_iff. unfold dot_shape. destruct (list_eq_dec _ _ _) as [E|E]; [|split; [congruence|tauto]]. rewrite <- E.
    assert (K : match axis with None => None | Some z => match norm_axis (length (x_shape x)) z with
        Some a => if Nat.eqb (nth a (x_shape x) 0) 3 then np_delete_axes (x_shape x) [z] else None | None => None end end <> None <->
        exists z a, axis = Some z /\ axis_named (length (x_shape x)) z a /\ nth_error (x_shape x) a = Some 3).
    { destruct axis as [z|]; [|split; [congruence|intros (? & ? & ? & _); discriminate]].
      destruct (norm_axis _ z) as [a|] eqn:EA.
      - assert (N := proj1 (norm_axis_some _ _ _) EA). destruct (Nat.eqb_spec (nth a (x_shape x) 0) 3) as [E3|E3].
        + split.
          * intros _. exists z, a. splits; auto. rewrite (nth_error_nth' _ 0) by apply N. now rewrite E3.
          * intros _. apply delete_iff. intros u [<-|[]]. eauto.
        + split; [congruence|]. intros (z' & a' & E1 & E2 & E4). injection E1 as <-.
          assert (a' = a) as -> by (apply norm_axis_some in E2; congruence). apply nth_error_nth with (d := 0) in E4. contradiction.
      - split; [congruence|]. intros (z' & a' & E1 & E2 & _). injection E1 as <-. apply norm_axis_some in E2. congruence. }
    destruct (x_shape x) as [|n [|m l]].
    + rewrite K. cbn [length]. split; [auto|intros [_ [H|H]]; [discriminate|exact H]].
    + split; [intros _; auto|discriminate].
    + rewrite K. cbn [length]. split; [auto|intros [_ [H|H]]; [discriminate|exact H]].
  - split; [auto|]. intros _. discriminate.
  - unfold matvec_comp. cbn [in_scope] in SC.
    destruct (x_shape x) as [|m [|n [|? ?]]]; cbn in SC; try lia; try (split; [congruence|intros (? & ? & ? & _); discriminate]).
    destruct (x_shape y) as [|n' [|? ?]]; try (split; [congruence|intros (? & ? & _ & ?); discriminate]).
    destruct (Nat.eqb_spec n n') as [->|NE].
    + split; [|discriminate]. intros _. now exists m, n'.
    + split; [congruence|]. intros (? & ? & E1 & E2). congruence.
  - unfold matmat_comp. cbn [in_scope] in SC.
    destruct (x_shape x) as [|m [|n [|? ?]]]; cbn in SC; try lia; try (split; [congruence|intros (? & ? & ? & _); discriminate]).
    destruct (x_shape y) as [|n' [|q [|? ?]]]; try (split; [congruence|intros (? & ? & _ & [?|[? ?]]); discriminate]);
      (destruct (Nat.eqb_spec n n') as [->|NE]; [split; [|discriminate]; intros _; exists m, n'; eauto
        |split; [congruence|]; intros (? & ? & E1 & [E2|[? E2]]); congruence]).
  - rewrite returns_iff. destruct (list_eq_dec _ _ _) as [E|E]; [|split; [congruence|tauto]].
    destruct (nth_error (x_shape x) axis) as [[|[|[|[|d]]]]|]; split; try congruence; try tauto; try (intros [_ H]; discriminate).
  - split; [auto|]. intros _. discriminate.
  - split; [auto|]. intros _. discriminate.
  - split; [auto|]. intros _. discriminate.
  - rewrite returns_iff. apply reorder_accepts.
  - assert (K := expand_accepts (x_shape x) s indices). destruct (expand_std _ _ _).
    + split; [|discriminate]. intros _. destruct indices; apply K; discriminate.
    + split; [congruence|]. intros H. exfalso. destruct indices; (apply (proj2 K); [exact H|reflexivity]).
  - rewrite returns_iff. destruct SC as (subs & out & P). unfold einsum_shape. rewrite (tolist_is_parse _ _ _ P), shape_found.
    split.
    + intros H subs' out' P'. rewrite P in P'. injection P' as <- <-. exact H.
    + intros H. exact (H subs out P).
  - rewrite returns_iff. rewrite tuples_accepts, map_length. reflexivity.
  - unfold if_else. destruct (list_eq_dec _ _ _); split; congruence.
Qed.

(** ---- calls that are accepted although the operands do not fit ---- *)
Lemma reshape_late x s : size s <> size (x_shape x) ->
  exists c, std (KReshape x s) = Some (s, Some c) /\ c_ins c = [x_shape x] /\
    forall v, c_compute c (inputs_of (c_ins c) v) = None.
Proof.
  intros NE. exists (reshape_comp (x_shape x) s). splits; [reflexivity|reflexivity|]. intros v.
  unfold reshape_comp, comp1, inputs_of. cbn [c_ins c_compute length seq map nth]. unfold reshape_compute. cbn [shp].
  destruct (Nat.eqb_spec (size (x_shape x)) (size s)); [congruence|reflexivity].
Qed.

Lemma contract_late x y z a w b :
  x_name x <> x_name y -> ~ (length (x_shape x) = 1 /\ length (x_shape y) = 1) ->
  axis_named (length (x_shape x)) z a -> axis_named (length (x_shape y)) w b ->
  nth_error (x_shape x) a <> nth_error (x_shape y) b ->
  exists s c, std (KInner x y (Some ([z], [w]))) = Some (s, Some c) /\ c_ins c = [x_shape x; x_shape y] /\
    forall v, c_compute c (inputs_of (c_ins c) v) = None.
Proof.
  intros NE R A B D. assert (EA := proj2 (norm_axis_some _ _ _) A). assert (EB := proj2 (norm_axis_some _ _ _) B).
  assert (NA : norm_axes (length (x_shape x)) [z] = Some [a]) by (cbn; now rewrite EA).
  assert (NB : norm_axes (length (x_shape y)) [w] = Some [b]) by (cbn; now rewrite EB).
  assert (SH : inner_shape (x_shape x) (x_shape y) (Some ([z], [w])) =
    match np_delete_axes (x_shape x) [z], np_delete_axes (x_shape y) [w] with Some r0, Some r1 => Some (r0 ++ r1) | _, _ => None end).
  { unfold inner_shape. destruct (x_shape x) as [|n [|? ?]]; try reflexivity.
    destruct (x_shape y) as [|m [|? ?]]; try reflexivity. exfalso. apply R. auto. }
  assert (CO : inner (x_shape x) (x_shape y) (Some ([z], [w])) =
    option_map (fun c => (c_out c, c)) (tensor_inner_comp (x_shape x) (x_shape y) [z] [w])).
  { unfold inner. destruct (x_shape x) as [|n [|? ?]]; try reflexivity.
    destruct (x_shape y) as [|m [|? ?]]; try reflexivity. exfalso. apply R. auto. }
  unfold tensor_inner_comp in CO. rewrite NA, NB in CO. cbn [option_map] in CO.
  eexists _, _. splits.
  - cbn [std]. rewrite SH, CO. unfold np_delete_axes. rewrite NA, NB. unfold distinct_inputs.
    assert (O : names_ok (map x_name [x; y]) = true).
    { cbn. destruct (Nat.eqb_spec (x_name x) (x_name y)); [contradiction|reflexivity]. }
    rewrite O. cbn [option_map returns snd]. reflexivity.
  - reflexivity.
  - intros v. unfold comp2, inputs_of. cbn [c_ins c_compute length seq map nth]. unfold np_tensordot. cbn [shp].
    rewrite NA, NB. cbn [nodupb andb]. 
    assert (X : extents (x_shape x) [a] <> extents (x_shape y) [b]).
    { cbn. intros E. injection E as E. apply D. rewrite !(nth_error_nth' _ 0) by (apply A || apply B). now rewrite E. }
    destruct (list_eq_dec Nat.eq_dec (extents (x_shape x) [a]) (extents (x_shape y) [b])); [contradiction|].
    now rewrite andb_false_r.
Qed.

Lemma array_late n s c : 0 < size s -> size s < size (shp c) ->
  exists k, std (KBinop Add (OVar n s) (OArr c)) = Some (s, Some k) /\ c_ins k = [s] /\
    forall v, c_compute k (inputs_of (c_ins k) v) = None.
Proof.
  intros H1 H2. eexists. splits.
  - cbn [std py_binop elementwise addition of_outcome]. unfold linear_comp. cbn [names_ok forallb mem existsb]. reflexivity.
  - reflexivity.
  - intros v. cbn [c_compute]. destruct (assign_output s c) as [z|] eqn:E; [|reflexivity]. exfalso.
    destruct (proj1 (assign_fills s c)) as [F|F]; [eauto|lia|]. apply stretches_size in F; lia.
Qed.

(** Concrete cases: "ij,jk->ik" with matrices is accepted and with a vector for the
    second operand not; the tuple form, expand and reorder_axes of both kinds; a
    negative axis; and operands for the calls accepted too readily. *)
Definition m23 : expr_facts := Facts 0 [2; 3] [2; 3].
Definition m34 : expr_facts := Facts 1 [3; 4] [3; 4].
Definition v3 : expr_facts := Facts 2 [3] [3].
Definition ij_jk_ik : list nat := [105; 106; 44; 106; 107; 45; 62; 105; 107].

Example accepts_instance :
  in_scope (KEinsum false ij_jk_ik [m23; m34]) /\ accepts (KEinsum false ij_jk_ik [m23; m34]) /\
  ~ accepts (KEinsum false ij_jk_ik [m23; v3]) /\
  accepts (KEinsumNew false [[5; 9]; [9]; [5]] [m23; v3]) /\
  ~ accepts (KEinsumNew false [[5; 9]; [9]; [7]] [m23; v3]) /\
  accepts (KExpand v3 [3; 4] (Some [105; 45; 62; 105; 106])) /\
  ~ accepts (KExpand v3 [4; 3] (Some [105; 45; 62; 105; 106])) /\
  accepts (KReorder m23 [105; 106; 32; 45; 62; 106; 105]) /\
  ~ accepts (KReorder v3 [105; 106; 45; 62; 106; 105]) /\
  accepts (KSum [m23] (Some [-2]%Z)) /\ ~ accepts (KSum [m23] (Some [2]%Z)) /\
  (size [7] <> size (x_shape m23)) /\
  (x_name m23 <> x_name m34 /\ axis_named 2 0 0 /\ axis_named 2 (-1) 1 /\
   nth_error (x_shape m23) 0 <> nth_error (x_shape m34) 1).
Proof.
  assert (SC : in_scope (KEinsum false ij_jk_ik [m23; m34])) by (do 2 eexists; vm_compute; reflexivity).
  splits; [exact SC| | | | | | | | | | |discriminate|discriminate| | |discriminate].
  - apply (proj1 (which_accepted _ SC)). vm_compute. discriminate.
  - intros H. apply (proj2 (which_accepted (KEinsum false ij_jk_ik [m23; v3]) SC)) in H. apply H. vm_compute. reflexivity.
  - apply (proj1 (which_accepted (KEinsumNew false [[5; 9]; [9]; [5]] [m23; v3]) I)). vm_compute. discriminate.
  - intros H. apply (proj2 (which_accepted (KEinsumNew false [[5; 9]; [9]; [7]] [m23; v3]) I)) in H. apply H. vm_compute. reflexivity.
  - apply (proj1 (which_accepted (KExpand v3 [3; 4] (Some [105; 45; 62; 105; 106])) I)). vm_compute. discriminate.
  - intros H. apply (proj2 (which_accepted (KExpand v3 [4; 3] (Some [105; 45; 62; 105; 106])) I)) in H. apply H. vm_compute. reflexivity.
  - apply (proj1 (which_accepted (KReorder m23 [105; 106; 32; 45; 62; 106; 105]) I)). vm_compute. discriminate.
  - intros H. apply (proj2 (which_accepted (KReorder v3 [105; 106; 45; 62; 106; 105]) I)) in H. apply H. vm_compute. reflexivity.
  - split; [discriminate|]. intros z [<-|[]]. exists 0. split; cbn; lia.
  - intros [_ H]. destruct (H 2%Z (or_introl eq_refl)) as (a & A & B). cbn in A, B. lia.
  - split; cbn; lia.
  - split; cbn; lia.
Qed.
