(** Theorems about whole histories of Group calls, assembled from the invariants. *)
From Verif Require Import PyBase PySet PySetProofs SpecGraph GraphLemmas Graph SpecSetup Replace ReplaceProofs
  GroupApi SpecApi SpecRun Run GroupApiProofs GroupApiAcyclic GroupApiShape GroupApiWired GroupApiSetup
  GroupApiHistory GroupApiUses RunProofs ApiCheck.

Lemma acyclic0 : acyclic (adeps api0).
Proof. intros n D. inversion D; contradiction. Qed.

Section WithO.
Variable O : oracle.

Lemma history_inv fuel h st rs : run_ops O fuel api0 h = Some (st, rs) -> ainv st /\ shape st.
Proof.
  intros E. split; [now apply (run_inv O fuel h api0 st rs ainv0)|].
  now apply (run_shape O fuel h api0 st rs ainv0 shape0).
Qed.

(** * C01, C02, C05, C10 for histories *)
Section Setup.
Variables (uid : nat -> nat) (reverse : bool) (fuel : nat) (h : list op) (st : api) (rs : list (res nat)).
Hypothesis E : run_ops O fuel api0 h = Some (st, rs).
Hypothesis SCH : schedulable uid st.
Let setup f := group_setup O set_list uid f reverse st.

Lemma all_defined : (forall out, created_output h rs out -> exists i, given_value h rs i out) ->
  forall n, akind st n = KExplicit -> adefined st n = true.
Proof.
  intros G n K. destruct (history_kind O fuel h api0 st rs ainv0 E) as [HK _].
  apply HK in K. destruct K as [K|K]; [discriminate|].
  apply (history_defined O fuel h api0 st rs E). right. now apply G.
Qed.

Lemma group_ok : (forall out, created_output h rs out -> exists i, given_value h rs i out) -> labels_distinct st ->
  exists added, eventually setup (Ok added)
    /\ NoDup added
    /\ (forall n, In n added <-> dep_on (adeps st) root n /\ has_build st n = true)
    /\ (forall u v, In u added -> In v added -> dep_on (adeps st) u v -> before added v u)
    /\ (forall i n, akind st i = KIndep -> In n added -> akind st n <> KIndep -> before added i n).
Proof.
  intros G LD. destruct (history_inv _ _ _ _ E) as [I S].
  destruct (api_setup_ok O uid reverse st I SCH S (all_defined G) LD) as (added & A1 & A2 & A3 & A4 & A5).
  exists added. splits; auto.
  intros i n Ki Hn Kn. apply A5; auto. apply A3. split.
  - constructor. destruct I as [_ R]. apply R. now rewrite Ki.
  - destruct (s_indep st S i Ki) as (s & Q & _). unfold has_build. now rewrite Q.
Qed.

Lemma group_undefined out : created_output h rs out -> (forall i, ~ given_value h rs i out) ->
  exists e, eventually setup (Raise e) /\ (e = ValueError \/ e = RuntimeError) /\ (labels_distinct st -> e = ValueError).
Proof.
  intros C NG. destruct (history_inv _ _ _ _ E) as [I S].
  apply (api_setup_undefined O uid reverse st I SCH out).
  - destruct (history_kind O fuel h api0 st rs ainv0 E) as [HK _]. apply HK. now right.
  - destruct (adefined st out) eqn:D; [|reflexivity].
    apply (history_defined O fuel h api0 st rs E) in D. destruct D as [D|[i D]]; [discriminate|]. now apply NG in D.
Qed.
End Setup.

(** * C06 *)
Lemma subsystem_order uid reverse fuel h1 s k g h2 st1 rs1 st2 b st rs2 :
  run_ops O fuel api0 h1 = Some (st1, rs1) ->
  step O fuel st1 (AddSubsystem s k g) = Some (st2, Ok b) ->
  run_ops O fuel st2 h2 = Some (st, rs2) ->
  schedulable uid st -> labels_distinct st ->
  (forall n, akind st n = KExplicit -> adefined st n = true) ->
  exists added, eventually (fun f => group_setup O set_list uid f reverse st) (Ok added)
    /\ In b added
    /\ (forall v, In v (adeps st1 root) -> In v added -> ~ lost_in O fuel st2 h2 b v -> before added v b)
    /\ (forall j s' i n, returned h2 rs2 j (DeclareInput s') i -> In n added -> dep_on (adeps st) n i ->
          before added b n).
Proof.
  intros E1 E2 E3 SCH LD DEF.
  assert (E : run_ops O fuel api0 (h1 ++ AddSubsystem s k g :: h2) = Some (st, rs1 ++ Ok b :: rs2)).
  { apply (run_app_intro O fuel h1 _ api0 st1 rs1); [assumption|]. cbn [run_ops]. rewrite E2, E3. reflexivity. }
  destruct (history_inv _ _ _ _ E) as [I S].
  destruct (subsystem_edges O fuel h1 st1 rs1 s k g st2 b h2 st rs2 E1 E2 E3) as (_ & B1 & B2 & B3 & B4).
  destruct (api_setup_ok O uid reverse st I SCH S DEF LD) as (added & A1 & A2 & A3 & A4 & _).
  assert (Hb : In b added) by (apply A3; split; [now constructor|assumption]).
  exists added. splits; auto.
  - intros v Hv Ha NL. apply A4; auto. constructor. now apply B3.
  - intros j s' i n HR Hn D. apply A4; auto. apply dep_on_trans with i; [assumption|]. now apply (B4 j s').
Qed.

Lemma run_not_lost fuel : forall h st st' rs n v, ainv st -> acyclic (adeps st) ->
  throughout O no_self_reference fuel st h -> run_ops O fuel st h = Some (st', rs) ->
  In v (adeps st n) -> ~ lost_in O fuel st h n v.
Proof.
  induction h as [|o h IH]; intros st st' rs n v I AC T E H L; [inversion L|].
  destruct (run_cons O _ _ _ _ _ _ E) as (st1 & r & rs' & E1 & E2 & ->). cbn [throughout] in T. destruct T as [T1 T2].
  assert (NL := not_lost st o n v AC T1 H).
  inversion L as [? ? ? ? ? L1|? ? ? st1' x ? ? E1' L1]; subst; [contradiction|].
  rewrite E1 in E1'. injection E1' as <- <-.
  destruct (step_inv O _ _ _ _ _ I E1) as [I1 X].
  apply (IH st1 st' rs' n v); auto.
  - apply (step_acyclic O fuel st o st1 r); auto. now apply self_reference_assign.
  - now apply (T2 st1 r).
  - now apply (e_edge _ _ _ X).
Qed.

Lemma throughout_app fuel P : forall h1 h2 st st1 rs1, throughout O P fuel st (h1 ++ h2) ->
  run_ops O fuel st h1 = Some (st1, rs1) -> throughout O P fuel st h1 /\ throughout O P fuel st1 h2.
Proof.
  induction h1 as [|o h1 IH]; intros h2 st st1 rs1 T E; cbn [app] in T.
  - cbn [run_ops] in E. injection E as <- _. split; [exact I|assumption].
  - destruct (run_cons O _ _ _ _ _ _ E) as (st' & r & rs' & E1 & E2 & ->). cbn [throughout] in T. destruct T as [T1 T2].
    destruct (IH h2 st' st1 rs' (T2 st' r E1) E2) as [A B]. split; [|exact B].
    cbn [throughout]. split; [assumption|]. intros st'' x E'. rewrite E1 in E'. injection E' as <- <-. exact A.
Qed.

Lemma subsystem_order_plain uid reverse fuel h1 s k g h2 st1 rs1 st2 b st rs2 :
  throughout O no_self_reference fuel api0 (h1 ++ AddSubsystem s k g :: h2) ->
  run_ops O fuel api0 h1 = Some (st1, rs1) ->
  step O fuel st1 (AddSubsystem s k g) = Some (st2, Ok b) ->
  run_ops O fuel st2 h2 = Some (st, rs2) ->
  schedulable uid st -> labels_distinct st ->
  (forall n, akind st n = KExplicit -> adefined st n = true) ->
  exists added, eventually (fun f => group_setup O set_list uid f reverse st) (Ok added)
    /\ In b added
    /\ (forall v, In v (adeps st1 root) -> In v added -> before added v b)
    /\ (forall j s' i n, returned h2 rs2 j (DeclareInput s') i -> In n added -> dep_on (adeps st) n i ->
          before added b n).
Proof.
  intros T E1 E2 E3 SCH LD DEF.
  destruct (subsystem_order uid reverse fuel h1 s k g h2 st1 rs1 st2 b st rs2 E1 E2 E3 SCH LD DEF)
    as (added & A1 & A2 & A3 & A4).
  destruct (throughout_app fuel _ _ _ _ _ _ T E1) as [T1 T2]. cbn [throughout] in T2. destruct T2 as [_ T2].
  specialize (T2 _ _ E2).
  exists added. splits; auto. intros v Hv Ha. apply A3; auto.
  assert (I1 := run_inv O fuel h1 api0 st1 rs1 ainv0 E1).
  assert (AC1 : acyclic (adeps st1)).
  { apply (run_acyclic O fuel h1 api0 st1 rs1 ainv0 acyclic0); [|assumption].
    apply (throughout_weaken O no_self_reference); [apply self_reference_assign|assumption]. }
  assert (I2 : ainv st2) by (apply (step_inv O _ _ _ _ _ I1 E2)).
  assert (AC2 : acyclic (adeps st2)) by (apply (step_acyclic O fuel st1 (AddSubsystem s k g) st2 (Ok b) I1 AC1); simpl; auto).
  apply (run_not_lost fuel h2 st2 st rs2 b v I2 AC2 T2 E3).
  destruct (step_recent O _ _ _ _ _ E2) as [Q|(s0 & k0 & g0 & _ & Q & _ & Q2)].
  - exfalso. cbn [step] in E2. injection E2 as E2 <-. rewrite <- E2 in Q.
    destruct (fold_add_spec O (anext st1) (adeps st1 root)
      (set_recent (new_obj st1 KSubsystem (User s) (BSub k g)) (anext st1))) as (d & t & EF & _). rewrite EF in Q.
    api. pose proof (v_recent st1 (proj1 I1) (anext st1) (eq_sym Q)) as K.
    rewrite (new_fresh st1 (proj1 I1)) in K. discriminate.
  - injection Q as ->. now apply Q2.
Qed.

(** * C11 *)
Lemma register_effect fuel h st rs s n st' m : run_ops O fuel api0 h = Some (st, rs) ->
  step O fuel st (Register s n) = Some (st', Ok m) ->
  m = n /\ ~ In n (adeps st root)
  /\ aname st' n = User s /\ (forall k, k <> n -> aname st' k = aname st k)
  /\ (forall v, In v (adeps st' root) <-> In v (adeps st root) \/ v = n)
  /\ (forall k, k <> root -> adeps st' k = adeps st k).
Proof.
  intros E ES. destruct (history_inv _ _ _ _ E) as [[B _] _].
  destruct (step_register_ok O _ _ _ _ _ _ B ES) as (Q1 & _ & Q2 & _).
  cbn [step] in ES. destruct (visible st n); [|discriminate]. injection ES as ES. unfold register_output in ES.
  assert (G : forall K, (if mem n (adeps st root) then (st, Raise ValueError)
     else (add_dep O (set_name st n (User s)) root n, Ok n)) = (st', @Ok nat m) -> K = akind st n ->
     st' = add_dep O (set_name st n (User s)) root n).
  { intros K H _. destruct (mem n (adeps st root)); [discriminate|]. now injection H as <-. }
  assert (st' = add_dep O (set_name st n (User s)) root n) as ->.
  { destruct (akind st n) eqn:K; try discriminate; apply (G _ ES eq_refl). }
  splits; auto.
  - api. apply upd_same.
  - intros k Hk. api. now rewrite upd_other.
  - intros v. rewrite add_dep_in. api. intuition.
  - intros k Hk. api. now rewrite upd_other.
Qed.

(** * C14 *)
Lemma group_clash uid reverse fuel h st rs u v :
  run_ops O fuel api0 h = Some (st, rs) -> schedulable uid st ->
  u <> v -> dep_on (adeps st) root u -> dep_on (adeps st) root v ->
  has_build st u = true -> has_build st v = true ->
  (forall k, abuild st u <> BSub k true) -> (forall k, abuild st v <> BSub k true) ->
  aname st u = aname st v ->
  exists e, eventually (fun f => group_setup O set_list uid f reverse st) (Raise e)
    /\ (e = ValueError \/ e = RuntimeError).
Proof.
  intros E SCH NE Du Dv Bu Bv Nu Nv EN. destruct (history_inv _ _ _ _ E) as [I _].
  apply (api_setup_clash O uid reverse st I SCH u v); auto.
  assert (L : forall n, (forall k, abuild st n <> BSub k true) -> label st n = (true, aname st n)).
  { intros n H. unfold label. destruct (abuild st n) as [| | | | |k [|]|]; auto. now destruct (H k). }
  now rewrite !L, EN.
Qed.

(** Setup succeeds exactly when every output is given a value and no two systems
    get the same name. *)
Lemma group_setup_iff uid reverse fuel h st rs :
  run_ops O fuel api0 h = Some (st, rs) -> schedulable uid st ->
  ((exists added, eventually (fun f => group_setup O set_list uid f reverse st) (Ok added)) <->
   (forall out, created_output h rs out -> exists i, given_value h rs i out) /\ labels_distinct st).
Proof.
  intros E SCH. destruct (history_inv _ _ _ _ E) as [I S]. split.
  - intros [added [f0 A]].
    assert (X : forall e, ~ eventually (fun f => group_setup O set_list uid f reverse st) (Raise e)).
    { intros e [f1 B]. specialize (A (f0 + f1) ltac:(lia)). specialize (B (f0 + f1) ltac:(lia)). congruence. }
    split.
    + intros out C.
      destruct (adefined st out) eqn:D.
      * apply (history_defined O fuel h api0 st rs E) in D. destruct D as [D|[i D]]; [discriminate|]. now exists i.
      * exfalso. destruct (api_setup_undefined O uid reverse st I SCH out) as (e & B & _).
        -- destruct (history_kind O fuel h api0 st rs ainv0 E) as [HK _]. apply HK. now right.
        -- assumption.
        -- now apply (X e).
    + intros u v Du Dv Bu Bv L. destruct (Nat.eq_dec u v) as [|NE]; [assumption|]. exfalso.
      destruct (api_setup_clash O uid reverse st I SCH u v NE Du Dv Bu Bv L) as (e & B & _). now apply (X e).
  - intros [G LD]. destruct (group_ok uid reverse fuel h st rs E SCH G LD) as (added & A & _). now exists added.
Qed.

(** * C27: define *)
Lemma define_step fuel0 h st rs out expr : run_ops O fuel0 api0 h = Some (st, rs) -> acyclic (adeps st) ->
  akind st out = KExplicit -> visible st expr = true -> expr <> out -> adefined st out = false ->
  exists st', eventually (fun fuel => step O fuel st (Define out expr)) (st', Ok out)
    /\ akind st' (anext st) = KInput /\ aname st' (anext st) = aname st out
    /\ (forall n, ~ dep_on (adeps st') n n)
    /\ (forall m, m = out \/ m = expr \/ dep_on (adeps st) out m \/ dep_on (adeps st) expr m ->
          forall v, In v (adeps st' m) <->
            (v <> out /\ (In v (adeps st m) \/ m = out /\ v = expr)) \/ (v = anext st /\ In out (adeps st m)))
    /\ (forall m, m <> out -> m <> expr -> ~ dep_on (adeps st) out m -> ~ dep_on (adeps st) expr m ->
          adeps st' m = adeps st m)
    /\ (forall n, n < anext st -> akind st' n = akind st n /\ aname st' n = aname st n)
    /\ (forall n, n < anext st -> n <> out -> abuild st' n = abuild st n)
    /\ abuild st' out = BPass expr.
Proof.
  intros E AC KO VE NE DF. destruct (history_inv _ _ _ _ E) as [[B R] SH].
  assert (LO : 0 < out < anext st).
  { split.
    - destruct out; [|lia]. pose proof (v_kroot st B) as Q. unfold root in Q. congruence.
    - destruct (Nat.lt_ge_cases out (anext st)) as [L|L]; [assumption|].
      destruct (v_fresh st B out L). congruence. }
  assert (VO : visible st out = true).
  { unfold visible. rewrite KO. destruct (s_explname st SH out KO) as [s ->].
    rewrite (proj2 (Nat.ltb_lt 0 out)), (proj2 (Nat.ltb_lt out (anext st))) by lia. reflexivity. }
  pose proof (visible_spec st expr VE) as (LE1 & LE2 & _).
  destruct (define_graph_spec O out expr (anext st) (adeps st) (anext st) (atick st)
    (v_fin st B) (v_simple st B) AC NE LE2 (proj2 LO) (le_n _)) as (d' & [F EF] & D1 & D2 & _ & D4 & _).
  exists (set_build (set_adeps (new_obj (set_defined st out false) KInput (aname st out) NoBuild) d' (S (atick st)))
            out (BPass expr)).
  splits.
  - exists F. intros fuel L. cbn [step]. cbv zeta. rewrite VO, VE, KO. cbn [andb].
    assert (Nat.eqb expr out = false) as -> by (now apply Nat.eqb_neq). rewrite DF, EF by assumption. reflexivity.
  - api. apply upd_same.
  - api. apply upd_same.
  - exact D4.
  - exact D1.
  - exact D2.
  - intros n L. api. rewrite !upd_other by lia. auto.
  - intros n L Q. api. rewrite !upd_other by lia. reflexivity.
  - api. apply upd_same.
Qed.

(** Histories in which no output is indexed-assigned from itself always end. *)
Lemma step_total st o : ainv st -> acyclic (adeps st) -> exists r, eventually (fun fuel => step O fuel st o) r.
Proof.
  intros [B R] AC.
  destruct o as [s|s|s|s m|s i g|f args|out expr|out expr key|x key];
    try (eexists; exists 0; intros fuel _; reflexivity).
  - destruct (visible st m) eqn:V; eexists; exists 0; intros fuel _; cbn [step]; rewrite V; reflexivity.
  - destruct (forallb (visible st) args) eqn:V; eexists; exists 0; intros fuel _; cbn [step]; rewrite V; reflexivity.
  - destruct (visible st out && visible st expr && match akind st out with KExplicit => true | _ => false end) eqn:V.
    2: { eexists; exists 0; intros fuel _; cbn [step]; rewrite V; reflexivity. }
    destruct (Nat.eqb expr out) eqn:Q1.
    { eexists; exists 0; intros fuel _; cbn [step]; rewrite V, Q1; reflexivity. }
    destruct (adefined st out) eqn:Q2.
    { eexists; exists 0; intros fuel _; cbn [step]; rewrite V, Q1, Q2; reflexivity. }
    pose proof V as V'. apply andb_prop in V'. destruct V' as [V' _]. apply andb_prop in V'. destruct V' as [V1 V2].
    apply visible_spec in V1. apply visible_spec in V2.
    destruct (define_graph_spec O out expr (anext st) (adeps st) (anext st) (atick st)
      (v_fin st B) (v_simple st B) AC) as (d' & [F EF] & _); try lia; try tauto.
    { now apply Nat.eqb_neq. }
    eexists; exists F; intros fuel L; cbn [step]; cbv zeta; rewrite V, Q1, Q2, EF by assumption. reflexivity.
  - destruct (visible st out && visible st expr && match akind st out with KExplicit => true | _ => false end) eqn:V.
    2: { eexists; exists 0; intros fuel _; cbn [step]; rewrite V; reflexivity. }
    destruct key as [idx|e].
    2: { eexists; exists 0; intros fuel _; cbn [step]; rewrite V; reflexivity. }
    destruct (existsb (fun t => name_eqb (fst t) (aname st expr)) (atgt st out)) eqn:Q1.
    { eexists; exists 0; intros fuel _; cbn [step]; cbv zeta; rewrite V, Q1; reflexivity. }
    destruct (existsb (fun i => mem i (achecked st out)) idx) eqn:Q2;
      eexists; exists 0; intros fuel _; cbn [step]; cbv zeta; rewrite V, Q1, Q2; reflexivity.
  - destruct (step O 0 st (Getitem x key)) as [r|] eqn:Q.
    + exists r, 0. intros fuel _. exact Q.
    + exfalso. cbn [step] in Q. cbv zeta in Q. destruct (visible st x); [|discriminate].
      destruct (adecomp st x); destruct (find _ _) as [[? ?]|]; discriminate.
Qed.

Lemma run_total : forall h st M, ainv st -> acyclic (adeps st) ->
  (forall fuel, M <= fuel -> throughout O no_self_assign fuel st h) ->
  exists r, eventually (fun fuel => run_ops O fuel st h) r.
Proof.
  induction h as [|o h IH]; intros st M I AC T.
  - exists (st, []), 0. reflexivity.
  - destruct (step_total st o I AC) as [[st1 x] [N1 E1]].
    assert (E0 := E1 N1 (le_n _)).
    destruct (IH st1 (Nat.max M N1)) as [[st2 xs] [N2 E2]].
    + now apply (step_inv O N1 st o st1 x).
    + apply (step_acyclic O N1 st o st1 x); auto. apply (T M (le_n _)).
    + intros fuel L. apply (T fuel ltac:(lia)) with x. apply E1. lia.
    + exists (st2, x :: xs), (Nat.max N1 N2). intros fuel L. cbn [run_ops].
      rewrite E1, E2 by lia. reflexivity.
Qed.

(** * C65 *)
Lemma used_name_written sr sw fuel h st rs n a : run_ops O fuel api0 h = Some (st, rs) ->
  (forall out, created_output h rs out -> exists i, given_value h rs i out) ->
  uses st n a -> akind st a <> KInput ->
  In (aname st a) (comp_reads sr st n)
  /\ exists m, has_build st m = true /\ In (aname st a) (comp_writes sw st m)
       /\ (m = a \/ exists k, In (k, a) (aparts st m)).
Proof.
  intros E G U K. destruct (history_inv _ _ _ _ E) as [I S].
  split; [now apply uses_reads|]. apply value_producer; auto.
  - apply (run_uses O fuel h api0 st rs ainv0 shape0 uses_ok0 E n). now left.
  - apply (all_defined fuel h st rs E G).
Qed.

(** * C16 *)
Section Run.
Variable V : Type.
Variable op_sem : nat -> list V -> V.
Variable indep_sem : nat -> V.
Variable asm_sem : nat -> list V -> V.
Variable part_sem : nat -> V -> V.
Variable sub_sem : nat -> list V -> list V.
Variables (sub_reads sub_writes : nat -> list name).

Lemma run_computes uid reverse fuel h st rs s :
  run_ops O fuel api0 h = Some (st, rs) ->
  throughout O no_self_reference fuel api0 h ->
  all_tidy st -> uid_distinct root uid (adeps st) ->
  (forall out, created_output h rs out -> exists i, given_value h rs i out) ->
  labels_distinct st -> names_ok sub_reads sub_writes st ->
  (forall k vals, length vals = length (sub_reads k) -> length (sub_sem k vals) = length (sub_writes k)) ->
  exists added, eventually (fun f => group_setup O set_list uid f reverse st) (Ok added)
    /\ let fin := run_model V op_sem indep_sem asm_sem part_sem sub_sem sub_reads sub_writes st added s in
       let inp i := fin (aname st i) in
       (forall n v, dep_on (adeps st) root n -> value_object st n ->
          (tree_value V op_sem indep_sem asm_sem part_sem st inp n v <-> v = fin (aname st n)))
       /\ (forall x, (forall n, dep_on (adeps st) root n -> ~ In x (comp_writes sub_writes st n)) -> fin x = s x)
       /\ (forall b k g, dep_on (adeps st) root b -> abuild st b = BSub k g ->
             map fin (sub_writes k) = sub_sem k (map fin (sub_reads k))).
Proof.
  intros E T NW UD G LD NO SL. destruct (history_inv _ _ _ _ E) as [I S].
  assert (AC : acyclic (adeps st)).
  { apply (run_acyclic O fuel h api0 st rs ainv0 acyclic0); [|assumption].
    apply (throughout_weaken O no_self_reference); [apply self_reference_assign|assumption]. }
  assert (W : wired st) by (now apply (run_wired O fuel h api0 st rs ainv0 shape0 acyclic0 wired0)).
  assert (U : uses_ok st) by (exact (run_uses O fuel h api0 st rs ainv0 shape0 uses_ok0 E)).
  assert (D := all_defined fuel h st rs E G).
  destruct (api_setup_ok O uid reverse st I (conj AC (conj NW UD)) S D LD) as (added & A1 & A2 & A3 & A4 & _).
  exists added. split; [assumption|]. cbv zeta. splits.
  - intros n v Dn VO.
    pose proof (final_value V op_sem indep_sem asm_sem part_sem sub_sem sub_reads sub_writes st I S W U AC D NO SL
      added A2 A3 A4 s n Dn VO) as TV.
    split; [|intros ->; exact TV].
    intros TV'. exact (tree_value_det V op_sem indep_sem asm_sem part_sem st _ S n v TV' _ TV).
  - intros x. apply (final_other V op_sem indep_sem asm_sem part_sem sub_sem sub_reads sub_writes st added A3).
  - intros b k g. apply (final_sub V op_sem indep_sem asm_sem part_sem sub_sem sub_reads sub_writes st I S W U D NO SL
      added A2 A3 A4 s).
Qed.
End Run.
End WithO.
