(** A model with every kind of expression, and the formula of one of its outputs. *)
From Coq Require Import Reals Lra Lia Arith List Bool ZArith.
From Verif Require Import PyBase PySet SpecGraph GraphLemmas Graph SpecSetup Replace GroupApi SpecApi
  Run SpecRun RunProofs GroupApiHistory ApiTheorems ApiCheck ApiWitness.
From Verif Require Import RSum NdArray NdIndex Component JacSpec JacOpen SpecNorm SpecExtremum SpecTotal TotalCalc
  CompElem CompCond CompNorm StdCalls SpecDeriv Indexing SpecIndex IndexProofs Setitem SpecSetitem SetitemProofs
  SpecElem SpecReduce SpecTensor SpecReorder SpecProduct SpecShapes SpecStd TotalMore TotalMain DerivMain DerivExample
  SpecMeaning MeaningProofs.
Import ListNotations.
Local Open Scope nat_scope.

Definition ex_call (f : nat) : std_call :=
  match f with
  | 0 => KInner ex_x ex_k None
  | 1 => KBinop Add (OVar 3 [1]) (OVar 5 [1])
  | _ => KElem Sin (ex_one 11)
  end.
Definition ex_key (k : nat) : Indexing.key := KOne (KInt 1).
Definition ex_kept (n : nat) : list Setitem.assignment := ex_hs.

Lemma ex_documented f : exists dom m, documented (ex_call f) dom m /\ forall v, dom v.
Proof.
  destruct f as [|[|f]]; cbn [ex_call].
  - exists everywhere. eexists. split; [|intros v; exact I].
    exact (inner_of_vectors ex_x ex_k 2 None ltac:(discriminate) eq_refl eq_refl).
  - exists everywhere. eexists. split; [|intros v; exact I].
    exact (two_operands Add 3 5 [1] ltac:(auto) ltac:(discriminate)).
  - eexists. eexists. split; [exact (elementary Sin (ex_one 11) ltac:(left; split; discriminate))|].
    intros v i Hi. exact I.
Qed.

Lemma ex_table_call f : ex_table f = comp_of (ex_call f).
Proof. destruct f as [|[|f]]; reflexivity. Qed.

Lemma ex_call_built f : std (ex_call f) = Some (c_out (ex_table f), Some (ex_table f)).
Proof.
  destruct (ex_documented f) as (dom & m & H & _). destruct (documented_chain _ _ _ H) as (c & E & _).
  rewrite ex_table_call. unfold comp_of. rewrite E. reflexivity.
Qed.

Lemma ex_within fin : within ex_call ex_state fin.
Proof.
  generalize ex_state as st. intros st n f operands _ _. destruct (ex_documented f) as (dom & m & H & D). exists dom, m. auto.
Qed.

Lemma ex_piece : exists x' e p, getitem (fresh_var [2] [2]) (KOne (KInt 1)) = (x', Some e) /\ piece_of x' e = Some p
  /\ decompose_comp [2] p = Some ex_part.
Proof.
  destruct (getitem (fresh_var [2] [2]) (KOne (KInt 1))) as [x' [e|]] eqn:E; [|vm_compute in E; discriminate].
  destruct (part_chain [2] [] (KOne (KInt 1)) (fresh_var [2] [2]) [] x' e) as (p & c & A1 & A2 & _); auto.
  { repeat constructor. }
  exists x', e, p. splits; auto. unfold ex_part. rewrite E, A1, A2. reflexivity.
Qed.

Lemma ex_assembled : exists o, setitems (fresh_out [2]) ex_hs = (o, [Done; Done]) /\
  assembled [2] (fun _ => 0%R) (ov_tgts o) = Some ex_asm.
Proof.
  destruct (setitems (fresh_out [2]) ex_hs) as [o rs] eqn:E.
  assert (RS : rs = [Done; Done]) by (vm_compute in E; injection E as _ <-; reflexivity). subst rs.
  destruct (assembled_chain [2] ex_hs o [Done; Done] (fun _ => 0%R)) as (c & A1 & _); auto.
  { repeat constructor; cbn; lia. }
  { intros [H|[H|[]]]; discriminate. }
  { now left. }
  exists o. split; [reflexivity|]. unfold ex_asm. rewrite E. cbn [fst]. rewrite A1. reflexivity.
Qed.

(** the objects of the example, for any state with these tables *)
Record ex_like (st : api) : Prop := {
  el_builds : map (abuild st) (seq 0 14) =
    [NoBuild; NoBuild; BIndep (User 2); BExpr 0 [1; 2]; BDecomp 1; NoBuild; BPass 7; BExpr 1 [3; 5]; NoBuild; BIndexed;
     BSub 0 true; NoBuild; BExpr 2 [11]; NoBuild];
  el_names : map (aname st) (seq 0 14) =
    [Auto 0; User 1; User 2; Auto 3; Decompose (User 1); Auto 5; User 3; Auto 7; User 3; User 4; User 5; User 6; User 7; Auto 13];
  el_tgt : atgt st 9 = [(Auto 3, 3); (Auto 5, 5)];
  el_parts : aparts st 4 = [(0, 5)];
  el_next : anext st <= 14;
  el_shape : GroupApiShape.shape st;
  el_decomp : adecomp st 1 = Some 4;
  el_kind : akind st 1 = KInput
}.

Lemma ex_is_like : ex_like ex_state.
Proof.
  destruct ex_tables as (TG & PA & AN).
  constructor; [exact ex_builds|exact ex_names|exact TG|exact PA|exact AN| |vm_compute; reflexivity|vm_compute; reflexivity].
  exact (proj2 (history_inv O 60 _ _ _ full_runs)).
Qed.

Section Like.
Variable st : api.
Hypothesis EL : ex_like st.

Lemma like_build n : abuild st n = nth n
    [NoBuild; NoBuild; BIndep (User 2); BExpr 0 [1; 2]; BDecomp 1; NoBuild; BPass 7; BExpr 1 [3; 5]; NoBuild; BIndexed;
     BSub 0 true; NoBuild; BExpr 2 [11]; NoBuild] NoBuild.
Proof.
  destruct (Nat.lt_ge_cases n 14) as [L|L].
  - rewrite <- (el_builds st EL). rewrite nth_indep with (d' := abuild st 0) by (rewrite map_length, seq_length; lia).
    rewrite map_nth. now rewrite seq_nth.
  - rewrite nth_overflow by (cbn; lia). apply (GroupApiShape.s_fresh _ (el_shape st EL)). pose proof (el_next st EL). lia.
Qed.

Lemma like_name n : n < 14 -> aname st n = nth n
  [Auto 0; User 1; User 2; Auto 3; Decompose (User 1); Auto 5; User 3; Auto 7; User 3; User 4; User 5; User 6; User 7; Auto 13] (Auto 0).
Proof.
  intros L. rewrite <- (el_names st EL). rewrite nth_indep with (d' := aname st 0) by (rewrite map_length, seq_length; lia).
  rewrite map_nth. now rewrite seq_nth.
Qed.

Lemma like_built : built ex_call ex_key ex_kept (fun _ _ => 0%R) ex_shape st ex_table (fun _ => ex_asm) (fun _ => ex_part).
Proof.
  constructor.
  - intros n f operands _ _. apply ex_call_built.
  - intros n x k e D E P. rewrite like_build in E.
    assert (n = 4 /\ x = 1) as [-> ->].
    { do 14 (destruct n as [|n]; [cbn in E; try discriminate; injection E as <-; auto|]).
      rewrite nth_overflow in E by (cbn; lia). discriminate. }
    rewrite (like_name 1) by lia. cbv zeta. cbn [nth ex_shape].
    destruct ex_piece as (x' & i & p & A1 & A2 & A3). exists [], (fresh_var [2] [2]), [], x', i, p. splits; auto.
    repeat constructor.
  - intros n D E. rewrite like_build in E.
    assert (n = 9) as ->.
    { do 14 (destruct n as [|n]; [cbn in E; try discriminate; auto|]).
      rewrite nth_overflow in E by (cbn; lia). discriminate. }
    rewrite (like_name 9) by lia. cbv zeta. cbn [nth ex_shape].
    destruct ex_assembled as (o & A1 & A2). exists ex_hs, o, [Done; Done]. splits; auto.
    + repeat constructor; cbn; lia.
    + intros [H|[H|[]]]; discriminate.
    + now left.
    + rewrite (el_tgt st EL). reflexivity.
Qed.

Lemma like_shapes : shapes_agree ex_shape st ex_table (fun _ => ex_asm) (fun _ => ex_part) ex_subs full_reads full_writes.
Proof.
  intros n D NI. unfold comp_writes, comp_reads, parts_of.
  pose proof (like_build n) as B.
  destruct (Nat.lt_ge_cases n 14) as [L|L].
  2: { rewrite nth_overflow in B by (cbn; lia). rewrite B. constructor. }
  assert (T0 : c_out (ex_table 0) = [1] /\ c_ins (ex_table 0) = [[2]; [2]]) by (split; reflexivity).
  assert (T1 : c_out (ex_table 1) = [1] /\ c_ins (ex_table 1) = [[1]; [1]]) by (split; reflexivity).
  assert (T2 : c_out (ex_table 2) = [1] /\ c_ins (ex_table 2) = [[1]]) by (split; reflexivity).
  assert (T3 : c_out ex_part = [1] /\ c_ins ex_part = [[2]]) by (split; reflexivity).
  assert (T4 : c_out ex_asm = [2] /\ c_ins ex_asm = [[1]; [1]]) by (split; reflexivity).
  assert (T5 : c_out (comp_of (KElem Cos (ex_one 6))) = [1] /\ c_ins (comp_of (KElem Cos (ex_one 6))) = [[1]]) by (split; reflexivity).
  do 14 (destruct n as [|n]; [cbn [nth] in B; rewrite B; cbn [map ex_subs full_reads full_writes];
     rewrite ?(el_tgt st EL), ?(el_parts st EL); cbn [map fst snd]; rewrite ?like_name by lia; cbn [nth ex_shape map];
     first [exfalso; eapply NI; eassumption|apply Forall2_nil|apply Forall2_cons; [assumption|apply Forall2_nil]
           |apply Forall2_cons; [split; reflexivity|apply Forall2_nil]]|]).
  lia.
Qed.

(** the formula of the output 6: inner(x, k) + x[1] *)
Lemma like_denotes ind inp : denotes ex_call ex_key ex_kept (fun _ _ => 0%R) ex_shape st ind inp 6
  (Nd [1] (fun _ => inp (User 1) 0%nat * ind 2%nat 0%nat + inp (User 1) 1%nat * ind 2%nat 1%nat + inp (User 1) 1%nat)%R).
Proof.
  apply dn_define with 7; [now rewrite like_build|].
  eapply dn_call with (f := 1) (operands := [3; 5]); [now rewrite like_build| | | | |].
  - apply dns_cons; [|apply dns_cons; [|apply dns_nil]].
    + eapply (dn_call _ _ _ _ _ _ _ _ 3 0 [1; 2]) with
        (y := Nd [1] (fun _ => inp (User 1) 0%nat * ind 2%nat 0%nat + inp (User 1) 1%nat * ind 2%nat 1%nat)%R); [now rewrite like_build| | | | |].
      * apply dns_cons; [apply dn_input; exact (el_kind st EL)|].
        apply dns_cons; [apply dn_indep with (User 2); now rewrite like_build|apply dns_nil].
      * exact (inner_of_vectors ex_x ex_k 2 None ltac:(discriminate) eq_refl eq_refl).
      * exact I.
      * rewrite !like_name by lia. cbn [nth ex_shape]. unfold vector_inner_meaning.
        do 2 eexists. split; [reflexivity|]. repeat split; cbn; try lra.
      * rewrite like_name by lia. reflexivity.
    + eapply (dn_part _ _ _ _ _ _ _ _ 5 1 4 0) with (y := Nd [1] (fun _ => inp (User 1) 1)).
      * exact (el_decomp st EL).
      * rewrite (el_parts st EL). now left.
      * apply dn_input. exact (el_kind st EL).
      * rewrite !like_name by lia. cbn [nth ex_shape]. do 2 eexists. split; [reflexivity|]. split; [reflexivity|].
        split; [reflexivity|]. intros idx H. destruct idx as [|i [|j l]]; cbn in H; try tauto; try lia.
        assert (i = 0) as -> by (cbn in H; lia). reflexivity.
  - exact (two_operands Add 3 5 [1] ltac:(auto) ltac:(discriminate)).
  - exact I.
  - do 2 eexists. split; [reflexivity|]. split; [reflexivity|]. split; [reflexivity|]. intros idx H. reflexivity.
  - rewrite like_name by lia. reflexivity.
Qed.
End Like.

Lemma like_unwritten st : ex_like st -> ~ written full_writes st (User 1).
Proof.
  intros EL (n & _ & H). unfold comp_writes in H. rewrite (like_build st EL) in H.
  do 14 (destruct n as [|n]; [cbn [nth] in H; rewrite ?(el_parts st EL) in H; cbn [map full_writes snd In] in H;
    rewrite ?(like_name st EL) in H by lia; cbn [nth] in H; intuition congruence|]).
  rewrite nth_overflow in H by (cbn; lia). contradiction.
Qed.

Lemma like_value st : ex_like st -> 6 < anext st -> akind st 6 <> KSubsystem -> value_object st 6.
Proof.
  intros EL L K. split; [lia|]. split; [exact L|]. split; [exact K|]. intros x H.
  destruct (GroupApiShape.s_decomp st (el_shape st EL) x 6 H) as (_ & _ & _ & E & _).
  rewrite (like_build st EL) in E. discriminate.
Qed.

(** With x = (t, t^2) and k = (3, 3) the output 6 is inner(x, k) + x[1] = 3 t + 4 t^2,
    and its derivative, as the partial derivatives of the components give it, 3 + 8 t. *)
Example meaning_case :
  exists added, eventually (fun f => group_setup O set_list (fun n => n) f false ex_state) (Ok added) /\
  forall t, let fin := pass ex_table (fun _ => ex_asm) (fun _ => ex_part) ex_subs full_reads full_writes ex_state added
                          (fun _ _ => 3%R) (ex_start t) in
    fin (User 3) 0 = (3 * t + 4 * (t * t))%R /\
    forall T, solves ex_table (fun _ => ex_asm) (fun _ => ex_part) ex_subs full_reads full_writes ex_shape ex_state
      fin (ex_rate t) (fun _ _ => 0%R) T -> T (User 3) 0 = (3 + 8 * t)%R.
Proof.
  assert (N6 : aname ex_state 6 = User 3) by (vm_compute; reflexivity).
  assert (D6 : dep_on (adeps ex_state) root 6) by (apply dep_direct; vm_compute; auto).
  assert (K6 : akind ex_state 6 <> KSubsystem) by (vm_compute; discriminate).
  assert (L6 : 6 < anext ex_state) by (vm_compute; lia).
  assert (V6 : value_object ex_state 6) by exact (like_value _ ex_is_like L6 K6).
  destruct (model_means ex_call ex_key ex_kept (fun _ _ => 0%R) ex_table (fun _ => ex_asm) (fun _ => ex_part) ex_subs
    full_reads full_writes ex_shape O (fun n => n) false 60 full_history ex_state (results_of full_history))
    as (added & A & H0 & H1 & _ & H3).
  - exact full_runs.
  - exact full_reference.
  - exact (proj1 (proj2 full_schedulable)).
  - exact (proj2 (proj2 full_schedulable)).
  - exact full_given.
  - exact full_labels.
  - exact full_names.
  - reflexivity.
  - exact (like_built _ ex_is_like).
  - exact (like_shapes _ ex_is_like).
  - pose proof ex_rates as RT. pose proof ex_within as WI. pose proof ex_is_like as EL.
    revert N6 D6 V6 A H0 H1 H3 RT WI EL. generalize ex_state as st. intros st N6 D6 V6 A H0 H1 H3 RT WI EL.
    exists added. split; [exact A|]. intros t. cbv zeta.
    assert (V : forall t, denotes ex_call ex_key ex_kept (fun _ _ => 0%R) ex_shape st (fun _ _ => 3%R)
       (pass ex_table (fun _ => ex_asm) (fun _ => ex_part) ex_subs full_reads full_writes st added
                          (fun _ _ => 3%R) (ex_start t)) 6 (Nd [1] (fun _ => 3 * t + 4 * (t * t))%R)).
    { intros u.
      match goal with |- denotes _ _ _ _ _ _ _ _ _ ?y =>
        replace y with (Nd [1] (fun _ : nat => (ex_start u (User 1) 0%nat * 3 + ex_start u (User 1) 1%nat * 3 + ex_start u (User 1) 1%nat)%R)) end.
      2: { f_equal. apply FunctionalExtensionality.functional_extensionality. intros _. unfold ex_start. cbn. lra. }
      rewrite <- (H0 (fun _ _ => 3%R) (ex_start u) (User 1) (like_unwritten st EL)).
      exact (like_denotes st EL _ _). }
    split.
    + destruct (H1 _ _ _ _ D6 V6 (V t)) as [S1 S2]. specialize (S2 0). cbn [shp dat size] in S2. rewrite N6 in S2.
      symmetry. apply S2. cbn. lia.
    + intros T ST. rewrite <- N6.
      apply (uniqueness_limite (fun t => (3 * t + 4 * (t * t))%R) t).
      * apply (H3 ex_start (fun _ _ _ => 3%R) t (ex_rate t) (fun _ _ => 0%R) T 6
          (fun t => Nd [1] (fun _ => 3 * t + 4 * (t * t))%R) 1%R 0); auto using Rlt_0_1.
        -- intros n k g c _ _ Hc. exists everywhere. split; [|exact I]. destruct Hc as [<-|[]]. exact ex_sub_chain.
        -- rewrite N6. cbn. lia.
      * replace (3 + 8 * t)%R with (3 * 1 + 4 * (1 * t + t * 1))%R by lra.
        apply derivable_pt_lim_plus; [apply derivable_pt_lim_scal; apply derivable_pt_lim_id|].
        apply (derivable_pt_lim_scal (fun t => t * t)%R). apply (derivable_pt_lim_mult (fun t => t) (fun t => t)); apply derivable_pt_lim_id.
Qed.
