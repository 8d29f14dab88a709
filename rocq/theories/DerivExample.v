(** A history with every kind of object whose derivatives the theorems give, and
    the chain rule for parts, assembled outputs and defined outputs. *)
From Coq Require Import Reals Lra Lia Arith List Bool ZArith.
From Verif Require Import PyBase PySet SpecGraph GraphLemmas Graph SpecSetup Replace GroupApi SpecApi
  Run SpecRun RunProofs GroupApiHistory ApiTheorems ApiCheck ApiWitness.
From Verif Require Import RSum NdArray NdIndex Component JacSpec JacOpen SpecNorm SpecExtremum SpecTotal TotalCalc
  CompElem CompCond CompNorm StdCalls SpecDeriv Indexing SpecIndex IndexProofs Setitem SpecSetitem SetitemProofs ShapeMain
  SpecElem SpecReduce SpecTensor SpecReorder SpecProduct SpecShapes SpecStd TotalMore TotalMain DerivMain.
Import ListNotations.
Local Open Scope nat_scope.

Lemma part_chain : forall s ks k x rs x' e, plain_key k ->
  getitems (fresh_var s s) ks = (x, rs) -> getitem x k = (x', Some e) ->
  exists p c, piece_of x' e = Some p /\ decompose_comp s p = Some c /\
    c_ins c = [s] /\ c_out c = pc_shape p /\ correct c (selects k) /\ chain_rule everywhere c /\ determined everywhere c (selects k).
Proof.
  intros s ks k x rs x' e H1 H2 H3. destruct (index_value s ks k x rs x' e H1 H2 H3) as (p & c & A1 & A2 & A3 & A4 & A5).
  destruct (chain_selects c s k A3 A5) as [B1 B2]. exists p, c. splits; auto.
Qed.

Lemma assembled_chain : forall s hs o rs y0, Forall (fun a => fitting s (as_key a)) hs ->
  setitems (fresh_out s) hs = (o, rs) -> ~ In Overlap rs -> In Done rs ->
  exists c, assembled s y0 (ov_tgts o) = Some c /\ c_ins c = map as_shape (done hs rs) /\ c_out c = s /\
    correct c (assembles s y0 (done hs rs)) /\ chain_rule everywhere c /\
    determined everywhere c (assembles s y0 (done hs rs)).
Proof.
  intros s hs o rs y0 H1 H2 H3 H4. destruct (assign_value s hs o rs y0 H1 H2 H3 H4) as (_ & c & A1 & A2 & A3 & A4).
  destruct (chain_assembles c s y0 _ A3 A2 A4) as [B1 B2]. exists c. splits; auto.
Qed.

Lemma defined_chain : forall s x, x_shape x = s ->
  correct (snd (define s x)) same_meaning /\ chain_rule everywhere (snd (define s x)) /\
    determined everywhere (snd (define s x)) same_meaning.
Proof.
  intros s x E. destruct (defined_value s x E) as (A1 & A2 & A3). rewrite E in A1. split; [exact A3|].
  exact (chain_same _ s A1 A2 A3).
Qed.

(** ---- the components of the example ---- *)
Definition nothing : component := Comp [] [] (fun _ => None) (fun _ _ => None).
Definition some_comp (o : option component) : component := match o with Some c => c | None => nothing end.
Definition comp_of (k : std_call) : component :=
  match std k with Some (_, o) => some_comp o | None => nothing end.

Lemma comp_of_documented k dom m : documented k dom m -> chain_rule dom (comp_of k).
Proof. intros H. destruct (documented_chain k dom m H) as (c & E & _ & _ & C & _). unfold comp_of. rewrite E. exact C. Qed.

Definition ex_x : expr_facts := Facts 1 [2] [2].
Definition ex_k : expr_facts := Facts 2 [2] [2].
Definition ex_one (n : nat) : expr_facts := Facts n [1] [1].

(** x[1] of an array of two entries *)
Definition ex_part : component :=
  match getitem (fresh_var [2] [2]) (KOne (KInt 1)) with
  | (x', Some e) => match piece_of x' e with Some p => some_comp (decompose_comp [2] p) | None => nothing end
  | _ => nothing
  end.
(** out[0] = 3, out[1] = 5 *)
Definition ex_hs : list Setitem.assignment := [Assign (KOne (KInt 0)) 3 [1]; Assign (KOne (KInt 1)) 5 [1]].
Definition ex_asm : component :=
  some_comp (assembled [2] (fun _ => 0%R) (ov_tgts (fst (setitems (fresh_out [2]) ex_hs)))).

(** full_history with 3 = inner(x, k), 5 = x[1], 7 = 3 + 5, the subsystem cos and 12 = sin(11) *)
Definition ex_table (f : nat) : component :=
  match f with
  | 0 => comp_of (KInner ex_x ex_k None)
  | 1 => comp_of (KBinop Add (OVar 3 [1]) (OVar 5 [1]))
  | _ => comp_of (KElem Sin (ex_one 11))
  end.
Definition ex_subs (k : nat) : list component := [comp_of (KElem Cos (ex_one 6))].
Definition ex_shape (x : name) : list nat :=
  match x with User 1 | User 2 | User 4 => [2] | _ => [1] end.
Definition ex_state : api := state_of full_history.

Lemma ex_part_chain : chain_rule everywhere ex_part.
Proof.
  destruct (getitem (fresh_var [2] [2]) (KOne (KInt 1))) as [x' [e|]] eqn:E; [|vm_compute in E; discriminate].
  destruct (part_chain [2] [] (KOne (KInt 1)) (fresh_var [2] [2]) [] x' e) as (p & c & A1 & A2 & _ & _ & _ & A3 & _); auto.
  { repeat constructor. }
  unfold ex_part. rewrite E, A1, A2. exact A3.
Qed.

Lemma ex_asm_chain : chain_rule everywhere ex_asm.
Proof.
  destruct (setitems (fresh_out [2]) ex_hs) as [o rs] eqn:E.
  assert (RS : rs = [Done; Done]) by (vm_compute in E; injection E as _ <-; reflexivity). subst rs.
  destruct (assembled_chain [2] ex_hs o [Done; Done] (fun _ => 0%R)) as (c & A1 & _ & _ & _ & A2 & _); auto.
  { repeat constructor; cbn; lia. }
  { intros [H|[H|[]]]; discriminate. }
  { now left. }
  unfold ex_asm. rewrite E. cbn [fst]. rewrite A1. exact A2.
Qed.

Lemma ex_table_chain f : chain_rule everywhere (ex_table f).
Proof.
  destruct f as [|[|f]]; cbn [ex_table].
  - exact (comp_of_documented _ _ _ (inner_of_vectors ex_x ex_k 2 None ltac:(discriminate) eq_refl eq_refl)).
  - exact (comp_of_documented _ _ _ (two_operands Add 3 5 [1] ltac:(auto) ltac:(discriminate))).
  - pose proof (comp_of_documented _ _ _ (elementary Sin (ex_one 11) ltac:(left; split; discriminate))) as H.
    intros g d t0 M _. apply H; [exact M|]. now intros i Hi.
Qed.

Lemma ex_sub_chain : chain_rule everywhere (comp_of (KElem Cos (ex_one 6))).
Proof.
  pose proof (comp_of_documented _ _ _ (elementary Cos (ex_one 6) ltac:(left; split; discriminate))) as H.
  intros g d t0 M _. apply H; [exact M|]. now intros i Hi.
Qed.

Lemma ex_chained fin : chained ex_table (fun _ => ex_asm) (fun _ => ex_part) ex_subs full_reads ex_shape ex_state fin.
Proof.
  generalize ex_state as st. intros st n c D H. exists everywhere. split; [|exact I]. unfold parts_of in H.
  destruct (abuild st n); cbn [In] in H; try (destruct H as [<-|[]]).
  - destruct H.
  - apply ex_table_chain.
  - destruct H.
  - exact (proj1 (proj2 (defined_chain _ (Facts 0 (ex_shape (aname st n)) []) eq_refl))).
  - exact ex_asm_chain.
  - exact ex_sub_chain.
  - apply in_map_iff in H. destruct H as (p & <- & _). exact ex_part_chain.
Qed.

Definition has_sizes (c : component) (out : nat) (ins : list nat) : Prop := size (c_out c) = out /\ map size (c_ins c) = ins.
Lemma ex_table_sizes : has_sizes (ex_table 0) 1 [2; 2] /\ has_sizes (ex_table 1) 1 [1; 1] /\ has_sizes (ex_table 2) 1 [1].
Proof. repeat split; reflexivity. Qed.
Lemma ex_other_sizes : has_sizes ex_part 1 [2] /\ has_sizes ex_asm 2 [1; 1] /\ has_sizes (comp_of (KElem Cos (ex_one 6))) 1 [1].
Proof. repeat split; reflexivity. Qed.

Lemma ex_builds : map (abuild ex_state) (seq 0 14) =
  [NoBuild; NoBuild; BIndep (User 2); BExpr 0 [1; 2]; BDecomp 1; NoBuild; BPass 7; BExpr 1 [3; 5]; NoBuild; BIndexed;
   BSub 0 true; NoBuild; BExpr 2 [11]; NoBuild].
Proof. vm_compute. reflexivity. Qed.
Lemma ex_names : map (aname ex_state) (seq 0 14) =
  [Auto 0; User 1; User 2; Auto 3; Decompose (User 1); Auto 5; User 3; Auto 7; User 3; User 4; User 5; User 6; User 7; Auto 13].
Proof. vm_compute. reflexivity. Qed.

Lemma ex_tables : atgt ex_state 9 = [(Auto 3, 3); (Auto 5, 5)] /\ aparts ex_state 4 = [(0, 5)] /\ anext ex_state <= 14.
Proof. vm_compute. auto 20. Qed.

Lemma ex_sizes : sizes_agree ex_table (fun _ => ex_asm) (fun _ => ex_part) ex_subs full_reads full_writes ex_shape ex_state.
Proof.
  pose proof ex_builds as B. pose proof ex_names as NM. destruct ex_tables as (TG & PA & AN).
  pose proof (proj2 (history_inv O 60 _ _ _ full_runs) : GroupApiShape.shape ex_state) as SH.
  revert B NM TG PA AN SH. generalize ex_state as st. intros st B NM TG PA AN SH n D NI. cbn in B, NM.
  assert (F : forall n, 14 <= n -> abuild st n = NoBuild).
  { intros m L. apply (GroupApiShape.s_fresh _ SH). lia. }
  injection B as B0 B1 B2 B3 B4 B5 B6 B7 B8 B9 B10 B11 B12 B13.
  injection NM as M0 M1 M2 M3 M4 M5 M6 M7 M8 M9 M10 M11 M12 M13.
  destruct ex_table_sizes as (T0 & T1 & T2). destruct ex_other_sizes as (P & A & C).
  assert (PS : forall sh, has_sizes (pass_through_comp sh) (size sh) [size sh]) by (intros; split; reflexivity).
  assert (K : forall x c out rs ins, has_sizes c out ins -> size (ex_shape x) = out -> rs = ins ->
            size (c_out c) = size (ex_shape x) /\ map size (c_ins c) = rs).
  { intros x c out rs ins [H1 H2] <- <-. auto. }
  destruct (Nat.lt_ge_cases n 14) as [L|L].
  2: { unfold comp_writes, comp_reads, parts_of. rewrite (F n L). constructor. }
  do 14 (destruct n as [|n];
    [unfold comp_writes, comp_reads, parts_of, full_writes, full_reads, ex_subs;
     rewrite ?B0, ?B1, ?B2, ?B3, ?B4, ?B5, ?B6, ?B7, ?B8, ?B9, ?B10, ?B11, ?B12, ?B13, ?TG, ?PA, ?M1, ?M2, ?M6;
     cbn [map fst snd];
     rewrite ?M0, ?M1, ?M2, ?M3, ?M4, ?M5, ?M6, ?M7, ?M8, ?M9, ?M10, ?M11, ?M12, ?M13;
     first [exfalso; eapply NI; eassumption
           |apply Forall2_nil
           |apply Forall2_cons; [first [eapply K; [exact T0|reflexivity..]|eapply K; [exact T1|reflexivity..]
                                |eapply K; [exact T2|reflexivity..]|eapply K; [exact P|reflexivity..]
                                |eapply K; [exact A|reflexivity..]|eapply K; [exact C|reflexivity..]
                                |eapply K; [apply PS|reflexivity..]]|apply Forall2_nil]]|]); lia.
Qed.

(** x moves along (t, t^2); the independent variable is constant *)
Definition ex_start (t : R) : store values :=
  fun x i => if name_eqb x (User 1) then match i with 0 => t | _ => (t * t)%R end else 0%R.
Definition ex_rate (t : R) : name -> values :=
  fun x i => if name_eqb x (User 1) then match i with 0 => 1%R | _ => (1 * t + t * 1)%R end else 0%R.

Lemma ex_rates t0 : given_rates full_writes ex_shape ex_state ex_start (fun _ _ _ => 3%R) t0 (ex_rate t0) (fun _ _ => 0%R).
Proof.
  split.
  - intros x i _ _. unfold ex_start, ex_rate. destruct (name_eqb x (User 1)); [|apply derivable_pt_lim_const].
    destruct i; [apply derivable_pt_lim_id|].
    apply (derivable_pt_lim_mult (fun t => t) (fun t => t) t0 1 1); apply derivable_pt_lim_id.
  - intros. apply derivable_pt_lim_const.
Qed.

(** All hypotheses of C88 hold for this history, so the output [User 7] has the
    derivative that solving the equations gives. *)
Example derivatives_case :
  exists added, eventually (fun f => group_setup O set_list (fun n => n) f false ex_state) (Ok added) /\
  forall t0, exists T,
    solves ex_table (fun _ => ex_asm) (fun _ => ex_part) ex_subs full_reads full_writes ex_shape ex_state
      (pass ex_table (fun _ => ex_asm) (fun _ => ex_part) ex_subs full_reads full_writes ex_state added
         (fun _ _ => 3%R) (ex_start t0)) (ex_rate t0) (fun _ _ => 0%R) T /\
    derivable_pt_lim (fun t => pass ex_table (fun _ => ex_asm) (fun _ => ex_part) ex_subs full_reads full_writes
       ex_state added (fun _ _ => 3%R) (ex_start t) (User 7) 0) t0 (T (User 7) 0).
Proof.
  destruct (model_derivatives ex_table (fun _ => ex_asm) (fun _ => ex_part) ex_subs full_reads full_writes ex_shape
    O (fun n => n) false 60 full_history ex_state (results_of full_history)) as (added & A & H).
  - exact full_runs.
  - exact full_reference.
  - exact (proj1 (proj2 full_schedulable)).
  - exact (proj2 (proj2 full_schedulable)).
  - exact full_given.
  - exact full_labels.
  - exact full_names.
  - reflexivity.
  - exact ex_sizes.
  - exists added. split; [exact A|]. intros t0.
    destruct (H ex_start (fun _ _ _ => 3%R) t0 (ex_rate t0) (fun _ _ => 0%R) (ex_rates t0) (ex_chained _))
      as (_ & [T ST] & _ & DV & _).
    exists T. split; [exact ST|]. apply DV; [exact ST|]. cbn. auto.
Qed.

(** Three calls whose component obeys the chain rule. *)
Example documented_case :
  documented (KBinop Mul (OVar 1 [2; 3]) (OVar 2 [2; 3])) everywhere (entries2 (op_rel Mul)) /\
  documented (KNorm (Facts 1 [2; 3] [2; 3]) 4 (NormAxes [(-1)%Z])) (axis_norm_nonzero [2; 3] [1])
    (axis_norm_meaning 2 [1]) /\
  documented (KDot (Facts 1 [2; 3] []) (Facts 2 [2; 3] []) (Some 1%Z)) everywhere (dot_meaning 1).
Proof.
  splits.
  - apply two_operands; [auto|discriminate].
  - apply (norm_along (Facts 1 [2; 3] [2; 3]) 2 [(-1)%Z] [1]); cbn; try lia.
    + constructor; [|constructor]. cbn. unfold axis_named. cbn. lia.
    + constructor; [auto|constructor].
  - apply dot_of_tensors with (s := [2; 3]); cbn; auto; try lia; try discriminate. unfold axis_named. cbn. lia.
Qed.
