(** Derivatives in reverse of every model the API can build. *)
From Coq Require Import Reals Lra Lia Arith List Bool.
From Verif Require Import PyBase PySet SpecGraph GraphLemmas Graph SpecSetup Replace GroupApi SpecApi
  GroupApiProofs GroupApiAcyclic GroupApiShape GroupApiWired GroupApiSetup GroupApiUses Run SpecRun RunProofs
  GroupApiHistory ApiTheorems ApiWitness.
From Verif Require Import RSum NdArray Component JacSpec SpecNorm SpecExtremum SpecTotal TotalCalc SpecDeriv
  DerivProofs DerivMain DerivExample SpecAdjoint AdjointProofs.
Import ListNotations.
Local Open Scope nat_scope.

Lemma model_adjoint table asm part subs sub_reads sub_writes shape_of O uid reverse fuel h st rs :
  run_ops O fuel api0 h = Some (st, rs) ->
  throughout O no_self_reference fuel api0 h ->
  all_tidy st -> uid_distinct root uid (adeps st) ->
  (forall out, created_output h rs out -> exists i, given_value h rs i out) ->
  labels_distinct st -> SpecRun.names_ok sub_reads sub_writes st ->
  (forall k, length (subs k) = length (sub_writes k)) ->
  sizes_agree table asm part subs sub_reads sub_writes shape_of st ->
  exists added, eventually (fun f => group_setup O set_list uid f reverse st) (Ok added)
    /\ forall s ind t0 ds dind outer w,
       let fin t := pass table asm part subs sub_reads sub_writes st added (ind t) (s t) in
       let adjoint := adjoint table asm part subs sub_reads sub_writes shape_of st added (fin t0) w in
       given_rates sub_writes shape_of st s ind t0 ds dind ->
       chained table asm part subs sub_reads shape_of st (fin t0) ->
       given sub_reads sub_writes st outer added ->
       (exists A, adjoint A)
       /\ (forall A, adjoint A ->
             derivable_pt_lim (fun t => weighted shape_of (variables sub_writes st outer added) w (fin t)) t0
               (collected shape_of st outer added A ds dind)).
Proof.
  intros E TH NW UD G LD NO SL SA. destruct (history_inv O _ _ _ _ E) as [I SH].
  assert (AC : acyclic (adeps st)).
  { apply (run_acyclic O fuel h api0 st rs ainv0 acyclic0); [|assumption].
    apply (throughout_weaken O no_self_reference); [apply self_reference_assign|assumption]. }
  assert (W : wired st) by (now apply (run_wired O fuel h api0 st rs ainv0 shape0 acyclic0 wired0)).
  assert (U : uses_ok st) by (exact (run_uses O fuel h api0 st rs ainv0 shape0 uses_ok0 E)).
  assert (D := all_defined O fuel h st rs E G).
  destruct (api_setup_ok O uid reverse st I (conj AC (conj NW UD)) SH D LD) as (added & A1 & A2 & A3 & A4 & _).
  exists added. split; [assumption|]. intros s ind t0 ds dind outer w fin adj RT CH GV. split.
  - eexists. exact (reverse_pass table asm part subs sub_reads sub_writes shape_of st I SH W U D NO
             added A2 A3 A4 (fin t0) w).
  - intros A AD.
    pose proof (forward_solves table asm part subs sub_reads sub_writes shape_of st I SH W U D NO SL
             added A2 A3 A4 (s t0) (ind t0) ds dind) as ST.
    rewrite <- (reverse_is_forward table asm part subs sub_reads sub_writes shape_of st NO added A2 A3 SA
             (fin t0) w A _ ds dind outer GV AD ST).
    apply (derivable_total (variables sub_writes st outer added)
             (fun x t => rsum (size (shape_of x)) (fun i => w x i * fin t x i)%R)).
    intros x _. apply derivable_pt_lim_rsum. intros i Hi.
    apply (derivable_pt_lim_scal (fun t => fin t x i)).
    exact (solution_is_derivative table asm part subs sub_reads sub_writes shape_of st I SH W U D NO SL
             added A2 A3 A4 SA s ind t0 ds dind RT CH _ ST x i Hi).
Qed.

(** ---- the history of DerivExample ---- *)
Lemma ex_graph : map (adeps ex_state) (seq 0 14) =
  [[2; 6; 9; 10; 12]; []; []; [1; 2]; [1]; [4]; [7]; [3; 5]; []; [3; 5]; [2; 6; 9]; [10]; [11]; []].
Proof. vm_compute. reflexivity. Qed.

Lemma ex_reads n x : In x (comp_reads full_reads ex_state n) -> ~ written full_writes ex_state x -> x = User 1.
Proof.
  pose proof ex_builds as B. pose proof ex_names as NM. destruct ex_tables as (TG & PA & AN). pose proof ex_graph as GR.
  pose proof (proj2 (history_inv ApiWitness.O 60 _ _ _ full_runs) : GroupApiShape.shape ex_state) as SH.
  revert B NM TG PA AN SH GR. generalize ex_state as st. intros st B NM TG PA AN SH GR. cbn in B, NM, GR.
  assert (F : 14 <= n -> abuild st n = NoBuild) by (intros L; apply (GroupApiShape.s_fresh _ SH); lia).
  injection B as B0 B1 B2 B3 B4 B5 B6 B7 B8 B9 B10 B11 B12 B13.
  injection NM as M0 M1 M2 M3 M4 M5 M6 M7 M8 M9 M10 M11 M12 M13.
  injection GR as G0 G1 G2 G3 G4 G5 G6 G7 G8 G9 G10 G11 G12 G13.
  assert (D2 : dep_on (adeps st) root 2) by (apply dep_direct; unfold root; rewrite G0; cbn; tauto).
  assert (D6 : dep_on (adeps st) root 6) by (apply dep_direct; unfold root; rewrite G0; cbn; tauto).
  assert (D10 : dep_on (adeps st) root 10) by (apply dep_direct; unfold root; rewrite G0; cbn; tauto).
  assert (D63 : forall v, dep_on (adeps st) 7 v -> dep_on (adeps st) root v).
  { intros v H. apply dep_step with 6; [unfold root; rewrite G0; cbn; tauto|]. apply dep_step with 7; [rewrite G6; cbn; tauto|exact H]. }
  assert (D7 : dep_on (adeps st) root 7).
  { apply dep_step with 6; [unfold root; rewrite G0; cbn; tauto|]. apply dep_direct. rewrite G6. cbn. tauto. }
  assert (D3 : dep_on (adeps st) root 3) by (apply D63; apply dep_direct; rewrite G7; cbn; tauto).
  assert (D4 : dep_on (adeps st) root 4).
  { apply D63. apply dep_step with 5; [rewrite G7; cbn; tauto|]. apply dep_direct. rewrite G5. cbn. tauto. }
  assert (W : forall m y, dep_on (adeps st) root m -> In y (comp_writes full_writes st m) -> written full_writes st y)
    by (intros m y H1 H2; exists m; auto).
  assert (W2 : written full_writes st (User 2)) by (apply (W 2); [exact D2|unfold comp_writes; rewrite B2; now left]).
  assert (W3 : written full_writes st (Auto 3)) by (apply (W 3); [exact D3|unfold comp_writes; rewrite B3, M3; now left]).
  assert (W5 : written full_writes st (Auto 5)).
  { apply (W 4); [exact D4|unfold comp_writes; rewrite B4, PA; cbn [map snd]; rewrite M5; now left]. }
  assert (W6 : written full_writes st (User 3)) by (apply (W 6); [exact D6|unfold comp_writes; rewrite B6, M6; now left]).
  assert (W7 : written full_writes st (Auto 7)) by (apply (W 7); [exact D7|unfold comp_writes; rewrite B7, M7; now left]).
  assert (W10 : written full_writes st (User 6)) by (apply (W 10); [exact D10|unfold comp_writes; rewrite B10; now left]).
  intros H NW. destruct (Nat.lt_ge_cases n 14) as [L|L].
  2: { unfold comp_reads in H. rewrite (F L) in H. contradiction. }
  do 14 (destruct n as [|n];
    [unfold comp_reads in H;
     rewrite ?B0, ?B1, ?B2, ?B3, ?B4, ?B5, ?B6, ?B7, ?B8, ?B9, ?B10, ?B11, ?B12, ?B13, ?TG in H;
     cbn [map fst snd full_reads] in H;
     rewrite ?M0, ?M1, ?M2, ?M3, ?M4, ?M5, ?M6, ?M7, ?M8, ?M9, ?M10, ?M11, ?M12, ?M13 in H; cbn in H;
     repeat match goal with H : _ \/ _ |- _ => destruct H as [H|H] end; try contradiction; subst; tauto|]); lia.
Qed.

Lemma ex_unwritten : ~ written full_writes ex_state (User 1).
Proof.
  pose proof ex_builds as B. pose proof ex_names as NM. destruct ex_tables as (TG & PA & AN).
  pose proof (proj2 (history_inv ApiWitness.O 60 _ _ _ full_runs) : GroupApiShape.shape ex_state) as SH.
  revert B NM TG PA AN SH. generalize ex_state as st. intros st B NM TG PA AN SH. cbn in B, NM.
  intros (n & _ & H).
  assert (F : 14 <= n -> abuild st n = NoBuild) by (intros L; apply (GroupApiShape.s_fresh _ SH); lia).
  injection B as B0 B1 B2 B3 B4 B5 B6 B7 B8 B9 B10 B11 B12 B13.
  injection NM as M0 M1 M2 M3 M4 M5 M6 M7 M8 M9 M10 M11 M12 M13.
  destruct (Nat.lt_ge_cases n 14) as [L|L].
  2: { unfold comp_writes in H. rewrite (F L) in H. contradiction. }
  do 14 (destruct n as [|n];
    [unfold comp_writes in H;
     rewrite ?B0, ?B1, ?B2, ?B3, ?B4, ?B5, ?B6, ?B7, ?B8, ?B9, ?B10, ?B11, ?B12, ?B13, ?PA in H;
     cbn [map fst snd full_writes] in H;
     rewrite ?M0, ?M1, ?M2, ?M3, ?M4, ?M5, ?M6, ?M7, ?M8, ?M9, ?M10, ?M11, ?M12, ?M13 in H; cbn in H;
     repeat match goal with H : _ \/ _ |- _ => destruct H as [H|H] end; try contradiction; try discriminate|]); lia.
Qed.

(** the sensitivity of the output [User 7] to what is given from outside *)
Example adjoint_case :
  exists added, eventually (fun f => group_setup ApiWitness.O set_list (fun n => n) f false ex_state) (Ok added) /\
  given full_reads full_writes ex_state [User 1] added /\
  forall t0, let w x (i : nat) := if name_eqb x (User 7) then 1%R else 0%R in exists A,
    adjoint ex_table (fun _ => ex_asm) (fun _ => ex_part) ex_subs full_reads full_writes ex_shape ex_state added
      (pass ex_table (fun _ => ex_asm) (fun _ => ex_part) ex_subs full_reads full_writes ex_state added
         (fun _ _ => 3%R) (ex_start t0)) w A /\
    derivable_pt_lim (fun t => weighted ex_shape (variables full_writes ex_state [User 1] added) w
       (pass ex_table (fun _ => ex_asm) (fun _ => ex_part) ex_subs full_reads full_writes
         ex_state added (fun _ _ => 3%R) (ex_start t))) t0
      (collected ex_shape ex_state [User 1] added A (ex_rate t0) (fun _ _ => 0%R)).
Proof.
  destruct (model_adjoint ex_table (fun _ => ex_asm) (fun _ => ex_part) ex_subs full_reads full_writes ex_shape
    ApiWitness.O (fun n => n) false 60 full_history ex_state (results_of full_history)) as (added & A & H).
  - exact full_runs.
  - exact full_reference.
  - exact (proj1 (proj2 full_schedulable)).
  - exact (proj2 (proj2 full_schedulable)).
  - exact full_given.
  - exact full_labels.
  - exact full_names.
  - reflexivity.
  - exact ex_sizes.
  - exists added. split; [exact A|].
    assert (GV : given full_reads full_writes ex_state [User 1] added).
    { split; [|split].
      - constructor; [intros []|constructor].
      - intros x [<-|[]]. exact ex_unwritten.
      - intros n x _ H1 H2. left. exact (eq_sym (ex_reads n x H1 H2)). }
    split; [exact GV|]. intros t0 w.
    destruct (H ex_start (fun _ _ _ => 3%R) t0 (ex_rate t0) (fun _ _ => 0%R) [User 1] w (ex_rates t0) (ex_chained _) GV)
      as ([A' AD] & DV).
    exists A'. split; [exact AD|exact (DV A' AD)].
Qed.
