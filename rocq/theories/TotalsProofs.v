(** The matrices of total derivatives: proofs. *)
From Coq Require Import Reals Lra Lia Arith List Bool FunctionalExtensionality.
From Verif Require Import PyBase PySet SpecGraph GraphLemmas Graph SpecSetup Replace GroupApi SpecApi
  GroupApiProofs GroupApiAcyclic GroupApiShape GroupApiWired GroupApiSetup GroupApiUses Run SpecRun RunProofs
  GroupApiHistory ApiTheorems ApiWitness.
From Verif Require Import RSum NdArray Component JacSpec SpecNorm SpecExtremum SpecTotal TotalCalc Implicit SpecDeriv
  DerivProofs DerivMain DerivExample SpecAdjoint AdjointProofs AdjointMain BisectProofs SpecRoot SpecTotals.
Import ListNotations.
Local Open Scope R_scope.

Lemma rsum_seed n i (f : nat -> R) : (i < n)%nat -> rsum n (fun j => (if Nat.eqb i j then 1 else 0) * f j) = f i.
Proof.
  intros Hi. rewrite (rsum_single n _ i Hi); [rewrite Nat.eqb_refl; ring|].
  intros j _ N. destruct (Nat.eqb_spec i j); [congruence|ring].
Qed.

Lemma total_one {A} (dec : forall a b : A, {a = b} + {a <> b}) (l : list A) x (f : A -> R) : NoDup l -> In x l ->
  (forall y, In y l -> y <> x -> f y = 0) -> total l f = f x.
Proof.
  intros ND. induction l as [|a l IH]; intros H Z; [contradiction|]. rewrite NoDup_cons_iff in ND. destruct ND as [NI ND].
  rewrite total_cons. destruct (dec a x) as [->|N].
  - rewrite total_zero; [lra|]. intros y Hy. apply Z; [now right|]. intros ->. contradiction.
  - rewrite (Z a) by (auto; now left). destruct H as [H|H]; [congruence|]. rewrite IH; auto; [lra|].
    intros y Hy. apply Z. now right.
Qed.

Section Model.
Variables (table asm part : nat -> component) (subs : nat -> list component).
Variables (sub_reads sub_writes : nat -> list name).
Variable shape_of : name -> list nat.
Variable st : api.
Local Notation extent x := (size (shape_of x)).
Local Notation reads := (comp_reads sub_reads st).
Local Notation solves := (solves table asm part subs sub_reads sub_writes shape_of st).
Local Notation columns := (columns table asm part subs sub_reads sub_writes shape_of st).
Local Notation times_rates := (times_rates shape_of st).

(** the declared partials applied to a movement are linear in the movement *)
Lemma applied_ext c v d d' o : (forall q i, d q i = d' q i) -> applied c v d o = applied c v d' o.
Proof.
  intros H. unfold applied, along. apply rsum_ext. intros q _. apply rsum_ext. intros i _. now rewrite H.
Qed.
Lemma applied_plus c v d d' o : applied c v (fun q i => d q i + d' q i) o = applied c v d o + applied c v d' o.
Proof.
  unfold applied, along. rewrite <- rsum_plus. apply rsum_ext. intros q _. rewrite <- rsum_plus.
  apply rsum_ext. intros i _. ring.
Qed.
Lemma applied_scal c v k d o : applied c v (fun q i => d q i * k) o = applied c v d o * k.
Proof.
  unfold applied, along. rewrite Rmult_comm, <- rsum_scal. apply rsum_ext. intros q _. rewrite <- rsum_scal.
  apply rsum_ext. intros i _. ring.
Qed.
Lemma applied_zero c v o : applied c v (fun _ _ => 0) o = 0.
Proof. unfold applied, along. apply rsum_zero. intros q _. apply rsum_zero. intros i _. ring. Qed.
Lemma applied_rsum c v n (d : nat -> nat -> nat -> R) o :
  applied c v (fun q i => rsum n (fun j => d j q i)) o = rsum n (fun j => applied c v (d j) o).
Proof.
  induction n as [|n IH]; cbn [rsum]; [apply applied_zero|]. rewrite applied_plus, IH. reflexivity.
Qed.
Lemma applied_total {A} c v (l : list A) (d : A -> nat -> nat -> R) o :
  applied c v (fun q i => total l (fun a => d a q i)) o = total l (fun a => applied c v (d a) o).
Proof.
  induction l as [|a l IH]; [apply applied_zero|].
  rewrite total_cons, <- IH, <- applied_plus. apply applied_ext. intros q i. reflexivity.
Qed.

Lemma args_map (T : name -> values) l q i : args (map T l) q i =
  match nth_error l q with Some x => T x i | None => 0 end.
Proof.
  unfold args. revert q. induction l as [|x l IH]; intros [|q]; cbn; auto.
Qed.

Lemma columns_solve fin vs ns tot itot ds dind :
  NoDup vs -> NoDup ns -> (forall v, In v vs -> ~ written sub_writes st v) ->
  moves_only vs ns ds dind -> columns fin vs ns tot itot ->
  solves fin ds dind (times_rates vs ns tot itot ds dind).
Proof.
  intros ND1 ND2 UW [MO1 MO2] [C1 C2]. unfold SpecTotals.times_rates. constructor.
  - intros x i NW Hi.
    rewrite (total_zero ns).
    2:{ intros n Hn. destruct (abuild st n) as [|f a|nm|e| |k g|x0] eqn:E; try reflexivity.
        apply rsum_zero. intros j Hj. rewrite (sv_given _ _ _ _ _ _ _ _ _ _ _ _ (C2 n nm j Hn E Hj)) by assumption.
        unfold still. ring. }
    rewrite Rplus_0_r.
    assert (S1 : forall v j, In v vs -> (j < extent v)%nat -> tot v j x i = seed_name v j x i).
    { intros v j Hv Hj. apply (sv_given _ _ _ _ _ _ _ _ _ _ _ _ (C1 v j Hv Hj)); assumption. }
    destruct (in_dec name_dec x vs) as [Hx|Hx].
    + rewrite (total_one name_dec vs x); auto.
      2:{ intros v Hv N. apply rsum_zero. intros j Hj. rewrite S1 by assumption. unfold seed_name.
          destruct (name_eqb x v) eqn:E; [apply name_eqb_eq in E; congruence|cbn; ring]. }
      rewrite <- (rsum_seed (extent x) i (ds x) Hi). apply rsum_ext. intros j Hj. rewrite S1 by assumption.
      unfold seed_name. rewrite name_eqb_refl. reflexivity.
    + rewrite MO1 by assumption. apply total_zero. intros v Hv. apply rsum_zero. intros j Hj. rewrite S1 by assumption.
      unfold seed_name. destruct (name_eqb x v) eqn:E; [apply name_eqb_eq in E; subst; contradiction|cbn; ring].
  - intros n nm i D E Hi.
    rewrite (total_zero vs).
    2:{ intros v Hv. apply rsum_zero. intros j Hj.
        rewrite (sv_indep _ _ _ _ _ _ _ _ _ _ _ _ (C1 v j Hv Hj) n nm i D E Hi). unfold still. ring. }
    rewrite Rplus_0_l.
    destruct (in_dec Nat.eq_dec n ns) as [Hn|Hn].
    + rewrite (total_one Nat.eq_dec ns n); auto.
      * rewrite E. rewrite <- (rsum_seed (extent nm) i (dind n) Hi). apply rsum_ext. intros j Hj.
        rewrite (sv_indep _ _ _ _ _ _ _ _ _ _ _ _ (C2 n nm j Hn E Hj) n nm i D E Hi).
        unfold seed_indep. rewrite Nat.eqb_refl. reflexivity.
      * intros n' Hn' N. destruct (abuild st n') as [|f a|nm'|e| |k g|x0] eqn:E'; try reflexivity.
        apply rsum_zero. intros j Hj.
        rewrite (sv_indep _ _ _ _ _ _ _ _ _ _ _ _ (C2 n' nm' j Hn' E' Hj) n nm i D E Hi).
        unfold seed_indep. destruct (Nat.eqb_spec n n'); [congruence|cbn; ring].
    + rewrite MO2 by assumption. apply total_zero. intros n' Hn'.
      destruct (abuild st n') as [|f a|nm'|e| |k g|x0] eqn:E'; try reflexivity.
      apply rsum_zero. intros j Hj.
      rewrite (sv_indep _ _ _ _ _ _ _ _ _ _ _ _ (C2 n' nm' j Hn' E' Hj) n nm i D E Hi).
      unfold seed_indep. destruct (Nat.eqb_spec n n'); [subst; contradiction|cbn; ring].
  - intros n k x c o D Wk Pk Ho.
    set (v := args (map fin (reads n))).
    rewrite (applied_ext c v _ (fun q i =>
       total vs (fun v => rsum (extent v) (fun j => args (map (tot v j) (reads n)) q i * ds v j)) +
       total ns (fun m => match abuild st m with
                          | BIndep nm => rsum (extent nm) (fun j => args (map (itot m j) (reads n)) q i * dind m j)
                          | _ => 0
                          end))).
    2:{ intros q i. rewrite args_map. destruct (nth_error (reads n) q) as [z|] eqn:EN.
        - f_equal.
          + apply total_ext. intros w _. apply rsum_ext. intros j _. now rewrite args_map, EN.
          + apply total_ext. intros m _. destruct (abuild st m); try reflexivity.
            apply rsum_ext. intros j _. now rewrite args_map, EN.
        - rewrite !total_zero; [ring| |].
          + intros m _. destruct (abuild st m); try reflexivity.
            apply rsum_zero. intros j _. rewrite args_map, EN. ring.
          + intros w _. apply rsum_zero. intros j _. rewrite args_map, EN. ring. }
    rewrite (applied_plus c v).
    f_equal.
    + rewrite (applied_total c v vs (fun w q i => rsum (extent w) (fun j => args (map (tot w j) (reads n)) q i * ds w j))).
      apply total_ext. intros w Hw.
      rewrite (applied_rsum c v (extent w) (fun j q i => args (map (tot w j) (reads n)) q i * ds w j)).
      apply rsum_ext. intros j Hj. rewrite applied_scal. f_equal.
      apply (sv_comp _ _ _ _ _ _ _ _ _ _ _ _ (C1 w j Hw Hj) n k x c o D Wk Pk Ho).
    + rewrite (applied_total c v ns (fun m q i => match abuild st m with
          | BIndep nm => rsum (extent nm) (fun j => args (map (itot m j) (reads n)) q i * dind m j) | _ => 0 end)).
      apply total_ext. intros m Hm. destruct (abuild st m) as [|f a|nm|e| |k' g|x0] eqn:E; try (now rewrite applied_zero).
      rewrite (applied_rsum c v (extent nm) (fun j q i => args (map (itot m j) (reads n)) q i * dind m j)).
      apply rsum_ext. intros j Hj. rewrite applied_scal. f_equal.
      apply (sv_comp _ _ _ _ _ _ _ _ _ _ _ _ (C2 m nm j Hm E Hj) n k x c o D Wk Pk Ho).
Qed.
End Model.

Section Main.
Variables (table asm part : nat -> component) (subs : nat -> list component).
Variables (sub_reads sub_writes : nat -> list name).
Variable shape_of : name -> list nat.

Lemma model_totals O uid reverse fuel h st rs :
  run_ops O fuel api0 h = Some (st, rs) ->
  throughout O no_self_reference fuel api0 h ->
  all_tidy st -> uid_distinct root uid (adeps st) ->
  (forall out, created_output h rs out -> exists i, given_value h rs i out) ->
  labels_distinct st -> SpecRun.names_ok sub_reads sub_writes st ->
  (forall k, length (subs k) = length (sub_writes k)) ->
  sizes_agree table asm part subs sub_reads sub_writes shape_of st ->
  exists added, eventually (fun f => group_setup O set_list uid f reverse st) (Ok added)
    /\ (forall s ind vs ns,
          exists tot itot, columns table asm part subs sub_reads sub_writes shape_of st
            (pass table asm part subs sub_reads sub_writes st added ind s) vs ns tot itot)
    /\ forall s ind t0 ds dind vs ns tot itot,
       let fin t := pass table asm part subs sub_reads sub_writes st added (ind t) (s t) in
       given_rates sub_writes shape_of st s ind t0 ds dind ->
       chained table asm part subs sub_reads shape_of st (fin t0) ->
       NoDup vs -> NoDup ns -> (forall v, In v vs -> ~ written sub_writes st v) ->
       moves_only vs ns ds dind ->
       columns table asm part subs sub_reads sub_writes shape_of st (fin t0) vs ns tot itot ->
       forall x i, (i < size (shape_of x))%nat ->
         derivable_pt_lim (fun t => fin t x i) t0 (times_rates shape_of st vs ns tot itot ds dind x i).
Proof.
  intros E TH NW UD G LD NO SL SA. destruct (history_inv O _ _ _ _ E) as [I SH].
  assert (AC : acyclic (adeps st)).
  { apply (run_acyclic O fuel h api0 st rs ainv0 acyclic0); [|assumption].
    apply (throughout_weaken O no_self_reference); [apply self_reference_assign|assumption]. }
  assert (W : wired st) by (now apply (run_wired O fuel h api0 st rs ainv0 shape0 acyclic0 wired0)).
  assert (U : uses_ok st) by (exact (run_uses O fuel h api0 st rs ainv0 shape0 uses_ok0 E)).
  assert (D := all_defined O fuel h st rs E G).
  destruct (api_setup_ok O uid reverse st I (conj AC (conj NW UD)) SH D LD) as (added & A1 & A2 & A3 & A4 & _).
  exists added. split; [assumption|].
  assert (FS := forward_solves table asm part subs sub_reads sub_writes shape_of st I SH W U D NO SL added A2 A3 A4).
  split.
  - intros s ind vs ns. eexists (fun v j x => _), (fun n j x => _). split.
    + intros v j _ _. apply (FS s ind (seed_name v j) still).
    + intros n nm j _ _ _. apply (FS s ind still (seed_indep n j)).
  - intros s ind t0 ds dind vs ns tot itot fin RT CH ND1 ND2 UW MO CO x i Hi.
    exact (solution_is_derivative table asm part subs sub_reads sub_writes shape_of st I SH W U D NO SL
             added A2 A3 A4 SA s ind t0 ds dind RT CH _
             (columns_solve table asm part subs sub_reads sub_writes shape_of st (fin t0) vs ns tot itot ds dind
                ND1 ND2 UW MO CO) x i Hi).
Qed.

Lemma model_residual O uid reverse fuel h st rs :
  run_ops O fuel api0 h = Some (st, rs) ->
  throughout O no_self_reference fuel api0 h ->
  all_tidy st -> uid_distinct root uid (adeps st) ->
  (forall out, created_output h rs out -> exists i, given_value h rs i out) ->
  labels_distinct st -> SpecRun.names_ok sub_reads sub_writes st ->
  (forall k, length (subs k) = length (sub_writes k)) ->
  sizes_agree table asm part subs sub_reads sub_writes shape_of st ->
  exists added, eventually (fun f => group_setup O set_list uid f reverse st) (Ok added)
    /\ (forall s ind vs ns,
          exists tot itot, columns table asm part subs sub_reads sub_writes shape_of st
            (pass table asm part subs sub_reads sub_writes st added ind s) vs ns tot itot)
    /\ forall s ind t0 ds dind vs ns tot itot o rn y0 outputs,
       let pass := pass table asm part subs sub_reads sub_writes st added in
       let F t (env : name -> nd R) n := Nd (shape_of n) (pass (ind t) (with_output (s t) o (dat (env o))) n) in
       let fin := pass (ind t0) (with_output (s t0) o y0) in
       given_rates sub_writes shape_of st s ind t0 ds dind ->
       chained table asm part subs sub_reads shape_of st fin ->
       NoDup (o :: vs) -> NoDup ns -> (forall v, In v (o :: vs) -> ~ written sub_writes st v) ->
       moves_only (o :: vs) ns ds dind ->
       columns table asm part subs sub_reads sub_writes shape_of st fin (o :: vs) ns tot itot ->
       shape_of rn = shape_of o ->
       residual_rates F outputs o rn (shape_of o) y0 t0
         (times_rates shape_of st vs ns tot itot ds dind rn) (fun i j => tot o j rn i).
Proof.
  intros E TH NW UD G LD NO SL SA.
  destruct (model_totals O uid reverse fuel h st rs E TH NW UD G LD NO SL SA) as (added & A & EC & H).
  exists added. split; [exact A|]. split; [exact EC|].
  intros s ind t0 ds dind vs ns tot itot o rn y0 outputs pass F fin RT CH ND1 ND2 UW MO CO SR X w HS H0 HD i Hi.
  assert (EX : with_output (s t0) o (dat (X t0)) = with_output (s t0) o y0).
  { unfold with_output. apply functional_extensionality. intros x. destruct (name_eqb x o); [|reflexivity].
    apply functional_extensionality. exact H0. }
  set (ds' := fun x i => if name_eqb x o then w i else ds x i).
  apply derivable_pt_lim_ext with (f := fun t => pass (ind t) (with_output (s t) o (dat (X t))) rn i).
  { intros t. unfold F. cbn [dat]. now rewrite set_out_same. }
  eapply derivable_pt_lim_eq.
  2:{ apply (H (fun t => with_output (s t) o (dat (X t))) ind t0 ds' dind (o :: vs) ns tot itot); auto.
      - split; [|exact (proj2 RT)]. intros x j Hx Hj. unfold with_output, ds'. destruct (name_eqb x o) eqn:EO.
        + apply name_eqb_eq in EO. subst x. now apply HD.
        + now apply (proj1 RT).
      - rewrite EX. exact CH.
      - destruct MO as [M1 M2]. split; [|exact M2]. intros x j Hx. unfold ds'. destruct (name_eqb x o) eqn:EO.
        + apply name_eqb_eq in EO. subst x. exfalso. apply Hx. now left.
        + now apply M1.
      - rewrite EX. exact CO.
      - now rewrite SR. }
  unfold times_rates. rewrite total_cons. unfold ds' at 1. rewrite name_eqb_refl.
  rewrite NoDup_cons_iff in ND1. destruct ND1 as [NI _].
  rewrite (total_ext vs (fun v => rsum (size (shape_of v)) (fun j => tot v j rn i * ds' v j))
                        (fun v => rsum (size (shape_of v)) (fun j => tot v j rn i * ds v j))).
  - lra.
  - intros v Hv. apply rsum_ext. intros j _. unfold ds'. destruct (name_eqb v o) eqn:EO; [|reflexivity].
    apply name_eqb_eq in EO. subst v. contradiction.
Qed.
End Main.

(** the history of DerivExample: the matrix of derivatives in its only given variable *)
Example totals_case :
  exists added, eventually (fun f => group_setup ApiWitness.O set_list (fun n => n) f false ex_state) (Ok added) /\
  forall t0, exists tot itot,
    columns ex_table (fun _ => ex_asm) (fun _ => ex_part) ex_subs full_reads full_writes ex_shape ex_state
      (pass ex_table (fun _ => ex_asm) (fun _ => ex_part) ex_subs full_reads full_writes ex_state added
         (fun _ _ => 3) (ex_start t0)) [User 1] [] tot itot /\
    forall x i, (i < size (ex_shape x))%nat ->
      derivable_pt_lim (fun t => pass ex_table (fun _ => ex_asm) (fun _ => ex_part) ex_subs full_reads full_writes
         ex_state added (fun _ _ => 3) (ex_start t) x i) t0
        (times_rates ex_shape ex_state [User 1] [] tot itot (ex_rate t0) still x i).
Proof.
  destruct (model_totals ex_table (fun _ => ex_asm) (fun _ => ex_part) ex_subs full_reads full_writes ex_shape
    ApiWitness.O (fun n => n) false 60 full_history ex_state (results_of full_history)) as (added & A & X & H).
  - exact full_runs.
  - exact full_reference.
  - exact (proj1 (proj2 full_schedulable)).
  - exact (proj2 (proj2 full_schedulable)).
  - exact full_given.
  - exact full_labels.
  - exact full_names.
  - reflexivity.
  - exact ex_sizes.
  - exists added. split; [exact A|]. intros t0.
    destruct (X (ex_start t0) (fun _ _ => 3) [User 1] []) as (tot & itot & CO).
    exists tot, itot. split; [exact CO|].
    apply (H ex_start (fun _ _ _ => 3) t0 (ex_rate t0) still [User 1] [] tot itot (ex_rates t0) (ex_chained _)).
    + constructor; [intros []|constructor].
    + constructor.
    + intros v [<-|[]]. exact ex_unwritten.
    + split; [|reflexivity]. intros x i Hx. unfold ex_rate.
      destruct (name_eqb x (User 1)) eqn:EQ; [|reflexivity]. apply name_eqb_eq in EQ. subst. exfalso. apply Hx. now left.
    + exact CO.
Qed.

(** the same history as the internal model of an implicit output [User 1] with
    the residual [User 4], while its independent variable, made by call 2, moves *)
Definition ex_ind (t0 t : R) : nat -> values := fun n _ => if Nat.eqb n 2 then t else t0.
Example residual_case :
  exists added, eventually (fun f => group_setup ApiWitness.O set_list (fun n => n) f false ex_state) (Ok added) /\
  forall t0 y0 outputs, exists tot itot,
    let pass := pass ex_table (fun _ => ex_asm) (fun _ => ex_part) ex_subs full_reads full_writes ex_state added in
    columns ex_table (fun _ => ex_asm) (fun _ => ex_part) ex_subs full_reads full_writes ex_shape ex_state
      (pass (ex_ind t0 t0) (with_output still (User 1) y0)) [User 1] [2%nat] tot itot /\
    residual_rates (fun t (env : name -> nd R) n =>
        Nd (ex_shape n) (pass (ex_ind t0 t) (with_output still (User 1) (dat (env (User 1)))) n))
      outputs (User 1) (User 4) [2%nat] y0 t0
      (times_rates ex_shape ex_state [] [2%nat] tot itot still (fun n _ => if Nat.eqb n 2 then 1 else 0) (User 4))
      (fun i j => tot (User 1) j (User 4) i).
Proof.
  destruct (model_residual ex_table (fun _ => ex_asm) (fun _ => ex_part) ex_subs full_reads full_writes ex_shape
    ApiWitness.O (fun n => n) false 60 full_history ex_state (results_of full_history)) as (added & A & X & H);
    [exact full_runs|exact full_reference|exact (proj1 (proj2 full_schedulable))|exact (proj2 (proj2 full_schedulable))
    |exact full_given|exact full_labels|exact full_names|reflexivity|exact ex_sizes|].
  exists added. split; [exact A|]. intros t0 y0 outputs.
  destruct (X (with_output still (User 1) y0) (ex_ind t0 t0) [User 1] [2%nat]) as (tot & itot & CO).
  exists tot, itot. intros pass. split; [exact CO|].
  apply (H (fun _ => still) (ex_ind t0) t0 still (fun n _ => if Nat.eqb n 2 then 1 else 0)
           [] [2%nat] tot itot (User 1) (User 4) y0 outputs).
  - split.
    + intros x i _ _. apply derivable_pt_lim_const.
    + intros n nm i _ _ _. unfold ex_ind. destruct (Nat.eqb n 2); [apply derivable_pt_lim_id|apply derivable_pt_lim_const].
  - apply ex_chained.
  - constructor; [intros []|constructor].
  - constructor; [intros []|constructor].
  - intros v [<-|[]]. exact ex_unwritten.
  - split; [reflexivity|]. intros n i Hn. destruct (Nat.eqb_spec n 2) as [->|]; [|reflexivity].
    exfalso. apply Hn. now left.
  - exact CO.
  - reflexivity.
Qed.
