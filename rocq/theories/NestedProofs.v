(** Groups used as subsystems: their outputs obey the chain rule, and the equations of
    all groups together give the derivatives of all their variables. *)
From Coq Require Import Reals Lra Lia Arith List Bool.
From Coq Require Import FunctionalExtensionality.
From Verif Require Import PyBase PySet SpecGraph GraphLemmas Graph SpecSetup Replace GroupApi SpecApi
  GroupApiProofs GroupApiAcyclic GroupApiShape GroupApiWired GroupApiSetup GroupApiUses Run SpecRun RunProofs
  GroupApiHistory ApiTheorems ApiCheck.
From Verif Require Import RSum NdArray Component JacSpec SpecNorm SpecExtremum SpecTotal TotalCalc StdCalls SpecDeriv
  DerivProofs SpecAdjoint AdjointProofs BisectProofs SpecTotals TotalsProofs InternalProofs Nested SpecNested.
Import ListNotations.
Local Open Scope nat_scope.

Lemma eventually_unique {A} (run : nat -> option A) a b : eventually run a -> eventually run b -> a = b.
Proof.
  intros [f1 H1] [f2 H2]. assert (E : Some a = Some b); [|now injection E].
  rewrite <- (H1 (max f1 f2)) by lia. apply H2. lia.
Qed.

(** what the proofs about passes need *)
Record scheduled (sub_reads sub_writes : nat -> list name) (st : api) (added : list nat) : Prop := {
  sd_inv : ainv st;
  sd_shape : GroupApiShape.shape st;
  sd_wired : wired st;
  sd_uses : uses_ok st;
  sd_def : forall n, akind st n = KExplicit -> adefined st n = true;
  sd_names : SpecRun.names_ok sub_reads sub_writes st;
  sd_nodup : NoDup added;
  sd_all : forall n, In n added <-> dep_on (adeps st) root n /\ has_build st n = true;
  sd_before : forall u v, In u added -> In v added -> dep_on (adeps st) u v -> before added v u }.

Lemma described_scheduled sub_reads sub_writes st added :
  described sub_reads sub_writes st added -> scheduled sub_reads sub_writes st added.
Proof.
  intros (O & uid & reverse & fuel & h & rs & E & TH & NW & UD & G & LD & NO & EV).
  destruct (history_inv O _ _ _ _ E) as [I SH].
  assert (AC : acyclic (adeps st)).
  { apply (run_acyclic O fuel h api0 st rs ainv0 acyclic0); [|assumption].
    apply (throughout_weaken O no_self_reference); [apply self_reference_assign|assumption]. }
  assert (W : wired st) by (now apply (run_wired O fuel h api0 st rs ainv0 shape0 acyclic0 wired0)).
  assert (U : uses_ok st) by (exact (run_uses O fuel h api0 st rs ainv0 shape0 uses_ok0 E)).
  assert (D := all_defined O fuel h st rs E G).
  destruct (api_setup_ok O uid reverse st I (conj AC (conj NW UD)) SH D LD) as (added' & A1 & A2 & A3 & A4 & _).
  assert (Q := eventually_unique _ _ _ A1 EV). injection Q as <-. now constructor.
Qed.

(** ---- the equations have one solution ---- *)
Section Unique.
Variables (table asm part : nat -> component) (subs : nat -> list component).
Variables (sub_reads sub_writes : nat -> list name).
Variable shape_of : name -> list nat.
Variable st : api.
Variable added : list nat.
Hypothesis SD : scheduled sub_reads sub_writes st added.
Hypothesis SA : sizes_agree table asm part subs sub_reads sub_writes shape_of st.
Local Notation reads := (comp_reads sub_reads st).
Local Notation writes := (comp_writes sub_writes st).
Local Notation extent x := (size (shape_of x)).
Local Notation solves := (solves table asm part subs sub_reads sub_writes shape_of st).

Lemma solves_rates fin ds ds' dind T :
  (forall x i, ~ written sub_writes st x -> i < extent x -> ds x i = ds' x i) -> solves fin ds dind T -> solves fin ds' dind T.
Proof.
  intros H [S1 S2 S3]. constructor; auto. intros x i NW Hi. rewrite <- H by assumption. now apply S1.
Qed.

Lemma applied_local c v d d' o :
  (forall q i, q < length (c_ins c) -> i < size (nth q (c_ins c) []) -> d q i = d' q i) ->
  applied c v d o = applied c v d' o.
Proof.
  intros H. unfold applied, along. apply rsum_ext. intros q Hq. apply rsum_ext. intros i Hi. now rewrite H.
Qed.

Lemma read_extent n c q y : map size (c_ins c) = map (fun y => extent y) (reads n) ->
  nth_error (reads n) q = Some y -> size (nth q (c_ins c) []) = extent y.
Proof.
  intros IS Ey.
  assert (Q : nth_error (map size (c_ins c)) q = nth_error (map (fun y => extent y) (reads n)) q) by now rewrite IS.
  rewrite !nth_error_map, Ey in Q. cbn in Q. destruct (nth_error (c_ins c) q) as [s|] eqn:E; [|discriminate].
  cbn in Q. injection Q as Q. now rewrite (nth_error_nth _ _ _ E).
Qed.

Section Two.
Variables (fin : store values) (ds : name -> values) (dind : nat -> values) (T T' : name -> values).
Hypothesis S1 : solves fin ds dind T.
Hypothesis S2 : solves fin ds dind T'.

Lemma unique_at k : forall n l1 l2, length l1 < k -> added = l1 ++ n :: l2 ->
  forall x i, In x (writes n) -> i < extent x -> T x i = T' x i.
Proof.
  induction k as [|k IH]; intros n l1 l2 L E x i Hx Hi; [lia|].
  assert (Hn : In n added) by (rewrite E; apply in_or_app; right; now left).
  pose proof (proj1 (sd_all _ _ _ _ SD n) Hn) as [D HB].
  destruct (is_indep_dec st n) as [[nm EN]|NI].
  - assert (x = nm) as -> by (unfold comp_writes in Hx; rewrite EN in Hx; destruct Hx as [<-|[]]; reflexivity).
    rewrite (sv_indep _ _ _ _ _ _ _ _ _ _ _ _ S1 n nm i D EN Hi).
    now rewrite (sv_indep _ _ _ _ _ _ _ _ _ _ _ _ S2 n nm i D EN Hi).
  - destruct (written_part table asm part subs sub_reads sub_writes shape_of st added (sd_all _ _ _ _ SD) SA n x Hn NI Hx)
      as (j & c & Wj & Pj & OS & IS).
    rewrite (sv_comp _ _ _ _ _ _ _ _ _ _ _ _ S1 n j x c i D Wj Pj Hi).
    rewrite (sv_comp _ _ _ _ _ _ _ _ _ _ _ _ S2 n j x c i D Wj Pj Hi).
    apply applied_local. intros q o Hq Ho. rewrite !args_map.
    destruct (nth_error (reads n) q) as [y|] eqn:Ey; [|reflexivity].
    rewrite (read_extent n c q y IS Ey) in Ho.
    destruct (written_dec sub_writes st added (sd_all _ _ _ _ SD) y) as [(m & Hm & Hy)|NW].
    + assert (B : before added m n).
      { apply (read_before sub_reads sub_writes st (sd_inv _ _ _ _ SD) (sd_shape _ _ _ _ SD) (sd_wired _ _ _ _ SD)
          (sd_uses _ _ _ _ SD) (sd_def _ _ _ _ SD) (sd_names _ _ _ _ SD) added (sd_all _ _ _ _ SD) (sd_before _ _ _ _ SD)
          m n y Hm Hn Hy). now apply nth_error_In in Ey. }
      destruct B as (a & b & c' & EB).
      assert (Q : l1 ++ n :: l2 = (a ++ m :: b) ++ n :: c') by (rewrite <- E, EB, <- app_assoc; reflexivity).
      assert (NDQ : NoDup (l1 ++ n :: l2)) by (rewrite <- E; exact (sd_nodup _ _ _ _ SD)).
      destruct (nodup_middle l1 (a ++ m :: b) l2 c' n NDQ Q) as [Q' _].
      apply (IH m a (b ++ n :: c')); auto.
      rewrite Q', app_length in L. cbn in L. lia.
    + rewrite (sv_given _ _ _ _ _ _ _ _ _ _ _ _ S1 y o NW Ho).
      now rewrite (sv_given _ _ _ _ _ _ _ _ _ _ _ _ S2 y o NW Ho).
Qed.

Lemma solves_unique x i : i < extent x -> T x i = T' x i.
Proof.
  intros Hi. destruct (written_dec sub_writes st added (sd_all _ _ _ _ SD) x) as [(n & Hn & Hx)|NW].
  - apply in_split in Hn. destruct Hn as (l1 & l2 & E). apply (unique_at (S (length l1)) n l1 l2); auto.
  - rewrite (sv_given _ _ _ _ _ _ _ _ _ _ _ _ S1 x i NW Hi).
    now rewrite (sv_given _ _ _ _ _ _ _ _ _ _ _ _ S2 x i NW Hi).
Qed.
End Two.
End Unique.

(** ---- one inner group ---- *)
Lemma position_nth x l q : position x l = Some q -> nth_error l q = Some x.
Proof.
  revert q. induction l as [|y l IH]; intros q H; cbn in H; [discriminate|].
  destruct (name_eqb x y) eqn:E.
  - injection H as <-. apply name_eqb_eq in E. now subst.
  - destruct (position x l) as [p|]; [|discriminate]. injection H as <-. now apply IH.
Qed.
Lemma position_none x l : position x l = None -> ~ In x l.
Proof.
  induction l as [|y l IH]; intros H; [intros []|]. cbn in H. destruct (name_eqb x y) eqn:E; [discriminate|].
  destruct (position x l); [discriminate|]. intros [->|Hx]; [now rewrite name_eqb_refl in E|now apply IH].
Qed.
Lemma nth_position x l q : NoDup l -> nth_error l q = Some x -> position x l = Some q.
Proof.
  intros ND. revert q. induction ND as [|y l NI ND IH]; intros q H; [destruct q; discriminate|].
  destruct q as [|q]; cbn in H |- *.
  - injection H as <-. now rewrite name_eqb_refl.
  - destruct (name_eqb x y) eqn:E.
    + apply name_eqb_eq in E. subst. exfalso. apply NI. now apply nth_error_In in H.
    + now rewrite (IH q H).
Qed.

Lemma total_nth {A} (l : list A) (f : A -> R) (d : A) : total l f = rsum (length l) (fun q => f (nth q l d)).
Proof.
  induction l as [|a l IH]; [reflexivity|]. cbn [length]. rewrite rsum_succ_l, total_cons, IH. reflexivity.
Qed.

Section One.
Variable m : inner.
Hypothesis OK : inner_ok m.
Local Notation shape_of := (in_shape m).
Local Notation extent x := (size (in_shape m x)).

Lemma inner_scheduled : scheduled (in_reads m) (in_writes m) (in_state m) (in_added m).
Proof. apply described_scheduled. exact (io_made _ OK). Qed.
Local Notation SD := inner_scheduled.
Local Notation solves := (SpecDeriv.solves (in_table m) (in_asm m) (in_part m) (in_subs m) (in_reads m) (in_writes m) shape_of (in_state m)).

Definition feeds (d : nat -> values) : name -> values :=
  fun x => match position x (in_inputs m) with Some q => d q | None => still x end.

Definition rates_of (v d : nat -> values) : name -> values := fun x =>
  snd (forward (in_table m) (in_asm m) (in_part m) (in_subs m) (in_reads m) (in_writes m) (in_state m) (in_added m)
         (fed m v) (in_ind m) (feeds d) still x).

Lemma rates_of_solves v d : inner_rates m v d (rates_of v d).
Proof.
  exact (forward_solves (in_table m) (in_asm m) (in_part m) (in_subs m) (in_reads m) (in_writes m) shape_of (in_state m)
    (sd_inv _ _ _ _ SD) (sd_shape _ _ _ _ SD) (sd_wired _ _ _ _ SD) (sd_uses _ _ _ _ SD) (sd_def _ _ _ _ SD)
    (sd_names _ _ _ _ SD) (io_len _ OK) (in_added m) (sd_nodup _ _ _ _ SD) (sd_all _ _ _ _ SD) (sd_before _ _ _ _ SD)
    (fed m v) (in_ind m) (feeds d) still).
Qed.

Lemma inner_unique v d T T' x i : inner_rates m v d T -> inner_rates m v d T' -> i < extent x -> T x i = T' x i.
Proof.
  intros H H' Hi. exact (solves_unique _ _ _ _ _ _ _ _ _ SD (io_sizes _ OK) _ _ _ T T' H H' x i Hi).
Qed.

(** curves of inputs *)
Lemma inner_derivative (g : R -> nat -> values) t0 d T :
  (forall q y i, nth_error (in_inputs m) q = Some y -> i < extent y -> derivable_pt_lim (fun t => g t q i) t0 (d q i)) ->
  inner_chained m (g t0) -> inner_rates m (g t0) d T ->
  forall x i, i < extent x -> derivable_pt_lim (fun t => inner_pass m (g t) x i) t0 (T x i).
Proof.
  intros M CH ST x i Hi.
  apply (solution_is_derivative (in_table m) (in_asm m) (in_part m) (in_subs m) (in_reads m) (in_writes m) shape_of (in_state m)
    (sd_inv _ _ _ _ SD) (sd_shape _ _ _ _ SD) (sd_wired _ _ _ _ SD) (sd_uses _ _ _ _ SD) (sd_def _ _ _ _ SD)
    (sd_names _ _ _ _ SD) (io_len _ OK) (in_added m) (sd_nodup _ _ _ _ SD) (sd_all _ _ _ _ SD) (sd_before _ _ _ _ SD)
    (io_sizes _ OK) (fun t => fed m (g t)) (fun _ => in_ind m) t0 (feeds d) still); [|exact CH|exact ST|exact Hi].
  split.
  - intros y j _ Hj. unfold fed, feeds. destruct (position y (in_inputs m)) as [q|] eqn:E.
    + apply (M q y j); [now apply position_nth|assumption].
    + apply derivable_pt_lim_const.
  - intros n nm j _ _ _. apply derivable_pt_lim_const.
Qed.

(** the columns add up *)
Lemma inner_columns v d T (tot : nat -> nat -> name -> values) :
  inner_rates m v d T ->
  (forall q y i, nth_error (in_inputs m) q = Some y -> i < extent y ->
     inner_rates m v (fun q' i' => if Nat.eqb q' q && Nat.eqb i' i then 1%R else 0%R) (tot q i)) ->
  forall x o, o < extent x -> T x o =
    rsum (length (in_inputs m)) (fun q => rsum (extent (nth q (in_inputs m) (Auto 0))) (fun i => (tot q i x o * d q i)%R)).
Proof.
  intros ST CO x o Ho. set (vs := in_inputs m).
  set (tot' := fun v j => match position v vs with Some q => tot q j | None => still end : name -> values).
  assert (C : columns (in_table m) (in_asm m) (in_part m) (in_subs m) (in_reads m) (in_writes m) shape_of (in_state m)
                (inner_pass m v) vs [] tot' (fun _ _ => still)).
  { split; [|intros n nm j []]. intros y j Hy Hj. unfold tot'. destruct (position y vs) as [q|] eqn:E.
    - assert (Q := position_nth _ _ _ E). specialize (CO q y j Q Hj).
      apply (solves_rates _ _ _ _ _ _ _ _ _ _ _ _ _) with (2 := CO). intros z i _ _. unfold seed_name.
      destruct (name_eqb z y) eqn:EZ.
      + apply name_eqb_eq in EZ. subst z. unfold vs in E. rewrite E, Nat.eqb_refl. reflexivity.
      + destruct (position z (in_inputs m)) as [p|] eqn:EP; [|reflexivity].
        destruct (Nat.eqb_spec p q) as [->|]; [|reflexivity].
        apply position_nth in EP. unfold vs in Q. rewrite EP in Q. injection Q as ->. now rewrite name_eqb_refl in EZ.
    - exfalso. now apply (position_none _ _ E). }
  assert (MO : moves_only vs [] (feeds d) (still : nat -> values)).
  { split; [|reflexivity]. intros z i Hz. unfold feeds. destruct (position z (in_inputs m)) as [p|] eqn:EP; [|reflexivity].
    exfalso. apply Hz. apply position_nth in EP. now apply nth_error_In in EP. }
  assert (CS := columns_solve _ _ _ _ _ _ _ _ (inner_pass m v) vs [] tot' (fun _ _ => still) (feeds d) still
     (io_once _ OK) (NoDup_nil _) (io_given _ OK) MO C).
  rewrite (solves_unique _ _ _ _ _ _ _ _ _ SD (io_sizes _ OK) _ _ _ _ _ ST CS x o Ho).
  unfold times_rates. cbn [total fold_right]. rewrite Rplus_0_r. rewrite (total_nth _ _ (Auto 0)).
  apply rsum_ext. intros q Hq. apply rsum_ext. intros i Hi. unfold tot', feeds.
  assert (P : position (nth q vs (Auto 0)) vs = Some q).
  { apply nth_position; [exact (io_once _ OK)|]. now apply nth_error_nth'. }
  fold vs. now rewrite P.
Qed.

Lemma output_chain x c : stands_for_output m x c -> chain_rule (inner_chained m) c.
Proof.
  intros SF g d t0 M CH.
  exists (fun q => match c_partials c (inputs_of (c_ins c) (g t0)) q with Some j => j | None => Dense (Nd [] (fun _ => 0%R)) end).
  assert (LI : length (c_ins c) = length (in_inputs m)) by (rewrite (sf_ins _ _ _ SF); apply map_length).
  assert (NI : forall q, q < length (in_inputs m) -> nth q (c_ins c) [] = shape_of (nth q (in_inputs m) (Auto 0))).
  { intros q Hq. rewrite (sf_ins _ _ _ SF). rewrite (nth_indep _ [] (shape_of (Auto 0))) by (now rewrite map_length). apply map_nth. }
  split.
  - intros q Hq. rewrite LI in Hq. destruct (sf_partial _ _ _ SF (g t0) q (nth q (in_inputs m) (Auto 0))) as (j & E & _).
    { now apply nth_error_nth'. }
    now rewrite E.
  - intros o Ho. rewrite (sf_out _ _ _ SF) in Ho.
    assert (ST := rates_of_solves (g t0) d). set (T := rates_of (g t0) d) in *.
    apply derivable_pt_lim_ext with (f := fun t => inner_pass m (g t) x o).
    { intros t. symmetry. now apply (sf_value _ _ _ SF). }
    assert (DT := inner_derivative g t0 d T).
    eapply derivable_pt_lim_eq; [|apply DT; [|exact CH|exact ST|exact Ho]].
    + symmetry. unfold along. rewrite LI.
      assert (TT : exists tot : nat -> nat -> name -> values, forall q i,
        inner_rates m (g t0) (fun q' i' => if Nat.eqb q' q && Nat.eqb i' i then 1%R else 0%R) (tot q i)).
      { exists (fun q i => rates_of (g t0) (fun q' i' => if Nat.eqb q' q && Nat.eqb i' i then 1%R else 0%R)). intros q i. apply rates_of_solves. }
      destruct TT as [tot TT].
      rewrite (inner_columns (g t0) d T tot ST (fun q y i _ _ => TT q i) x o Ho).
      apply rsum_ext. intros q Hq. rewrite NI by assumption. apply rsum_ext. intros i Hi. f_equal.
      destruct (sf_partial _ _ _ SF (g t0) q (nth q (in_inputs m) (Auto 0))) as (j & E & J).
      { now apply nth_error_nth'. }
      rewrite E. destruct (J i Hi) as (T' & ST' & EQ). rewrite EQ by assumption.
      first [exact (inner_unique (g t0) _ _ _ x o (TT q i) ST' Ho)|symmetry; exact (inner_unique (g t0) _ _ _ x o (TT q i) ST' Ho)].
    + intros q y i Ey Hi. assert (Hq : q < length (in_inputs m)) by (apply nth_error_Some; congruence).
      apply M; [lia|]. rewrite NI by assumption. now rewrite (nth_error_nth _ _ _ Ey).
Qed.

(** there is such a component *)
Lemma fed_local v v' : (forall q, q < length (in_inputs m) -> v q = v' q) -> fed m v = fed m v'.
Proof.
  intros H. apply functional_extensionality. intros x. unfold fed. destruct (position x (in_inputs m)) as [q|] eqn:E; [|reflexivity].
  apply H. apply nth_error_Some. rewrite (position_nth _ _ _ E). discriminate.
Qed.

Lemma output_exists x : exists c, stands_for_output m x c.
Proof.
  assert (TT : exists tot : (nat -> values) -> nat -> nat -> name -> values, forall v q i,
    inner_rates m v (fun q' i' => if Nat.eqb q' q && Nat.eqb i' i then 1%R else 0%R) (tot v q i)).
  { exists (fun v q i => rates_of v (fun q' i' => if Nat.eqb q' q && Nat.eqb i' i then 1%R else 0%R)). intros v q i. apply rates_of_solves. }
  destruct TT as [tot TT].
  set (vals := fun ins : list (nd R) => fun q => dat (nth q ins (Nd [] (fun _ => 0%R)))).
  exists (Comp (map shape_of (in_inputs m)) (shape_of x)
    (fun ins => Some (Nd (shape_of x) (inner_pass m (vals ins) x)))
    (fun ins q => let n := extent (nth q (in_inputs m) (Auto 0)) in
       Some (Dense (Nd [extent x; n] (fun k => tot (vals ins) q (k mod n) x (k / n)))))).
  assert (V : forall v, fed m (vals (inputs_of (map shape_of (in_inputs m)) v)) = fed m v).
  { intros v. apply fed_local. intros q Hq. unfold vals, inputs_of. rewrite map_length.
    rewrite (nth_indep _ _ (Nd (nth 0 (map shape_of (in_inputs m)) []) (v 0))) by (now rewrite map_length, seq_length).
    rewrite (map_nth (fun p => Nd (nth p (map shape_of (in_inputs m)) []) (v p))). cbn [dat]. now rewrite seq_nth. }
  constructor; cbn [c_ins c_out c_partials]; try reflexivity.
  - intros v o Ho. unfold value_of. cbn [c_compute dat]. unfold inner_pass. now rewrite V.
  - intros v q y Ey. eexists. split; [reflexivity|]. intros i Hi. rewrite (nth_error_nth _ _ _ Ey). cbn [jac_entry].
    exists (tot (vals (inputs_of (map shape_of (in_inputs m)) v)) q i). split.
    + specialize (TT (vals (inputs_of (map shape_of (in_inputs m)) v)) q i). unfold inner_rates, inner_pass in *. now rewrite V in TT.
    + intros o Ho. unfold dense_entry. cbn [dat]. rewrite Nat.div_add_l by lia. rewrite Nat.div_small by assumption.
      rewrite Nat.add_comm, Nat.mod_add by lia. rewrite Nat.mod_small by assumption. now rewrite Nat.add_0_r.
Qed.
End One.

(** ---- a model with inner groups ---- *)
Section Outer.
Variables (table asm part : nat -> component) (subs : nat -> list component).
Variables (sub_reads sub_writes : nat -> list name).
Variable shape_of : name -> list nat.
Variable st : api.
Variable added : list nat.
Variable groups : nat -> inner.
Hypothesis DE : described sub_reads sub_writes st added.
Hypothesis SL : forall k, length (subs k) = length (sub_writes k).
Hypothesis SA : sizes_agree table asm part subs sub_reads sub_writes shape_of st.
Hypothesis GR : forall n k g, dep_on (adeps st) root n -> abuild st n = BSub k g ->
  inner_ok (groups k) /\ sub_reads k = in_inputs (groups k) /\
  (forall x, In x (sub_reads k) -> in_shape (groups k) x = shape_of x) /\
  Forall2 (stands_for_output (groups k)) (sub_writes k) (subs k).
Local Notation reads := (comp_reads sub_reads st).
Local Notation writes := (comp_writes sub_writes st).
Local Notation extent x := (size (shape_of x)).
Local Notation pass := (SpecDeriv.pass table asm part subs sub_reads sub_writes st added).
Local Notation solves := (SpecDeriv.solves table asm part subs sub_reads sub_writes shape_of st).
Local Notation all_rates := (SpecNested.all_rates table asm part sub_reads sub_writes shape_of st groups).

Lemma outer_scheduled : scheduled sub_reads sub_writes st added.
Proof. now apply described_scheduled. Qed.
Local Notation SD := outer_scheduled.

Lemma forall2_nth {A B} (P : A -> B -> Prop) l l' j a b : Forall2 P l l' ->
  nth_error l j = Some a -> nth_error l' j = Some b -> P a b.
Proof.
  intros F. revert j. induction F as [|x y l l' H F IH]; intros [|j] E1 E2; cbn in *; try discriminate; [congruence|now apply (IH j)].
Qed.
Lemma forall2_pair {A B} (P : A -> B -> Prop) l l' a : Forall2 P l l' -> In a l ->
  exists j b, nth_error l j = Some a /\ nth_error l' j = Some b /\ P a b.
Proof.
  intros F. induction F as [|x y l l' H F IH]; [intros []|]. intros [->|Hx]; [exists 0, y; auto|].
  destruct (IH Hx) as (j & b & H1 & H2 & H3). exists (S j), b. auto.
Qed.

Lemma forall2_right {A B} (P : A -> B -> Prop) l l' b : Forall2 P l l' -> In b l' -> exists a, In a l /\ P a b.
Proof.
  intros F. induction F as [|x y l l' H F IH]; [intros []|]. intros [E|H0].
  - subst. exists x. split; [now left|assumption].
  - destruct (IH H0) as (a & H1 & H2). exists a. split; [now right|assumption].
Qed.

Lemma group_size n k g x : dep_on (adeps st) root n -> abuild st n = BSub k g -> In x (sub_writes k) ->
  size (in_shape (groups k) x) = extent x.
Proof.
  intros D EB Hx. destruct (GR n k g D EB) as (OK & RE & SR & F2).
  assert (F := SA n D ltac:(intros nm; congruence)). unfold comp_writes, comp_reads, parts_of in F. rewrite EB in F.
  destruct (forall2_pair _ _ _ x F2 Hx) as (j & c & E1 & E2 & SF).
  destruct (forall2_nth _ _ _ j x c F E1 E2) as [H1 H2].
  now rewrite (sf_out _ _ _ SF) in H1.
Qed.

(** the outputs of a group are those of its own pass *)
Lemma group_values ind s n k g x i : dep_on (adeps st) root n -> abuild st n = BSub k g -> In x (sub_writes k) -> i < extent x ->
  pass ind s x i = inner_pass (groups k) (args (map (pass ind s) (sub_reads k))) x i.
Proof.
  intros D EB Hx Hi. destruct (GR n k g D EB) as (OK & RE & SR & F2).
  assert (Hn : In n added) by (apply (sd_all _ _ _ _ SD); split; [assumption|unfold has_build; now rewrite EB]).
  assert (NI : ~ is_indep st n) by (intros [nm E]; congruence).
  assert (Q := pass_equation table asm part subs sub_reads sub_writes shape_of st
    (sd_inv _ _ _ _ SD) (sd_shape _ _ _ _ SD) (sd_wired _ _ _ _ SD) (sd_uses _ _ _ _ SD) (sd_def _ _ _ _ SD)
    (sd_names _ _ _ _ SD) SL added (sd_nodup _ _ _ _ SD) (sd_all _ _ _ _ SD) (sd_before _ _ _ _ SD) ind s n Hn NI).
  unfold comp_writes, comp_reads, parts_of in Q. rewrite EB in Q.
  destruct (forall2_pair _ _ _ x F2 Hx) as (j & c & E1 & E2 & SF).
  assert (Q' : nth_error (map (pass ind s) (sub_writes k)) j =
     nth_error (map (fun c => computed c (map (pass ind s) (sub_reads k))) (subs k)) j) by now rewrite Q.
  rewrite !nth_error_map, E1, E2 in Q'. cbn in Q'. injection Q' as Q'. rewrite Q'.
  unfold computed. apply (sf_value _ _ _ SF). now rewrite (group_size n k g x D EB Hx).
Qed.

Lemma applied_group k x c v d T o : stands_for_output (groups k) x c -> inner_ok (groups k) ->
  inner_rates (groups k) v d T -> o < size (in_shape (groups k) x) -> applied c v d o = T x o.
Proof.
  intros SF OK ST Ho. set (m := groups k) in *.
  assert (TT : exists tot : nat -> nat -> name -> values, forall q i,
    inner_rates m v (fun q' i' => if Nat.eqb q' q && Nat.eqb i' i then 1%R else 0%R) (tot q i)).
  { exists (fun q i => rates_of m v (fun q' i' => if Nat.eqb q' q && Nat.eqb i' i then 1%R else 0%R)). intros q i. now apply rates_of_solves. }
  destruct TT as [tot TT].
  rewrite (inner_columns m OK v d T tot ST (fun q y i _ _ => TT q i) x o Ho).
  unfold applied, along. rewrite (sf_ins _ _ _ SF), map_length. apply rsum_ext. intros q Hq.
  rewrite (nth_indep _ [] (in_shape m (Auto 0))) by (now rewrite map_length). rewrite map_nth.
  apply rsum_ext. intros i Hi. f_equal. rewrite <- (sf_ins _ _ _ SF).
  destruct (sf_partial _ _ _ SF v q (nth q (in_inputs m) (Auto 0))) as (j & E & J).
  { now apply nth_error_nth'. }
  rewrite E. destruct (J i Hi) as (T' & ST' & EQ). rewrite EQ by assumption.
  symmetry. exact (inner_unique m OK v _ _ _ x o (TT q i) ST' Ho).
Qed.

Lemma all_rates_solves fin ds dind T Ti : all_rates fin ds dind T Ti -> solves fin ds dind T.
Proof.
  intros [A1 A2 A3 A4]. constructor; auto.
  intros n j x c o D Wj Pj Ho. destruct (abuild st n) as [|f a|nm|e| |k g|x0] eqn:EB.
  all: try (apply (A3 n j x c o D); [intros; congruence|assumption| |assumption]; unfold parts_of in *; now rewrite EB in *).
  destruct (GR n k g D EB) as (OK & RE & SR & F2). destruct (A4 n k g D EB) as [IR EQ].
  unfold comp_writes in Wj. unfold parts_of in Pj. unfold comp_reads. rewrite EB in *.
  assert (Hx : In x (sub_writes k)) by (now apply nth_error_In in Wj).
  rewrite (EQ x o) by assumption. symmetry.
  apply (applied_group k x); [now apply (forall2_nth _ _ _ j x c F2)|assumption|exact IR|].
  now rewrite (group_size n k g x D EB Hx).
Qed.

Lemma solves_all_rates fin ds dind T : solves fin ds dind T -> exists Ti, all_rates fin ds dind T Ti.
Proof.
  intros [S1 S2 S3].
  exists (fun k => rates_of (groups k) (args (map fin (sub_reads k))) (args (map T (sub_reads k)))).
  constructor; auto.
  - intros n j x c o D NB Wj Pj Ho. apply (S3 n j x c o D Wj); [|assumption].
    unfold parts_of in *. destruct (abuild st n) as [|f a|nm|e| |k g|x0] eqn:EB; try assumption. exfalso. now apply (NB k g).
  - intros n k g D EB. destruct (GR n k g D EB) as (OK & RE & SR & F2).
    assert (IR := rates_of_solves (groups k) OK (args (map fin (sub_reads k))) (args (map T (sub_reads k)))).
    split; [exact IR|]. intros x o Hx Ho. destruct (forall2_pair _ _ _ x F2 Hx) as (j & c & E1 & E2 & SF).
    assert (Ho' := Ho). rewrite <- (group_size n k g x D EB Hx) in Ho'.
    rewrite <- (applied_group k x c _ _ _ o SF OK IR Ho').
    assert (RN : reads n = sub_reads k) by (unfold comp_reads; now rewrite EB). rewrite <- RN.
    apply (S3 n j x c o D); [unfold comp_writes; now rewrite EB|unfold parts_of; now rewrite EB|assumption].
Qed.

Lemma nested_derivatives (s : R -> store values) ind t0 ds dind :
  let fin t := pass (ind t) (s t) in
  given_rates sub_writes shape_of st s ind t0 ds dind ->
  chained table asm part (fun _ => []) sub_reads shape_of st (fin t0) ->
  (forall n k g, dep_on (adeps st) root n -> abuild st n = BSub k g ->
     inner_chained (groups k) (args (map (fin t0) (sub_reads k)))) ->
  (exists T Ti, all_rates (fin t0) ds dind T Ti) /\
  forall T Ti, all_rates (fin t0) ds dind T Ti ->
    (forall x i, i < extent x -> derivable_pt_lim (fun t => fin t x i) t0 (T x i)) /\
    (forall n k g x i, dep_on (adeps st) root n -> abuild st n = BSub k g -> i < size (in_shape (groups k) x) ->
       derivable_pt_lim (fun t => inner_pass (groups k) (args (map (fin t) (sub_reads k))) x i) t0 (Ti k x i)).
Proof.
  intros fin RT CH CI. split.
  - destruct (solves_all_rates (fin t0) ds dind _ (forward_solves table asm part subs sub_reads sub_writes shape_of st
      (sd_inv _ _ _ _ SD) (sd_shape _ _ _ _ SD) (sd_wired _ _ _ _ SD) (sd_uses _ _ _ _ SD) (sd_def _ _ _ _ SD)
      (sd_names _ _ _ _ SD) SL added (sd_nodup _ _ _ _ SD) (sd_all _ _ _ _ SD) (sd_before _ _ _ _ SD) (s t0) (ind t0) ds dind))
      as [Ti AR]. eexists. exists Ti. exact AR.
  - intros T Ti AR. assert (ST := all_rates_solves _ _ _ _ _ AR).
    assert (CH' : chained table asm part subs sub_reads shape_of st (fin t0)).
    { intros n c D Hc. destruct (abuild st n) as [|f a|nm|e| |k g|x0] eqn:EB.
      all: try (apply (CH n c D); unfold parts_of in *; now rewrite EB in *).
      destruct (GR n k g D EB) as (OK & RE & SR & F2).
      assert (RN : reads n = sub_reads k) by (unfold comp_reads; now rewrite EB). rewrite RN.
      unfold parts_of in Hc. rewrite EB in Hc. exists (inner_chained (groups k)). split; [|now apply (CI n k g)].
      destruct (forall2_right _ _ _ _ F2 Hc) as (x & _ & SF). exact (output_chain (groups k) OK x c SF). }
    assert (DV := solution_is_derivative table asm part subs sub_reads sub_writes shape_of st
      (sd_inv _ _ _ _ SD) (sd_shape _ _ _ _ SD) (sd_wired _ _ _ _ SD) (sd_uses _ _ _ _ SD) (sd_def _ _ _ _ SD)
      (sd_names _ _ _ _ SD) SL added (sd_nodup _ _ _ _ SD) (sd_all _ _ _ _ SD) (sd_before _ _ _ _ SD) SA
      s ind t0 ds dind RT CH' T ST).
    split; [exact DV|]. intros n k g x i D EB Hi. destruct (GR n k g D EB) as (OK & RE & SR & F2).
    destruct (ar_group _ _ _ _ _ _ _ _ _ _ _ _ _ AR n k g D EB) as [IR _].
    apply (inner_derivative (groups k) OK (fun t => args (map (fin t) (sub_reads k))) t0 (args (map T (sub_reads k))));
      [|now apply (CI n k g)|exact IR|exact Hi].
    intros q y j Ey Hj. rewrite <- RE in Ey. rewrite SR in Hj by (now apply nth_error_In in Ey).
    apply derivable_pt_lim_ext with (f := fun t => fin t y j).
    + intros t. now rewrite args_map, Ey.
    + rewrite args_map, Ey. now apply DV.
Qed.
End Outer.
