(** A reverse pass solves the transposed equations, and every solution gives the
    derivatives. *)
From Coq Require Import Reals Lra Lia Arith List Bool.
From Verif Require Import PyBase PySet SpecGraph GraphLemmas Graph SpecSetup Replace GroupApi SpecApi
  GroupApiProofs GroupApiAcyclic GroupApiShape GroupApiWired GroupApiSetup GroupApiUses Run SpecRun RunProofs
  GroupApiHistory ApiTheorems.
From Verif Require Import RSum NdArray Component JacSpec SpecNorm SpecExtremum SpecTotal TotalCalc StdCalls SpecDeriv
  DerivProofs DerivMain SpecAdjoint.
Import ListNotations.
Local Open Scope R_scope.

Section Total.
Context {A : Type}.
Implicit Types (l : list A) (f g : A -> R).

Lemma total_nil f : total [] f = 0. Proof. reflexivity. Qed.
Lemma total_cons a l f : total (a :: l) f = f a + total l f. Proof. reflexivity. Qed.
Lemma total_ext l f g : (forall a, In a l -> f a = g a) -> total l f = total l g.
Proof.
  induction l as [|a l IH]; intros H; [reflexivity|]. rewrite !total_cons.
  rewrite H by now left. f_equal. apply IH. intros b Hb. apply H. now right.
Qed.
Lemma total_app l l' f : total (l ++ l') f = total l f + total l' f.
Proof. induction l as [|a l IH]; cbn [app]; rewrite ?total_nil, ?total_cons, ?IH; lra. Qed.
Lemma total_plus l f g : total l (fun a => f a + g a) = total l f + total l g.
Proof. induction l as [|a l IH]; rewrite ?total_nil, ?total_cons, ?IH; lra. Qed.
Lemma total_zero l f : (forall a, In a l -> f a = 0) -> total l f = 0.
Proof.
  induction l as [|a l IH]; intros H; [reflexivity|]. rewrite total_cons, H, IH; [lra| |now left].
  intros b Hb. apply H. now right.
Qed.
Lemma total_scal l c f : total l (fun a => c * f a) = c * total l f.
Proof. induction l as [|a l IH]; rewrite ?total_nil, ?total_cons, ?IH; lra. Qed.
Lemma total_rsum l n (f : A -> nat -> R) : total l (fun a => rsum n (f a)) = rsum n (fun i => total l (fun a => f a i)).
Proof.
  induction l as [|a l IH].
  - rewrite total_nil. symmetry. apply rsum_zero. reflexivity.
  - rewrite total_cons, IH, <- rsum_plus. reflexivity.
Qed.
Lemma derivable_total l (f : A -> R -> R) x (d : A -> R) :
  (forall a, In a l -> derivable_pt_lim (f a) x (d a)) ->
  derivable_pt_lim (fun t => total l (fun a => f a t)) x (total l d).
Proof.
  induction l as [|a l IH]; intros H.
  - apply derivable_pt_lim_const.
  - apply (derivable_pt_lim_plus (f a) (fun t => total l (fun a => f a t))).
    + apply H. now left.
    + apply IH. intros b Hb. apply H. now right.
Qed.
End Total.

Lemma total_swap {A B} (l : list A) (l' : list B) (f : A -> B -> R) :
  total l (fun a => total l' (f a)) = total l' (fun b => total l (fun a => f a b)).
Proof.
  induction l as [|a l IH].
  - rewrite total_nil. symmetry. apply total_zero. reflexivity.
  - rewrite total_cons, IH, <- total_plus. reflexivity.
Qed.
Lemma total_flat_map {A B} (l : list A) (h : A -> list B) (f : B -> R) :
  total (flat_map h l) f = total l (fun a => total (h a) f).
Proof. induction l as [|a l IH]; cbn [flat_map]; [reflexivity|]. now rewrite total_app, total_cons, IH. Qed.
Lemma total_combine {A B} (l : list A) (l' : list B) (f : A -> R) : length l = length l' ->
  total (combine l l') (fun p => f (fst p)) = total l f.
Proof.
  revert l'. induction l as [|a l IH]; intros [|b l'] L; try discriminate; cbn [combine]; [reflexivity|].
  rewrite !total_cons, IH by (cbn in L; lia). reflexivity.
Qed.

Lemma NoDup_app_intro' {A} (l l' : list A) : NoDup l -> NoDup l' -> (forall x, In x l -> ~ In x l') -> NoDup (l ++ l').
Proof.
  induction l as [|a l IH]; intros H1 H2 H3; [exact H2|]. inversion H1; subst. cbn. constructor.
  - intros H. apply in_app_or in H. destruct H as [H|H]; [contradiction|]. apply (H3 a); [now left|assumption].
  - apply IH; auto. intros x Hx. apply H3. now right.
Qed.

(** exactly one entry of the list is [x] *)
Lemma total_single l (x : name) (f : name -> R) : NoDup l -> In x l ->
  total l (fun y => if name_eqb x y then f y else 0) = f x.
Proof.
  intros ND. induction l as [|a l IH]; intros H; [contradiction|]. inversion ND; subst. rewrite total_cons.
  destruct (name_eqb x a) eqn:E.
  - apply name_eqb_eq in E. subst a.
    rewrite total_zero; [lra|]. intros b Hb. destruct (name_eqb x b) eqn:E; [|reflexivity].
    apply name_eqb_eq in E. now subst.
  - destruct H as [->|H].
    + assert (name_eqb x x = true) by now apply name_eqb_eq. congruence.
    + rewrite IH; auto. lra.
Qed.

Section Model.
Variables (table asm part : nat -> component) (subs : nat -> list component).
Variables (sub_reads sub_writes : nat -> list name).
Variable shape_of : name -> list nat.
Variable st : api.
Hypothesis INV : ainv st.
Hypothesis SH : GroupApiShape.shape st.
Hypothesis WI : wired st.
Hypothesis UO : uses_ok st.
Hypothesis DEF : forall n, akind st n = KExplicit -> adefined st n = true.
Hypothesis NO : names_ok sub_reads sub_writes st.

Variable added : list nat.
Hypothesis ND : NoDup added.
Hypothesis SP : forall n, In n added <-> dep_on (adeps st) root n /\ has_build st n = true.
Hypothesis BF : forall u v, In u added -> In v added -> dep_on (adeps st) u v -> before added v u.
Hypothesis SA : sizes_agree table asm part subs sub_reads sub_writes shape_of st.

Local Notation reads := (comp_reads sub_reads st).
Local Notation writes := (comp_writes sub_writes st).
Local Notation extent x := (size (shape_of x)).
Local Notation parts_of := (parts_of table asm part subs shape_of st).
Local Notation written := (written sub_writes st).
Local Notation solves := (solves table asm part subs sub_reads sub_writes shape_of st).
Local Notation sent := (sent table asm part subs sub_reads sub_writes shape_of st).
Local Notation adjoint := (adjoint table asm part subs sub_reads sub_writes shape_of st).
Local Notation weighted := (weighted shape_of).

(** ---- the reverse pass ---- *)
Section Reverse.
Variable fin : store values.
Variable w : name -> values.

Fixpoint back (l : list nat) : name -> values :=
  match l with
  | [] => w
  | n :: l' => fun y i => back l' y i + sent fin (back l') n y i
  end.

Lemma sent_ext A B n y i : (forall x o, In x (writes n) -> A x o = B x o) -> sent fin A n y i = sent fin B n y i.
Proof.
  intros H. unfold SpecAdjoint.sent. apply total_ext. intros [x c] Hx. apply in_combine_l in Hx. cbn [fst snd].
  apply rsum_ext. intros q _. destruct (nth_error (reads n) q) as [z|]; [|reflexivity].
  destruct (name_eqb z y); [|reflexivity]. apply rsum_ext. intros o _. now rewrite H.
Qed.

Lemma sent_unread A n y i : ~ In y (reads n) -> sent fin A n y i = 0.
Proof.
  intros H. unfold SpecAdjoint.sent. apply total_zero. intros [x c] _. apply rsum_zero. intros q _.
  destruct (nth_error (reads n) q) as [z|] eqn:E; [|reflexivity]. apply nth_error_In in E.
  destruct (name_eqb z y) eqn:E'; [|reflexivity]. apply name_eqb_eq in E'. now subst.
Qed.

Lemma back_unread l1 l2 y i : (forall m, In m l1 -> ~ In y (reads m)) -> back (l1 ++ l2) y i = back l2 y i.
Proof.
  induction l1 as [|m l1 IH]; intros H; [reflexivity|]. cbn [app back].
  rewrite sent_unread by (apply H; now left). rewrite IH by (intros k Hk; apply H; now right). lra.
Qed.

Lemma back_sum l y i : (forall l1 n l2, l = l1 ++ n :: l2 -> sent fin (back l2) n y i = sent fin (back l) n y i) ->
  back l y i = w y i + total l (fun n => sent fin (back l) n y i).
Proof.
  intros H.
  assert (K : forall l2 l1, l = l1 ++ l2 -> back l2 y i = w y i + total l2 (fun n => sent fin (back l) n y i)).
  { induction l2 as [|n l2 IH]; intros l1 E; cbn [back].
    - rewrite total_nil. lra.
    - rewrite (IH (l1 ++ [n])) by (rewrite E, <- app_assoc; reflexivity). rewrite (H l1 n l2 E), total_cons. lra. }
  exact (K l [] eq_refl).
Qed.

Lemma reverse_pass : adjoint added fin w (back added).
Proof.
  intros y i _. apply back_sum. intros l1 n l2 E. apply sent_ext. intros x o Hx.
  rewrite E. change (n :: l2) with ([n] ++ l2). rewrite app_assoc. symmetry. apply back_unread. intros m Hm Hr.
  assert (Hn : In n added) by (rewrite E; apply in_or_app; right; now left).
  assert (Hm' : In m added).
  { rewrite E. apply in_or_app. apply in_app_or in Hm. destruct Hm as [Hm|[->|[]]]; [now left|right; now left]. }
  destruct (read_before sub_reads sub_writes st INV SH WI UO DEF NO added SP BF n m x Hn Hm' Hx Hr) as (a & b & c & EB).
  assert (ND' := ND). rewrite EB in ND'.
  assert (E2 : l1 ++ n :: l2 = a ++ n :: (b ++ m :: c)) by (now rewrite <- E).
  assert (NDE : NoDup (l1 ++ n :: l2)) by now rewrite <- E.
  destruct (nodup_middle l1 a l2 (b ++ m :: c) n NDE E2) as [Q1 Q2]. subst.
  apply in_app_or in Hm. destruct Hm as [Hm|[->|[]]].
  - apply NoDup_remove in ND'. destruct ND' as [ND' _].
    clear - ND' Hm. induction a as [|z a IH]; [contradiction|]. cbn in ND'. inversion ND'; subst.
    destruct Hm as [->|Hm]; [|now apply IH].
    apply H1. apply in_or_app. right. apply in_or_app. right. now left.
  - apply NoDup_remove_2 in ND'. apply ND'. apply in_or_app. right. apply in_or_app. right. now left.
Qed.
End Reverse.

(** ---- duality ---- *)
Lemma part_sizes n x c : dep_on (adeps st) root n -> (forall nm, abuild st n <> BIndep nm) ->
  In (x, c) (combine (writes n) (parts_of n)) ->
  size (c_out c) = extent x /\ map size (c_ins c) = map (fun y => extent y) (reads n).
Proof.
  intros D NI H. assert (F := SA n D NI). revert F H. generalize (parts_of n). generalize (reads n). generalize (writes n).
  intros ws rs l F. induction F as [|y c' ws l [H1 H2] F IH]; intros H; [contradiction|].
  destruct H as [H|H]; [|now apply IH]. injection H as -> ->. auto.
Qed.

Lemma parts_length n : dep_on (adeps st) root n -> (forall nm, abuild st n <> BIndep nm) ->
  length (writes n) = length (parts_of n).
Proof. intros D NI. assert (F := SA n D NI). induction F; cbn; congruence. Qed.

Lemma combine_nth_error {X Y} (l : list X) (l' : list Y) p : In p (combine l l') ->
  exists j, nth_error l j = Some (fst p) /\ nth_error l' j = Some (snd p).
Proof.
  revert l'. induction l as [|a l IH]; intros [|b l'] H; try contradiction. destruct H as [<-|H].
  - exists 0%nat. auto.
  - destruct (IH l' H) as (j & H1 & H2). exists (S j). auto.
Qed.

Lemma nth_args (f : name -> values) rs q z : nth_error rs q = Some z -> args (map f rs) q = f z.
Proof. intros H. unfold args. apply nth_error_nth. now rewrite nth_error_map, H. Qed.

Lemma input_size (ss : list (list nat)) rs q z : map size ss = map (fun y => extent y) rs ->
  nth_error rs q = Some z -> size (nth q ss []) = extent z /\ (q < length ss)%nat.
Proof.
  intros E H.
  assert (L : (q < length ss)%nat).
  { rewrite <- (map_length size), E, map_length. apply nth_error_Some. congruence. }
  split; [|exact L].
  rewrite <- (map_nth size). rewrite (nth_indep _ _ 0%nat) by now rewrite map_length.
  rewrite E. apply nth_error_nth. now rewrite nth_error_map, H.
Qed.

Section Dual.
Variable fin : store values.
Variables (A T : name -> values) (vars : list name).
Hypothesis NV : NoDup vars.

Definition local_sent (n : nat) (x : name) (c : component) (q i : nat) : R :=
  rsum (extent x) (fun o => A x o * declared c (args (map fin (reads n))) q o i).

Lemma sent_dual n : (forall y, In y (reads n) -> In y vars) ->
  total vars (fun y => rsum (extent y) (fun i => sent fin A n y i * T y i)) =
  total (combine (writes n) (parts_of n)) (fun xc => rsum (length (c_ins (snd xc))) (fun q =>
    match nth_error (reads n) q with
    | Some z => rsum (extent z) (fun i => local_sent n (fst xc) (snd xc) q i * T z i)
    | None => 0
    end)).
Proof.
  intros RV. unfold SpecAdjoint.sent.
  transitivity (total vars (fun y => total (combine (writes n) (parts_of n)) (fun xc =>
    rsum (length (c_ins (snd xc))) (fun q => match nth_error (reads n) q with
      | Some z => if name_eqb z y then rsum (extent y) (fun i => local_sent n (fst xc) (snd xc) q i * T y i) else 0
      | None => 0 end)))).
  { apply total_ext. intros y _.
    transitivity (rsum (extent y) (fun i => total (combine (writes n) (parts_of n)) (fun xc =>
      rsum (length (c_ins (snd xc))) (fun q => match nth_error (reads n) q with
      | Some z => if name_eqb z y then local_sent n (fst xc) (snd xc) q i * T y i else 0 | None => 0 end)))).
    - apply rsum_ext. intros i _. rewrite Rmult_comm, <- total_scal. apply total_ext. intros [x c] _. cbn [fst snd].
      rewrite <- rsum_scal. apply rsum_ext. intros q _. destruct (nth_error (reads n) q) as [z|]; [|lra].
      destruct (name_eqb z y); [|lra]. unfold local_sent. lra.
    - rewrite <- total_rsum. apply total_ext. intros [x c] _. cbn [fst snd]. rewrite rsum_swap. apply rsum_ext.
      intros q _. destruct (nth_error (reads n) q) as [z|].
      + destruct (name_eqb z y); [reflexivity|]. apply rsum_zero. reflexivity.
      + apply rsum_zero. reflexivity. }
  rewrite total_swap. apply total_ext. intros [x c] _. cbn [fst snd]. rewrite total_rsum. apply rsum_ext. intros q _.
  destruct (nth_error (reads n) q) as [z|] eqn:E.
  - apply (total_single vars z (fun y => rsum (extent y) (fun i => local_sent n x c q i * T y i)) NV).
    apply RV. now apply nth_error_In in E.
  - apply total_zero. reflexivity.
Qed.

Lemma applied_dual n x c : map size (c_ins c) = map (fun y => extent y) (reads n) ->
  rsum (extent x) (fun o => A x o * applied c (args (map fin (reads n))) (args (map T (reads n))) o) =
  rsum (length (c_ins c)) (fun q =>
    match nth_error (reads n) q with
    | Some z => rsum (extent z) (fun i => local_sent n x c q i * T z i)
    | None => 0
    end).
Proof.
  intros E.
  transitivity (rsum (extent x) (fun o => rsum (length (c_ins c)) (fun q =>
    match nth_error (reads n) q with
    | Some z => rsum (extent z) (fun i => A x o * declared c (args (map fin (reads n))) q o i * T z i)
    | None => 0 end))).
  { apply rsum_ext. intros o _. unfold applied, along. rewrite <- rsum_scal. apply rsum_ext. intros q Hq.
    assert (LR : length (c_ins c) = length (reads n)) by (rewrite <- (map_length size (c_ins c)), E; apply map_length).
    destruct (nth_error (reads n) q) as [z|] eqn:Ez; [|apply nth_error_None in Ez; lia].
    destruct (input_size _ _ q z E Ez) as [Es _]. rewrite Es, <- rsum_scal. apply rsum_ext. intros i _.
    rewrite (nth_args T _ q z Ez). unfold declared. rewrite Es. lra. }
  rewrite rsum_swap. apply rsum_ext. intros q _. destruct (nth_error (reads n) q) as [z|].
  - rewrite rsum_swap. apply rsum_ext. intros i _. unfold local_sent. rewrite <- rsum_scal_r.
    apply rsum_ext. intros o _. lra.
  - apply rsum_zero. reflexivity.
Qed.
End Dual.

Lemma variables_nodup outer : given sub_reads sub_writes st outer added -> NoDup (variables sub_writes st outer added).
Proof.
  intros (N1 & N2 & _). unfold variables.
  assert (SUB : forall l, incl l added -> NoDup l -> NoDup (flat_map writes l)).
  { induction l as [|n l IH]; intros IL NDL; [constructor|]. inversion NDL; subst. cbn [flat_map].
    assert (Hn : In n added) by (apply IL; now left). pose proof (proj1 (SP n) Hn) as [D _].
    apply NoDup_app_intro'.
    - exact (no_once _ _ _ NO n D).
    - apply IH; auto. intros m Hm. apply IL. now right.
    - intros x H3 H4. apply in_flat_map in H4. destruct H4 as (m & Hm & Hx).
      assert (Hm' : In m added) by (apply IL; now right). pose proof (proj1 (SP m) Hm') as [D' _].
      assert (n = m) by exact (no_single _ _ _ NO n m x D D' H3 Hx). now subst. }
  apply NoDup_app_intro'.
  - exact N1.
  - apply SUB; [apply incl_refl|exact ND].
  - intros x H1 H2. apply in_flat_map in H2. destruct H2 as (m & Hm & Hx). apply (N2 x H1).
    exists m. split; [|exact Hx]. now apply SP.
Qed.

Lemma reads_are_variables outer n y : given sub_reads sub_writes st outer added -> In n added -> In y (reads n) ->
  In y (variables sub_writes st outer added).
Proof.
  intros (_ & _ & N3) Hn Hy. unfold variables. apply in_or_app.
  destruct (written_dec sub_writes st added SP y) as [(m & Hm & Hw)|NW].
  - right. apply in_flat_map. eauto.
  - left. eauto.
Qed.

Theorem reverse_is_forward fin w A T ds dind outer : given sub_reads sub_writes st outer added ->
  adjoint added fin w A -> solves fin ds dind T ->
  weighted (variables sub_writes st outer added) w T = collected shape_of st outer added A ds dind.
Proof.
  intros G AD ST. set (vars := variables sub_writes st outer added).
  assert (NV : NoDup vars) by now apply variables_nodup.
  assert (E1 : weighted vars A T = weighted vars w T +
     total added (fun n => total vars (fun y => rsum (extent y) (fun i => sent fin A n y i * T y i)))).
  { unfold SpecAdjoint.weighted. rewrite total_swap, <- total_plus. apply total_ext. intros y _.
    rewrite total_rsum, <- rsum_plus. apply rsum_ext. intros i Hi. rewrite (AD y i Hi) at 1.
    rewrite Rmult_plus_distr_r. f_equal. rewrite Rmult_comm, <- total_scal. apply total_ext. intros n _. lra. }
  assert (E2 : weighted vars A T = collected shape_of st outer added A ds dind +
     total added (fun n => total vars (fun y => rsum (extent y) (fun i => sent fin A n y i * T y i)))).
  { unfold collected, vars at 1, variables, SpecAdjoint.weighted. rewrite total_app, total_flat_map, Rplus_assoc.
    f_equal.
    - apply total_ext. intros x Hx. apply rsum_ext. intros i Hi. f_equal.
      apply (sv_given _ _ _ _ _ _ _ _ _ _ _ _ ST x i); [|exact Hi]. destruct G as (_ & N2 & _). now apply N2.
    - rewrite <- total_plus. apply total_ext. intros n Hn. pose proof (proj1 (SP n) Hn) as [D _].
      rewrite (sent_dual fin A T vars NV n) by (intros y Hy; now apply reads_are_variables with (n := n)).
      destruct (is_indep_dec st n) as [[nm EN]|NI].
      + assert (W : writes n = [nm]) by (unfold comp_writes; now rewrite EN).
        assert (P : parts_of n = []) by (unfold SpecDeriv.parts_of; now rewrite EN).
        rewrite W, P, EN. cbn [combine]. rewrite total_cons, !total_nil.
        rewrite (rsum_ext (extent nm) _ (fun i => A nm i * dind n i)); [lra|].
        intros i Hi. f_equal. exact (sv_indep _ _ _ _ _ _ _ _ _ _ _ _ ST n nm i D EN Hi).
      + assert (NI' : forall nm, abuild st n <> BIndep nm) by (intros nm E; apply NI; now exists nm).
        transitivity (total (combine (writes n) (parts_of n)) (fun xc =>
          rsum (extent (fst xc)) (fun o => A (fst xc) o *
             applied (snd xc) (args (map fin (reads n))) (args (map T (reads n))) o))).
        * rewrite <- (total_combine (writes n) (parts_of n)) by now apply parts_length.
          apply total_ext. intros [x c] H. cbn [fst snd]. apply rsum_ext. intros o Ho. f_equal.
          destruct (combine_nth_error _ _ _ H) as (j & J1 & J2). cbn [fst snd] in J1, J2.
          exact (sv_comp _ _ _ _ _ _ _ _ _ _ _ _ ST n j x c o D J1 J2 Ho).
        * assert (Z : match abuild st n with BIndep nm => rsum (extent nm) (fun i => A nm i * dind n i) | _ => 0 end = 0).
          { destruct (abuild st n); try reflexivity. exfalso. now apply (NI' nm). }
          rewrite Z, Rplus_0_l. apply total_ext. intros [x c] H. cbn [fst snd].
          apply applied_dual. now apply (part_sizes n x c). }
  lra.
Qed.
End Model.
