(** What the internal problem of an implicit component computes from call to call. *)
From Coq Require Import Reals Lra Lia Arith List Bool.
From Coq Require Import FunctionalExtensionality.
From Verif Require Import PyBase PySet SpecGraph GraphLemmas Graph SpecSetup Replace GroupApi SpecApi
  GroupApiProofs GroupApiAcyclic GroupApiShape GroupApiWired GroupApiSetup GroupApiUses Run SpecRun RunProofs
  GroupApiHistory ApiTheorems ApiCheck ApiWitness.
From Verif Require Import RSum NdArray Component JacSpec SpecNorm SpecExtremum SpecTotal TotalCalc StdCalls SpecDeriv
  DerivProofs SpecAdjoint AdjointProofs Implicit BisectProofs ImplicitSetup SpecTotals TotalsProofs InternalProblem SpecInternal.
Import ListNotations.
Local Open Scope nat_scope.

(** ---- one pass depends only on what is given ---- *)
Section Model.
Variables (table asm part : nat -> component) (subs : nat -> list component).
Variables (sub_reads sub_writes : nat -> list name).
Variable shape_of : name -> list nat.
Variable st : api.
Hypothesis INV : ainv st.
Hypothesis SH : GroupApiShape.shape st.
Hypothesis WI : wired st.
Hypothesis UO : uses_ok st.
Hypothesis DEF : forall n, akind st n = KExplicit -> adefined st n = true.
Hypothesis NO : SpecRun.names_ok sub_reads sub_writes st.
Hypothesis SUBLEN : forall k, length (subs k) = length (sub_writes k).
Variable added : list nat.
Hypothesis ND : NoDup added.
Hypothesis SP : forall n, In n added <-> dep_on (adeps st) root n /\ has_build st n = true.
Hypothesis BF : forall u v, In u added -> In v added -> dep_on (adeps st) u v -> before added v u.

Local Notation reads := (comp_reads sub_reads st).
Local Notation writes := (comp_writes sub_writes st).
Local Notation pass := (pass table asm part subs sub_reads sub_writes st added).
Local Notation written := (written sub_writes st).

Section Same.
Variables (ind : nat -> values) (s s' : store values).
Hypothesis AG : forall x, ~ written x -> s x = s' x.

Lemma pass_same_at k : forall n l1 l2, length l1 < k -> added = l1 ++ n :: l2 ->
  forall x, In x (writes n) -> pass ind s x = pass ind s' x.
Proof.
  induction k as [|k IH]; intros n l1 l2 L E x Hx; [lia|].
  assert (Hn : In n added) by (rewrite E; apply in_or_app; right; now left).
  destruct (is_indep_dec st n) as [[nm EN]|NI].
  - assert (x = nm) as -> by (unfold comp_writes in Hx; rewrite EN in Hx; destruct Hx as [<-|[]]; reflexivity).
    rewrite (pass_indep table asm part subs sub_reads sub_writes st INV SH WI UO DEF NO SUBLEN added ND SP BF ind s n nm Hn EN).
    now rewrite (pass_indep table asm part subs sub_reads sub_writes st INV SH WI UO DEF NO SUBLEN added ND SP BF ind s' n nm Hn EN).
  - assert (R : map (pass ind s) (reads n) = map (pass ind s') (reads n)).
    { apply map_ext_in. intros y Hy.
      destruct (written_dec sub_writes st added SP y) as [(m & Hm & Hw)|NW].
      - assert (B : before added m n).
        { exact (read_before sub_reads sub_writes st INV SH WI UO DEF NO added SP BF m n y Hm Hn Hw Hy). }
        destruct B as (a & b & c' & EB).
        assert (Q : l1 ++ n :: l2 = (a ++ m :: b) ++ n :: c') by (rewrite <- E, EB, <- app_assoc; reflexivity).
        assert (NDQ : NoDup (l1 ++ n :: l2)) by (now rewrite <- E).
        destruct (nodup_middle l1 (a ++ m :: b) l2 c' n NDQ Q) as [Q' _].
        apply (IH m a (b ++ n :: c')); auto.
        rewrite Q', app_length in L. cbn in L. lia.
      - rewrite (pass_other table asm part subs sub_reads sub_writes st added SP ind s y NW).
        rewrite (pass_other table asm part subs sub_reads sub_writes st added SP ind s' y NW). now apply AG. }
    assert (Q := pass_equation table asm part subs sub_reads sub_writes shape_of st INV SH WI UO DEF NO SUBLEN added ND SP BF ind s n Hn NI).
    assert (Q' := pass_equation table asm part subs sub_reads sub_writes shape_of st INV SH WI UO DEF NO SUBLEN added ND SP BF ind s' n Hn NI).
    rewrite R in Q. rewrite <- Q' in Q.
    apply In_nth_error in Hx. destruct Hx as [j Hj].
    assert (X : nth_error (map (pass ind s) (writes n)) j = nth_error (map (pass ind s') (writes n)) j) by now rewrite Q.
    rewrite !nth_error_map, Hj in X. cbn in X. now injection X.
Qed.

Lemma pass_same x : pass ind s x = pass ind s' x.
Proof.
  destruct (written_dec sub_writes st added SP x) as [(n & Hn & Hx)|NW].
  - apply in_split in Hn. destruct Hn as (l1 & l2 & E). apply (pass_same_at (S (length l1)) n l1 l2); auto.
  - rewrite (pass_other table asm part subs sub_reads sub_writes st added SP ind s x NW).
    rewrite (pass_other table asm part subs sub_reads sub_writes st added SP ind s' x NW). now apply AG.
Qed.
End Same.

Section Calls.
Variable ind : nat -> values.
Variable ns : list name.
Variable immediate : bool.
Hypothesis UW : forall x, In x ns -> ~ written x.
Local Notation set_values := (set_values ns).
Local Notation after := (after table asm part subs sub_reads sub_writes st added ind ns immediate).
Local Notation held := (held table asm part subs sub_reads sub_writes st added ind ns immediate).

Lemma existsb_name x : existsb (name_eqb x) ns = true <-> In x ns.
Proof.
  rewrite existsb_exists. split.
  - intros (y & Hy & E). apply name_eqb_eq in E. now subst.
  - intros H. exists x. split; [assumption|]. now apply name_eqb_eq.
Qed.
Lemma set_in g s x : In x ns -> set_values g s x = g x.
Proof. intros H. unfold InternalProblem.set_values. apply existsb_name in H. now rewrite H. Qed.
Lemma set_out g s x : ~ In x ns -> set_values g s x = s x.
Proof.
  intros H. unfold InternalProblem.set_values. destruct (existsb (name_eqb x) ns) eqn:E; [|reflexivity].
  apply existsb_name in E. contradiction.
Qed.
Lemma with_output_set g s o y x : In o ns ->
  with_output (set_values g s) o y x = set_values (fun z => if name_eqb z o then y else g z) s x.
Proof.
  intros Ho. unfold with_output. destruct (in_dec name_dec x ns) as [H|H].
  - rewrite !set_in by assumption. reflexivity.
  - rewrite !set_out by assumption. destruct (name_eqb x o) eqn:E; [|reflexivity].
    apply name_eqb_eq in E. subst. contradiction.
Qed.

(** A running call is one pass at its point. *)
Lemma after_point c s p : moves_known ns c -> point_of c = Some p ->
  forall x, after s c x = pass ind (set_values p s) x.
Proof.
  intros M E x. destruct c as [g|g o y|g]; cbn in E; try discriminate; injection E as <-; cbn.
  - reflexivity.
  - apply pass_same. intros z _. now apply with_output_set.
Qed.
Lemma after_linear c s : point_of c = None ->
  exists g, c = CLinearize g /\ after s c = if immediate then set_values g s else s.
Proof. destruct c; cbn; try discriminate. intros _. eauto. Qed.
Lemma linear_out s g x : ~ In x ns -> (if immediate then set_values g s else s) x = s x.
Proof. intros H. destruct immediate; [now apply set_out|reflexivity]. Qed.

(** What no call changes. *)
Lemma held_other cs : Forall (moves_known ns) cs -> forall s x, ~ written x -> ~ In x ns -> held s cs x = s x.
Proof.
  induction cs as [|c cs IH]; intros F s x NW NI; [reflexivity|].
  inversion F as [|? ? M F']; subst. cbn. unfold InternalProblem.held in IH. rewrite IH by assumption.
  destruct (point_of c) as [p|] eqn:E.
  - rewrite (after_point c s p M E x).
    rewrite (pass_other table asm part subs sub_reads sub_writes st added SP ind _ x NW).
    now apply set_out.
  - destruct (after_linear c s E) as (g & -> & ->). now apply linear_out.
Qed.

(** The same values give the same result after any calls. *)
Lemma run_again cs s0 g x : Forall (moves_known ns) cs ->
  pass ind (set_values g (held s0 cs)) x = pass ind (set_values g s0) x.
Proof.
  intros F. apply pass_same. intros z NW. destruct (in_dec name_dec z ns) as [H|H].
  - now rewrite !set_in.
  - rewrite !set_out by assumption. now apply held_other.
Qed.

Lemma held_app s cs c : held s (cs ++ [c]) = after (held s cs) c.
Proof. unfold InternalProblem.held. now rewrite fold_left_app. Qed.
Lemma last_point_app cs c : last_point (cs ++ [c]) =
  match point_of c with Some p => Some p | None => last_point cs end.
Proof.
  induction cs as [|a cs IH]; cbn [app last_point]; [destruct (point_of c); reflexivity|].
  rewrite IH. destruct (point_of c); [reflexivity|]. reflexivity.
Qed.

(** Computed variables hold the result of the last pass. *)
Lemma held_written s0 : forall cs, Forall (moves_known ns) cs -> forall x, written x ->
  held s0 cs x = match last_point cs with Some p => pass ind (set_values p s0) x | None => s0 x end.
Proof.
  intros cs. induction cs as [|c cs IH] using rev_ind; intros F x W; [reflexivity|].
  apply Forall_app in F. destruct F as [F M]. pose proof (Forall_inv M) as Mc.
  rewrite held_app, last_point_app. destruct (point_of c) as [p|] eqn:E.
  - rewrite (after_point c _ p Mc E x). now apply run_again.
  - destruct (after_linear c (held s0 cs) E) as (g & -> & ->). rewrite linear_out.
    + now apply IH.
    + intros H. now apply (UW x H).
Qed.

(** Set variables hold what was given, at the latest since the last pass. *)
Lemma held_set s0 : immediate = false -> forall cs, Forall (moves_known ns) cs -> forall x, In x ns ->
  held s0 cs x = match last_point cs with Some p => p x | None => s0 x end.
Proof.
  intros IM cs. induction cs as [|c cs IH] using rev_ind; intros F x H; [reflexivity|].
  apply Forall_app in F. destruct F as [F M]. pose proof (Forall_inv M) as Mc.
  rewrite held_app, last_point_app. destruct (point_of c) as [p|] eqn:E.
  - rewrite (after_point c _ p Mc E x).
    rewrite (pass_other table asm part subs sub_reads sub_writes st added SP ind _ x (UW x H)). now apply set_in.
  - destruct (after_linear c (held s0 cs) E) as (g & -> & ->).
    replace (if immediate then set_values g (held s0 cs) else held s0 cs) with (held s0 cs) by (now rewrite IM). now apply IH.
Qed.

(** The values at which linearize computes. *)
Lemma linearize_values s0 cs g : Forall (moves_known ns) cs ->
  let s := after (held s0 cs) (CLinearize g) in
  (forall x, In x ns -> s x = if immediate then g x
                              else match last_point cs with Some p => p x | None => s0 x end)
  /\ (forall x, written x -> s x = match last_point cs with Some p => pass ind (set_values p s0) x | None => s0 x end)
  /\ (forall x, ~ In x ns -> ~ written x -> s x = s0 x).
Proof.
  intros F s. unfold s. cbn [InternalProblem.after]. splits; intros x H.
  - pose proof (fun IM => held_set s0 IM cs F x H) as Q. pose proof (set_in g (held s0 cs) x H) as Q'.
    revert Q Q'. generalize (held s0 cs). destruct immediate; intros r Q Q'; [exact Q'|now apply Q].
  - rewrite linear_out; [now apply held_written|]. intros Hx. now apply (UW x Hx).
  - intros NW. rewrite linear_out by assumption. now apply held_other.
Qed.

(** Linearizing where the last pass was made. *)
Lemma linearize_store cs s0 g p : Forall (moves_known ns) cs -> last_point cs = Some p ->
  (forall x, In x ns -> g x = p x) ->
  after (held s0 cs) (CLinearize g) = pass ind (set_values g s0).
Proof.
  intros F LP SG. apply functional_extensionality. intros x.
  destruct (linearize_values s0 cs g F) as (L1 & L2 & L3). rewrite LP in L1, L2.
  destruct (in_dec name_dec x ns) as [H|H].
  - rewrite L1 by assumption.
    rewrite (pass_other table asm part subs sub_reads sub_writes st added SP ind _ x (UW x H)).
    rewrite set_in by assumption. destruct immediate; [reflexivity|]. symmetry. now apply SG.
  - destruct (written_dec sub_writes st added SP x) as [(n & Hn & Hx)|NW].
    + rewrite L2 by (exists n; split; [now apply SP|assumption]).
      apply pass_same. intros z _. destruct (in_dec name_dec z ns) as [Hz|Hz].
      * rewrite !set_in by assumption. symmetry. now apply SG.
      * now rewrite !set_out.
    + rewrite L3 by assumption.
      rewrite (pass_other table asm part subs sub_reads sub_writes st added SP ind _ x NW).
      now rewrite set_out.
Qed.
End Calls.
End Model.

(** ---- the models of the API ---- *)
Section Main.
Variables (table asm part : nat -> component) (subs : nat -> list component).
Variables (sub_reads sub_writes : nat -> list name).
Variable shape_of : name -> list nat.
Local Notation pass := (SpecDeriv.pass table asm part subs sub_reads sub_writes).
Local Notation after := (InternalProblem.after table asm part subs sub_reads sub_writes).
Local Notation held := (InternalProblem.held table asm part subs sub_reads sub_writes).
Local Notation linearized := (InternalProblem.linearized table asm part subs sub_reads sub_writes).

Lemma residuals_repeat O uid reverse fuel h st rs :
  run_ops O fuel api0 h = Some (st, rs) ->
  throughout O no_self_reference fuel api0 h ->
  all_tidy st -> uid_distinct root uid (adeps st) ->
  (forall out, created_output h rs out -> exists i, given_value h rs i out) ->
  labels_distinct st -> SpecRun.names_ok sub_reads sub_writes st ->
  (forall k, length (subs k) = length (sub_writes k)) ->
  exists added, eventually (fun f => group_setup O set_list uid f reverse st) (Ok added)
    /\ forall immediate ind ns s0 cs,
       (forall x, In x ns -> ~ written sub_writes st x) -> Forall (moves_known ns) cs ->
       let after := after st added ind ns immediate in let s := held st added ind ns immediate s0 cs in
       (forall g x, after s (CApply g) x = after s0 (CApply g) x)
       /\ (forall g o y x, In o ns -> after s (CRun g o y) x = after s0 (CRun g o y) x
             /\ after s (CRun g o y) x = after s (CApply (fun z => if name_eqb z o then y else g z)) x).
Proof.
  intros E TH NW UD G LD NO SL. destruct (history_inv O _ _ _ _ E) as [I SH].
  assert (AC : acyclic (adeps st)).
  { apply (run_acyclic O fuel h api0 st rs ainv0 acyclic0); [|assumption].
    apply (throughout_weaken O no_self_reference); [apply self_reference_assign|assumption]. }
  assert (W : wired st) by (now apply (run_wired O fuel h api0 st rs ainv0 shape0 acyclic0 wired0)).
  assert (U : uses_ok st) by (exact (run_uses O fuel h api0 st rs ainv0 shape0 uses_ok0 E)).
  assert (D := all_defined O fuel h st rs E G).
  destruct (api_setup_ok O uid reverse st I (conj AC (conj NW UD)) SH D LD) as (added & A1 & A2 & A3 & A4 & _).
  exists added. split; [assumption|]. intros im ind ns s0 cs UW F after' s.
  assert (RA := fun g x => run_again table asm part subs sub_reads sub_writes (fun _ => []) st I SH W U D NO SL added A2 A3 A4
                   ind ns im cs s0 g x F).
  assert (AP := fun c s p M => after_point table asm part subs sub_reads sub_writes (fun _ => []) st I SH W U D NO SL added A2 A3 A4
                   ind ns im c s p M).
  split.
  - intros g x. exact (RA g x).
  - intros g o y x Ho. unfold after', s.
    rewrite (AP (CRun g o y) _ _ Ho eq_refl x), (AP (CRun g o y) s0 _ Ho eq_refl x). split; [apply RA|reflexivity].
Qed.

Lemma linearize_point O uid reverse fuel h st rs :
  run_ops O fuel api0 h = Some (st, rs) ->
  throughout O no_self_reference fuel api0 h ->
  all_tidy st -> uid_distinct root uid (adeps st) ->
  (forall out, created_output h rs out -> exists i, given_value h rs i out) ->
  labels_distinct st -> SpecRun.names_ok sub_reads sub_writes st ->
  (forall k, length (subs k) = length (sub_writes k)) ->
  exists added, eventually (fun f => group_setup O set_list uid f reverse st) (Ok added)
    /\ forall immediate ind ns s0 cs g,
       (forall x, In x ns -> ~ written sub_writes st x) -> Forall (moves_known ns) cs ->
       let s := after st added ind ns immediate (held st added ind ns immediate s0 cs) (CLinearize g) in
       (forall x, In x ns -> s x = if immediate then g x
                                   else match last_point cs with Some p => p x | None => s0 x end)
       /\ (forall x, written sub_writes st x ->
             s x = match last_point cs with Some p => pass st added ind (set_values ns p s0) x | None => s0 x end)
       /\ (forall x, ~ In x ns -> ~ written sub_writes st x -> s x = s0 x).
Proof.
  intros E TH NW UD G LD NO SL. destruct (history_inv O _ _ _ _ E) as [I SH].
  assert (AC : acyclic (adeps st)).
  { apply (run_acyclic O fuel h api0 st rs ainv0 acyclic0); [|assumption].
    apply (throughout_weaken O no_self_reference); [apply self_reference_assign|assumption]. }
  assert (W : wired st) by (now apply (run_wired O fuel h api0 st rs ainv0 shape0 acyclic0 wired0)).
  assert (U : uses_ok st) by (exact (run_uses O fuel h api0 st rs ainv0 shape0 uses_ok0 E)).
  assert (D := all_defined O fuel h st rs E G).
  destruct (api_setup_ok O uid reverse st I (conj AC (conj NW UD)) SH D LD) as (added & A1 & A2 & A3 & A4 & _).
  exists added. split; [assumption|]. intros im ind ns s0 cs g UW F.
  exact (linearize_values table asm part subs sub_reads sub_writes (fun _ => []) st I SH W U D NO SL added A2 A3 A4
           ind ns im UW s0 cs g F).
Qed.

Lemma linearize_right O uid reverse fuel h st rs :
  run_ops O fuel api0 h = Some (st, rs) ->
  throughout O no_self_reference fuel api0 h ->
  all_tidy st -> uid_distinct root uid (adeps st) ->
  (forall out, created_output h rs out -> exists i, given_value h rs i out) ->
  labels_distinct st -> SpecRun.names_ok sub_reads sub_writes st ->
  (forall k, length (subs k) = length (sub_writes k)) ->
  sizes_agree table asm part subs sub_reads sub_writes shape_of st ->
  exists added, eventually (fun f => group_setup O set_list uid f reverse st) (Ok added)
    /\ forall immediate ind ns s0 cs g p,
       (forall x, In x ns -> ~ written sub_writes st x) -> NoDup ns -> Forall (moves_known ns) cs ->
       last_point cs = Some p -> (forall x, In x ns -> g x = p x) ->
       let s := held st added ind ns immediate s0 cs in
       (exists tot, linearized st added ind ns immediate shape_of s g tot)
       /\ forall tot, linearized st added ind ns immediate shape_of s g tot ->
          chained table asm part subs sub_reads shape_of st (pass st added ind (set_values ns g s0)) ->
          forall (m : R -> store values) t0 d, m t0 = g ->
          (forall x i, In x ns -> i < size (shape_of x) -> derivable_pt_lim (fun t => m t x i) t0 (d x i)) ->
          forall x i, i < size (shape_of x) ->
            derivable_pt_lim (fun t => pass st added ind (set_values ns (m t) s0) x i) t0
              (total ns (fun v => rsum (size (shape_of v)) (fun j => (tot v j x i * d v j)%R))).
Proof.
  intros E TH NW UD G LD NO SL SA. destruct (history_inv O _ _ _ _ E) as [I SH].
  assert (AC : acyclic (adeps st)).
  { apply (run_acyclic O fuel h api0 st rs ainv0 acyclic0); [|assumption].
    apply (throughout_weaken O no_self_reference); [apply self_reference_assign|assumption]. }
  assert (W : wired st) by (now apply (run_wired O fuel h api0 st rs ainv0 shape0 acyclic0 wired0)).
  assert (U : uses_ok st) by (exact (run_uses O fuel h api0 st rs ainv0 shape0 uses_ok0 E)).
  assert (D := all_defined O fuel h st rs E G).
  destruct (api_setup_ok O uid reverse st I (conj AC (conj NW UD)) SH D LD) as (added & A1 & A2 & A3 & A4 & _).
  exists added. split; [assumption|]. intros im ind ns s0 cs g p UW ND F LP SG s.
  assert (FS := forward_solves table asm part subs sub_reads sub_writes shape_of st I SH W U D NO SL added A2 A3 A4).
  assert (LS := linearize_store table asm part subs sub_reads sub_writes shape_of st I SH W U D NO SL added A2 A3 A4
           ind ns im UW cs s0 g p F LP SG).
  unfold InternalProblem.linearized. fold s in LS. rewrite LS. split.
  - eexists (fun v j x => _). split.
    + intros v j _ _. apply (FS (set_values ns g s0) ind (seed_name v j) still).
    + intros n nm j [].
  - intros tot CO CH m t0 d M0 MR x i Hi.
    set (d' := fun x i => if existsb (name_eqb x) ns then d x i else 0%R).
    assert (CS := columns_solve table asm part subs sub_reads sub_writes shape_of st
      (pass st added ind (set_values ns g s0)) ns [] tot (fun _ _ => still) d' still ND (NoDup_nil _) UW).
    assert (MO : moves_only ns [] d' (still : nat -> values)).
    { split; [|reflexivity]. intros y j Hy. unfold d'. destruct (existsb (name_eqb y) ns) eqn:EB; [|reflexivity].
      apply existsb_name in EB. contradiction. }
    assert (RT : given_rates sub_writes shape_of st (fun t => set_values ns (m t) s0) (fun _ => ind) t0 d' still).
    { split.
      - intros y j _ Hj. unfold d', InternalProblem.set_values. destruct (existsb (name_eqb y) ns) eqn:EB.
        + apply MR; [now apply existsb_name|assumption].
        + apply derivable_pt_lim_const.
      - intros n nm j _ _ _. apply derivable_pt_lim_const. }
    assert (Q := solution_is_derivative table asm part subs sub_reads sub_writes shape_of st I SH W U D NO SL
             added A2 A3 A4 SA (fun t => set_values ns (m t) s0) (fun _ => ind) t0 d' still RT).
    cbv beta in Q. rewrite M0 in Q. specialize (Q CH _ (CS MO CO) x i Hi).
    unfold times_rates in Q. cbn [total fold_right] in Q. rewrite Rplus_0_r in Q.
    erewrite total_ext; [exact Q|]. intros v Hv. apply rsum_ext. intros j _. unfold d'.
    apply existsb_name in Hv. now rewrite Hv.
Qed.
End Main.

(** ---- the variables set are those of the component ---- *)
Lemma set_names_app st c a q : set_names st (IC (ic_all c ++ [(a, q)]) (ic_ins c) (ic_outs c) (ic_partials c))
  = set_names st c ++ a :: filter (fun x => negb (name_eqb x a)) (map (aname st) q).
Proof. unfold set_names. cbn [ic_all]. rewrite flat_map_app. cbn. now rewrite app_nil_r. Qed.

Lemma set_names_declared O fuel G : forall rs t c c', declare_residuals O fuel G rs t c = Some (Ok c') ->
  (forall o, dict_get o (ic_all c) <> None -> In o (map fst (ic_outs c))) ->
  (forall x, In x (set_names (ig_api G) c) <-> In x (ic_ins c ++ map fst (ic_outs c))) ->
  forall x, In x (set_names (ig_api G) c') <-> In x (ic_ins c' ++ map fst (ic_outs c')).
Proof.
  induction rs as [|r rs IH]; intros t c c' E K S; cbn [declare_residuals] in E; [now injection E as <-|].
  destruct (is_resroot (ig_api G) r); [|now apply (IH t c c')].
  destruct (collect_input_exprs fuel (ig_api G) r r []) as [l|]; [|discriminate].
  destruct (dict_get (aname (ig_api G) r) (ig_map G)) as [out|]; [|discriminate].
  destruct (has_var c out) eqn:HV; [discriminate|]. apply has_var_notIn in HV.
  destruct (add_inputs (ig_api G) out (O t l) _) as [c2|e] eqn:EA; [|discriminate].
  destruct (add_inputs_ok _ _ _ _ _ EA) as (H1 & H2 & H3 & _). cbn [ic_all ic_outs ic_ins] in H1, H2, H3.
  assert (DN : dict_get out (ic_all c) = None).
  { destruct (dict_get out (ic_all c)) eqn:EG; [|reflexivity]. exfalso. apply HV. apply in_or_app. right. apply K. congruence. }
  rewrite dict_set_new in H1 by assumption.
  apply (IH _ _ c' E); cbn [ic_all ic_outs ic_ins].
  - intros o Ho. rewrite H2, map_app. apply in_or_app. destruct (name_dec o out) as [->|NE]; [right; now left|].
    left. apply K. intros Z. apply Ho. rewrite H1. clear -Z NE.
    induction (ic_all c) as [|[k v] m IHm]; cbn in *.
    + assert (name_eqb out o = false) as -> by (apply name_eqb_neq; congruence). reflexivity.
    + destruct (name_eqb k o); [discriminate|auto].
  - intros x. unfold set_names in *. cbn [ic_all]. rewrite H1, flat_map_app, in_app_iff, S, H2, map_app, !in_app_iff, H3.
    cbn [flat_map fst snd map app In]. rewrite app_nil_r, filter_In, (in_map_iff (aname (ig_api G))). split.
    + intros [[H|H]|[<-|[(z & <- & Hz) NE]]]; auto.
      left. right. exists z. splits; auto. intros EQ. rewrite EQ, name_eqb_refl in NE. discriminate.
    + intros [[H|(z & Hz & -> & NE)]|[H|[<-|[]]]]; auto.
      right. right. split; [now exists z|]. assert (name_eqb (aname (ig_api G) z) out = false) as -> by (now apply name_eqb_neq). reflexivity.
Qed.

Lemma set_names_built O fuel G rs c vs : build_problem O fuel G = Some (Ok (rs, c, vs)) ->
  NoDup (ic_ins c ++ map fst (ic_outs c)) /\
  forall x, In x (set_names (ig_api G) c) <-> In x (ic_ins c ++ map fst (ic_outs c)).
Proof.
  unfold build_problem. intros E.
  destruct (declare_residuals O fuel G _ _ icomp0) as [[c'|e]|] eqn:ED; try discriminate.
  destruct (initial_values G _) as [vs'|e] eqn:EI; [|discriminate]. injection E as _ <- _. split.
  - apply (declare_ok O fuel G _ _ _ _ ED); [constructor|]. intros o H. now contradict H.
  - apply (set_names_declared O fuel G _ _ _ _ ED); [intros o H; now contradict H|]. intros x. reflexivity.
Qed.
