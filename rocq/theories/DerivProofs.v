(** The linear equations of a model have a solution, and every solution is the
    derivative of what one pass computes. *)
From Coq Require Import Reals Lra Lia Arith List Bool.
From Coq Require Import FunctionalExtensionality.
From Verif Require Import PyBase PySet SpecGraph GraphLemmas Graph SpecSetup Replace GroupApi SpecApi
  GroupApiProofs GroupApiAcyclic GroupApiShape GroupApiWired GroupApiSetup GroupApiUses Run SpecRun RunProofs.
From Verif Require Import RSum NdArray Component JacSpec SpecNorm SpecExtremum SpecTotal TotalCalc StdCalls SpecDeriv.
From Verif Require CompElem ShapeMain.
Import ListNotations.
Local Open Scope nat_scope.

Section Model.
Variables (table asm part : nat -> component) (subs : nat -> list component).
Variables (sub_reads sub_writes : nat -> list name).
Variable shape_of : name -> list nat.
Variable st : api.
Hypothesis INV : ainv st.
Hypothesis SH : GroupApiShape.shape st.
Hypothesis WI : wired st.
Hypothesis UO : uses_ok st.
Hypothesis DEF : forall n, akind st n = KExplicit -> adefined st n = true.
Hypothesis NO : names_ok sub_reads sub_writes st.
Hypothesis SUBLEN : forall k, length (subs k) = length (sub_writes k).

Variable added : list nat.
Hypothesis ND : NoDup added.
Hypothesis SP : forall n, In n added <-> dep_on (adeps st) root n /\ has_build st n = true.
Hypothesis BF : forall u v, In u added -> In v added -> dep_on (adeps st) u v -> before added v u.
Hypothesis SA : sizes_agree table asm part subs sub_reads sub_writes shape_of st.

Local Notation reads := (comp_reads sub_reads st).
Local Notation writes := (comp_writes sub_writes st).
Local Notation extent x := (size (shape_of x)).
Local Notation parts_of := (parts_of table asm part subs shape_of st).
Local Notation pass := (pass table asm part subs sub_reads sub_writes st added).
Local Notation written := (written sub_writes st).
Local Notation solves := (solves table asm part subs sub_reads sub_writes shape_of st).

Definition is_indep (n : nat) : Prop := exists nm, abuild st n = BIndep nm.

Lemma is_indep_dec n : {is_indep n} + {~ is_indep n}.
Proof.
  unfold is_indep. destruct (abuild st n); try (right; intros [m E]; discriminate). left. eauto.
Qed.

Lemma name_dec (x y : name) : {x = y} + {x <> y}.
Proof.
  destruct (name_eqb x y) eqn:E; [left; now apply name_eqb_eq|right].
  intros ->. assert (name_eqb y y = true) by (now apply name_eqb_eq). congruence.
Qed.

Lemma written_dec x : {n | In n added /\ In x (writes n)} + {~ written x}.
Proof.
  destruct (find (fun n => if in_dec name_dec x (writes n) then true else false) added) as [n|] eqn:E.
  - left. exists n. apply find_some in E. destruct (in_dec name_dec x (writes n)); [tauto|]. destruct E. discriminate.
  - right. intros (n & D & H). apply find_none with (x := n) in E.
    + destruct (in_dec name_dec x (writes n)); [discriminate|contradiction].
    + apply SP. split; [assumption|]. now apply (writes_build sub_writes st n x).
Qed.

Lemma computed_pass s l : length l = 1 -> [computed (pass_through_comp s) l] = l.
Proof.
  destruct l as [|v [|w l]]; try discriminate. intros _. f_equal.
  unfold computed, value_of, pass_through_comp, CompReorder.comp1, inputs_of. cbn.
  unfold assign_output. cbn [shp dat]. now rewrite Nat.eqb_refl.
Qed.

Lemma outputs_parts ind n l : ~ is_indep n -> length l = length (reads n) ->
  comp_outputs values (fun f => computed (table f)) ind (fun n => computed (asm n))
    (fun k v => computed (part k) [v]) (fun k l => map (fun c => computed c l) (subs k)) st n l
  = map (fun c => computed c l) (parts_of n).
Proof.
  intros NI L. unfold comp_outputs, SpecDeriv.parts_of, comp_reads in *. unfold is_indep in NI.
  destruct (abuild st n) as [|f args|nm|e| |k g|x0] eqn:EB; cbn [map]; try reflexivity.
  - exfalso. eauto.
  - now rewrite computed_pass.
  - destruct l as [|v [|w l]]; try discriminate L. cbn [flat_map]. rewrite app_nil_r, map_map. reflexivity.
Qed.

Section Values.
Variable ind : nat -> values.
Variable s : store values.
Let fin := pass ind s.

Lemma pass_equation n : In n added -> ~ is_indep n ->
  map fin (writes n) = map (fun c => computed c (map fin (reads n))) (parts_of n).
Proof.
  intros Hn NI. apply SP in Hn. destruct Hn as [D HB].
  rewrite <- (outputs_parts ind) by (try assumption; now rewrite map_length).
  unfold fin, SpecDeriv.pass. apply final_equation; auto.
  intros k l _. now rewrite map_length.
Qed.

Lemma pass_indep n nm : In n added -> abuild st n = BIndep nm -> fin nm = ind n.
Proof.
  intros Hn E. apply SP in Hn. destruct Hn as [D HB].
  assert (Q : map fin (writes n) = comp_outputs values (fun f => computed (table f)) ind (fun n => computed (asm n))
    (fun k v => computed (part k) [v]) (fun k l => map (fun c => computed c l) (subs k)) st n (map fin (reads n))).
  { unfold fin, SpecDeriv.pass. apply final_equation; auto. intros k l _. now rewrite map_length. }
  unfold comp_writes, comp_outputs in Q. rewrite E in Q. cbn in Q. congruence.
Qed.

Lemma pass_other x : ~ written x -> fin x = s x.
Proof.
  intros H. unfold fin, SpecDeriv.pass. apply final_other; [exact SP|].
  intros n D I. apply H. exists n. auto.
Qed.
End Values.

Lemma nth_error_map_inv {A B} (f : A -> B) l j y : nth_error (map f l) j = Some y ->
  exists x, nth_error l j = Some x /\ f x = y.
Proof.
  revert j; induction l as [|a l IH]; intros [|j] H; cbn in *; try discriminate.
  - injection H as <-. eauto.
  - now apply IH.
Qed.

(** Every name a system that is no independent variable writes belongs to one of
    its components. *)
Lemma written_part n x : In n added -> ~ is_indep n -> In x (writes n) ->
  exists j c, nth_error (writes n) j = Some x /\ nth_error (parts_of n) j = Some c /\
    size (c_out c) = extent x /\ map size (c_ins c) = map (fun y => extent y) (reads n).
Proof.
  intros Hn NI Hx. apply SP in Hn. destruct Hn as [D _].
  assert (F := SA n D (fun nm E => NI (ex_intro _ nm E))).
  revert F. generalize (parts_of n). generalize (reads n). intros rs l F.
  induction F as [|y c w cs [H1 H2] F IH]; [contradiction|].
  destruct Hx as [->|Hx].
  - exists 0, c. auto.
  - destruct (IH Hx) as (j & c' & A1 & A2 & A3). exists (S j), c'. auto.
Qed.

(** ---- every solution is the derivative ---- *)
Section Solution.
Variables (s : R -> store values) (ind : R -> nat -> values) (t0 : R).
Variables (ds : name -> values) (dind : nat -> values).
Local Notation fin t := (pass (ind t) (s t)).
Hypothesis RATES : given_rates sub_writes shape_of st s ind t0 ds dind.
Hypothesis CH : chained table asm part subs sub_reads shape_of st (fin t0).

Lemma delivered n c q : In n added -> In c (parts_of n) -> q < length (c_ins c) ->
  c_partials c (inputs_of (c_ins c) (args (map (fin t0) (reads n)))) q <> None.
Proof.
  intros Hn Hc Hq. apply SP in Hn. destruct Hn as [D _].
  destruct (CH n c D Hc) as (dom & CR & HD).
  destruct (CR (fun _ => args (map (fin t0) (reads n))) (fun _ _ => 0%R) 0%R) as (js & J & _).
  - intros p i _ _. apply derivable_pt_lim_const.
  - exact HD.
  - now rewrite J.
Qed.

Variable T : name -> values.
Hypothesis ST : solves (fin t0) ds dind T.

Lemma solution_at k : forall n l1 l2, length l1 < k -> added = l1 ++ n :: l2 ->
  forall x i, In x (writes n) -> i < extent x -> derivable_pt_lim (fun t => fin t x i) t0 (T x i).
Proof.
  induction k as [|k IH]; intros n l1 l2 L E x i Hx Hi; [lia|].
  assert (Hn : In n added) by (rewrite E; apply in_or_app; right; now left).
  pose proof (proj1 (SP n) Hn) as [D HB].
  destruct (is_indep_dec n) as [[nm EN]|NI].
  - assert (x = nm) as -> by (unfold comp_writes in Hx; rewrite EN in Hx; destruct Hx as [<-|[]]; reflexivity).
    rewrite (sv_indep _ _ _ _ _ _ _ _ _ _ _ _ ST n nm i D EN Hi).
    apply derivable_pt_lim_ext with (f := fun t => ind t n i).
    + intros t. now rewrite (pass_indep (ind t) (s t) n nm Hn EN).
    + destruct RATES as [_ R2]. now apply (R2 n nm).
  - destruct (written_part n x Hn NI Hx) as (j & c & Wj & Pj & OS & IS).
    assert (Hc : In c (parts_of n)) by (now apply nth_error_In in Pj).
    rewrite (sv_comp _ _ _ _ _ _ _ _ _ _ _ _ ST n j x c i D Wj Pj Hi).
    assert (LR : length (c_ins c) = length (reads n)).
    { rewrite <- (map_length size (c_ins c)), IS. now rewrite map_length. }
    assert (M : moves (c_ins c) (fun t => args (map (fin t) (reads n))) t0 (args (map T (reads n)))).
    { intros q o Hq Ho. unfold args.
      assert (Hq' : q < length (reads n)) by lia.
      destruct (nth_error (reads n) q) as [y|] eqn:Ey; [|apply nth_error_None in Ey; lia].
      assert (NT : nth q (map T (reads n)) (fun _ => 0%R) = T y).
      { apply nth_error_nth. rewrite nth_error_map, Ey. reflexivity. }
      rewrite NT.
      apply derivable_pt_lim_ext with (f := fun t => fin t y o).
      { intros t.
        assert (NF : nth q (map (fin t) (reads n)) (fun _ => 0%R) = fin t y)
          by (apply nth_error_nth; rewrite nth_error_map, Ey; reflexivity).
        now rewrite NF. }
      assert (Ho' : o < extent y).
      { assert (Q : nth q (map size (c_ins c)) 0 = nth q (map (fun y => extent y) (reads n)) 0) by now rewrite IS.
        assert (Q' : nth q (map (fun y => extent y) (reads n)) 0 = extent y)
          by (apply nth_error_nth; rewrite nth_error_map, Ey; reflexivity).
        rewrite <- Q', <- Q. rewrite (nth_indep _ 0 (size [])) by (rewrite map_length; exact Hq).
        rewrite map_nth. exact Ho. }
      destruct (written_dec y) as [(m & Hm & Hy)|NW].
      - assert (B : before added m n).
        { apply (read_before sub_reads sub_writes st INV SH WI UO DEF NO added SP BF m n y Hm Hn Hy).
          now apply nth_error_In in Ey. }
        destruct B as (a & b & c' & EB).
        assert (Q : l1 ++ n :: l2 = (a ++ m :: b) ++ n :: c') by (rewrite <- E, EB, <- app_assoc; reflexivity).
        assert (NDQ : NoDup (l1 ++ n :: l2)) by (now rewrite <- E).
        destruct (nodup_middle l1 (a ++ m :: b) l2 c' n NDQ Q) as [Q' _].
        apply (IH m a (b ++ n :: c')); auto.
        rewrite Q', app_length in L. cbn in L. lia.
      - rewrite (sv_given _ _ _ _ _ _ _ _ _ _ _ _ ST y o NW Ho').
        apply derivable_pt_lim_ext with (f := fun t => s t y o).
        + intros t. now rewrite (pass_other (ind t) (s t) y NW).
        + now apply (proj1 RATES). }
    destruct (CH n c D Hc) as (dom & CR & HD).
    destruct (CR _ _ _ M HD) as (js & J & DV).
    assert (Hi' : i < size (c_out c)) by lia.
    specialize (DV i Hi').
    apply derivable_pt_lim_ext with (f := fun t => value_of c (args (map (fin t) (reads n))) i).
    + intros t. pose proof (pass_equation (ind t) (s t) n Hn NI) as Q.
      assert (Q' : nth_error (map (fin t) (writes n)) j = nth_error (map (fun c => computed c (map (fin t) (reads n))) (parts_of n)) j) by now rewrite Q.
      rewrite !nth_error_map, Wj, Pj in Q'. cbn in Q'. injection Q' as Q'. rewrite Q'. reflexivity.
    + eapply derivable_pt_lim_eq; [|exact DV]. unfold applied. apply along_ext.
      intros q o Hq Ho. now rewrite (J q Hq).
Qed.

Lemma solution_is_derivative x i : i < extent x -> derivable_pt_lim (fun t => fin t x i) t0 (T x i).
Proof.
  intros Hi. destruct (written_dec x) as [(n & Hn & Hx)|NW].
  - apply in_split in Hn. destruct Hn as (l1 & l2 & E).
    apply (solution_at (S (length l1)) n l1 l2); auto.
  - rewrite (sv_given _ _ _ _ _ _ _ _ _ _ _ _ ST x i NW Hi).
    apply derivable_pt_lim_ext with (f := fun t => s t x i).
    + intros t. now rewrite (pass_other (ind t) (s t) x NW).
    + now apply (proj1 RATES).
Qed.
End Solution.

(** ---- a forward pass solves the equations ---- *)
Section Forward.
Variables (s : store values) (ind : nat -> values) (ds : name -> values) (dind : nat -> values).

(** a value with its rate of change *)
Definition dual : Type := values * values.
Definition moved (c : component) (l : list dual) : dual :=
  (computed c (map fst l), applied c (args (map fst l)) (args (map snd l))).
Local Notation dop := (fun f => moved (table f)).
Local Notation dind' := (fun n => (ind n, dind n)).
Local Notation dasm := (fun n => moved (asm n)).
Local Notation dpart := (fun k v => moved (part k) [v]).
Local Notation dsub := (fun k l => map (fun c => moved c l) (subs k)).
Definition forward : store dual :=
  run_model dual dop dind' dasm dpart dsub sub_reads sub_writes st added (fun x => (s x, ds x)).

Lemma fst_write names l (s2 : store dual) (s1 : store values) :
  (forall x, fst (s2 x) = s1 x) ->
  forall x, fst (write dual names l s2 x) = write values names (map fst l) s1 x.
Proof.
  revert l s2 s1. induction names as [|nm names IH]; intros [|v l] s2 s1 H x; cbn [write map]; auto.
  apply IH. intros y. now destruct (name_eqb y nm).
Qed.

Lemma fst_outputs n l : map fst (comp_outputs dual dop dind' dasm dpart dsub st n l) =
  comp_outputs values (fun f => computed (table f)) ind (fun n => computed (asm n))
    (fun k v => computed (part k) [v]) (fun k l => map (fun c => computed c l) (subs k)) st n (map fst l).
Proof.
  unfold comp_outputs. destruct (abuild st n) as [|f a|nm|e| |k g|x0]; cbn [map]; try reflexivity.
  - rewrite map_map. reflexivity.
  - rewrite flat_map_concat_map, flat_map_concat_map, concat_map, !map_map. f_equal. apply map_ext.
    intros v. rewrite map_map. reflexivity.
Qed.

Lemma fst_run l : forall (s2 : store dual) (s1 : store values), (forall x, fst (s2 x) = s1 x) ->
  forall x, fst (run_model dual dop dind' dasm dpart dsub sub_reads sub_writes st l s2 x) =
            run_model values (fun f => computed (table f)) ind (fun n => computed (asm n))
              (fun k v => computed (part k) [v]) (fun k l => map (fun c => computed c l) (subs k))
              sub_reads sub_writes st l s1 x.
Proof.
  unfold run_model. induction l as [|n l IH]; intros s2 s1 H x; cbn [fold_left]; [apply H|].
  apply IH. intros y. unfold run_comp. rewrite (fst_write _ _ s2 s1 H). f_equal.
  rewrite fst_outputs. f_equal. rewrite map_map. apply map_ext. exact H.
Qed.

Lemma forward_value x : fst (forward x) = pass ind s x.
Proof. unfold forward, SpecDeriv.pass. now apply fst_run. Qed.

Lemma applied_pass sh v d o : o < size sh -> applied (pass_through_comp sh) v d o = d 0 o.
Proof.
  intros Ho. unfold applied, along, pass_through_comp, CompReorder.comp1. cbn [c_ins length rsum nth c_partials].
  rewrite sparse_partials_scalar with (n := size sh) by reflexivity.
  cbn [CompReorder.as_sparse option_map jac_entry]. rewrite Rplus_0_l.
  rewrite (rsum_single _ _ o Ho).
  - cbn. unfold coo_entry. cbn [nnz rows cols vals dat np_arange].
    rewrite (rsum_single _ _ o Ho).
    + rewrite Nat.eqb_refl. cbn. lra.
    + intros k _ Hk. apply Nat.eqb_neq in Hk. now rewrite Hk.
  - intros i _ Hi. unfold coo_entry. cbn. rewrite rsum_zero; [lra|].
    intros k _. destruct (Nat.eqb_spec k o) as [->|]; [|reflexivity].
    destruct (Nat.eqb_spec o i); [congruence|reflexivity].
Qed.

Lemma forward_equation n : In n added ->
  map forward (writes n) = comp_outputs dual dop dind' dasm dpart dsub st n (map forward (reads n)).
Proof.
  intros Hn. apply SP in Hn. destruct Hn as [D HB]. unfold forward. apply final_equation; auto.
  intros k l _. now rewrite map_length.
Qed.

Lemma forward_solves : solves (pass ind s) ds dind (fun x => snd (forward x)).
Proof.
  constructor.
  - intros x i NW Hi. unfold forward. rewrite final_other; [reflexivity|exact SP|].
    intros n D I. apply NW. exists n. auto.
  - intros n nm i D E Hi.
    assert (Hn : In n added) by (apply SP; split; [assumption|unfold has_build; now rewrite E]).
    pose proof (forward_equation n Hn) as Q. unfold comp_writes, comp_outputs in Q. rewrite E in Q.
    cbn in Q. injection Q as Q. now rewrite Q.
  - intros n j x c o D Wj Pj Ho.
    assert (Hn : In n added).
    { apply SP. split; [assumption|]. apply (writes_build sub_writes st n x). now apply nth_error_In in Wj. }
    pose proof (forward_equation n Hn) as Q.
    assert (F1 : map fst (map forward (reads n)) = map (pass ind s) (reads n)).
    { rewrite map_map. apply map_ext. apply forward_value. }
    assert (F2 : map snd (map forward (reads n)) = map (fun x => snd (forward x)) (reads n)).
    { now rewrite map_map. }
    assert (Q' : nth_error (map forward (writes n)) j =
                 nth_error (comp_outputs dual dop dind' dasm dpart dsub st n (map forward (reads n))) j) by now rewrite Q.
    rewrite nth_error_map, Wj in Q'. cbn [option_map] in Q'.
    unfold SpecDeriv.parts_of in Pj. unfold comp_outputs in Q'.
    destruct (abuild st n) as [|f a|nm|e| |k g|x0] eqn:EB; try (destruct j; discriminate).
    + destruct j as [|[|j]]; try discriminate. cbn in Pj, Q'. injection Pj as <-. injection Q' as ->.
      unfold moved. cbn [snd]. now rewrite F1, F2.
    + destruct j as [|[|j]]; try discriminate. cbn in Pj. injection Pj as <-.
      assert (RE : reads n = [aname st e]) by (unfold comp_reads; now rewrite EB).
      assert (WE : writes n = [aname st n]) by (unfold comp_writes; now rewrite EB).
      rewrite WE in Wj. cbn in Wj. injection Wj as <-.
      rewrite RE in *. cbn in Q'. injection Q' as ->.
      rewrite applied_pass by exact Ho. reflexivity.
    + destruct j as [|[|j]]; try discriminate. cbn in Pj, Q'. injection Pj as <-. injection Q' as ->.
      unfold moved. cbn [snd]. now rewrite F1, F2.
    + rewrite nth_error_map, Pj in Q'. cbn [option_map] in Q'. injection Q' as ->.
      unfold moved. cbn [snd]. now rewrite F1, F2.
    + assert (RE : reads n = [aname st x0]) by (unfold comp_reads; now rewrite EB).
      rewrite RE in *. cbn [map flat_map] in Q'. rewrite app_nil_r in Q'.
      rewrite nth_error_map in Pj, Q'. destruct (nth_error (aparts st n) j) as [p|]; [|discriminate].
      cbn in Pj, Q'. injection Pj as <-. injection Q' as ->. unfold moved. cbn [snd].
      change [forward (aname st x0)] with (map forward [aname st x0]). now rewrite F1, F2.
Qed.
End Forward.
End Model.
