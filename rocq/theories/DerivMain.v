(** Derivatives of every model the API can build. *)
From Coq Require Import Reals Lra Lia Arith List Bool.
From Verif Require Import PyBase PySet SpecGraph GraphLemmas Graph SpecSetup Replace GroupApi SpecApi
  GroupApiProofs GroupApiAcyclic GroupApiShape GroupApiWired GroupApiSetup GroupApiUses Run SpecRun RunProofs
  GroupApiHistory ApiTheorems.
From Verif Require Import RSum NdArray Component JacSpec SpecNorm SpecExtremum SpecTotal TotalCalc StdCalls SpecDeriv
  DerivProofs.
Import ListNotations.
Local Open Scope nat_scope.

Lemma model_derivatives table asm part subs sub_reads sub_writes shape_of O uid reverse fuel h st rs :
  run_ops O fuel api0 h = Some (st, rs) ->
  throughout O no_self_reference fuel api0 h ->
  all_tidy st -> uid_distinct root uid (adeps st) ->
  (forall out, created_output h rs out -> exists i, given_value h rs i out) ->
  labels_distinct st -> names_ok sub_reads sub_writes st ->
  (forall k, length (subs k) = length (sub_writes k)) ->
  sizes_agree table asm part subs sub_reads sub_writes shape_of st ->
  exists added, eventually (fun f => group_setup O set_list uid f reverse st) (Ok added)
    /\ forall s ind t0 ds dind,
       let fin t := pass table asm part subs sub_reads sub_writes st added (ind t) (s t) in
       let solves := solves table asm part subs sub_reads sub_writes shape_of st (fin t0) ds dind in
       given_rates sub_writes shape_of st s ind t0 ds dind ->
       chained table asm part subs sub_reads shape_of st (fin t0) ->
       (forall n c q, dep_on (adeps st) root n -> In c (parts_of table asm part subs shape_of st n) ->
          q < length (c_ins c) ->
          c_partials c (inputs_of (c_ins c) (args (map (fin t0) (comp_reads sub_reads st n)))) q <> None)
       /\ (exists T, solves T)
       /\ (forall T T' x i, solves T -> solves T' -> i < size (shape_of x) -> T x i = T' x i)
       /\ (forall T x i, solves T -> i < size (shape_of x) ->
             derivable_pt_lim (fun t => fin t x i) t0 (T x i))
       /\ (forall T n val i, solves T -> dep_on (adeps st) root n -> value_object st n ->
             (forall t, tree_value values (fun f => computed (table f)) (ind t) (fun n => computed (asm n))
                (fun k v => computed (part k) [v]) st (fun i => fin t (aname st i)) n (val t)) ->
             i < size (shape_of (aname st n)) ->
             derivable_pt_lim (fun t => val t i) t0 (T (aname st n) i)).
Proof.
  intros E TH NW UD G LD NO SL SA. destruct (history_inv O _ _ _ _ E) as [I SH].
  assert (AC : acyclic (adeps st)).
  { apply (run_acyclic O fuel h api0 st rs ainv0 acyclic0); [|assumption].
    apply (throughout_weaken O no_self_reference); [apply self_reference_assign|assumption]. }
  assert (W : wired st) by (now apply (run_wired O fuel h api0 st rs ainv0 shape0 acyclic0 wired0)).
  assert (U : uses_ok st) by (exact (run_uses O fuel h api0 st rs ainv0 shape0 uses_ok0 E)).
  assert (D := all_defined O fuel h st rs E G).
  destruct (api_setup_ok O uid reverse st I (conj AC (conj NW UD)) SH D LD) as (added & A1 & A2 & A3 & A4 & _).
  exists added. split; [assumption|]. intros s ind t0 ds dind fin solves RT CH.
  assert (DV : forall T x i, solves T -> i < size (shape_of x) -> derivable_pt_lim (fun t => fin t x i) t0 (T x i)).
  { intros T x i ST Hi.
    exact (solution_is_derivative table asm part subs sub_reads sub_writes shape_of st I SH W U D NO SL
             added A2 A3 A4 SA s ind t0 ds dind RT CH T ST x i Hi). }
  splits.
  - intros n c q Dn Hc Hq.
    apply (delivered table asm part subs sub_reads sub_writes shape_of st added A3 s ind t0 CH n c q); auto.
    apply A3. split; [assumption|]. unfold parts_of in Hc. unfold has_build. destruct (abuild st n); [contradiction|reflexivity..].
  - eexists. exact (forward_solves table asm part subs sub_reads sub_writes shape_of st I SH W U D NO SL
             added A2 A3 A4 (s t0) (ind t0) ds dind).
  - intros T T' x i S1 S2 Hi. exact (uniqueness_limite _ _ _ _ (DV T x i S1 Hi) (DV T' x i S2 Hi)).
  - exact DV.
  - intros T n val i ST Dn VO TV Hi.
    apply derivable_pt_lim_ext with (f := fun t => fin t (aname st n) i); [|now apply DV].
    intros t. enough (Q : fin t (aname st n) = val t) by now rewrite Q.
    refine (tree_value_det values (fun f => computed (table f)) (ind t) (fun n => computed (asm n))
             (fun k v => computed (part k) [v]) st (fun i => fin t (aname st i)) SH n _ _ _ (TV t)).
    apply (final_value values (fun f => computed (table f)) (ind t) (fun n => computed (asm n))
             (fun k v => computed (part k) [v]) (fun k l => map (fun c => computed c l) (subs k)) sub_reads sub_writes st
             I SH W U AC D NO) with (added := added); auto.
    intros k l _. now rewrite map_length.
Qed.
