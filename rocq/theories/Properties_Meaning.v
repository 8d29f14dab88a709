(** C102: the values a model computes, and the derivatives that come out of the
    partial derivatives of its components, are those of the formulas the user
    wrote, read with the documented meaning of each call.  Stated with SpecApi,
    SpecRun, SpecStd, SpecIndex, SpecSetitem, SpecDeriv and SpecMeaning; proofs
    in MeaningProofs.v.  MeaningExample.v gives a model that meets the hypotheses
    (meaning_case: the output inner(x, k) + x[1]). *)
From Coq Require Import Reals Arith List Bool.
From Verif Require Import PyBase PySet SpecGraph Graph SpecSetup GroupApi SpecApi Run SpecRun RunProofs GroupApiHistory.
From Verif Require Import RSum NdArray NdIndex Component SpecNorm SpecTotal StdCalls SpecStd SpecDeriv SpecMeaning
  MeaningProofs.
Import ListNotations.
Local Open Scope nat_scope.

Theorem C102_formulas : forall call key kept start table asm part subs sub_reads sub_writes shape_of O uid reverse fuel h st rs,
  run_ops O fuel api0 h = Some (st, rs) ->
  throughout O no_self_reference fuel api0 h ->
  all_tidy st -> uid_distinct root uid (adeps st) ->
  (forall out, created_output h rs out -> exists i, given_value h rs i out) ->
  labels_distinct st -> SpecRun.names_ok sub_reads sub_writes st ->
  (forall k, length (subs k) = length (sub_writes k)) ->
  built call key kept start shape_of st table asm part ->
  shapes_agree shape_of st table asm part subs sub_reads sub_writes ->
  exists added, eventually (fun f => group_setup O set_list uid f reverse st) (Ok added)
    /\ let fin ind s := pass table asm part subs sub_reads sub_writes st added ind s in
       let denotes ind s := denotes call key kept start shape_of st ind (fin ind s) in
       (forall ind s x, ~ written sub_writes st x -> fin ind s x = s x)
       /\ (forall ind s n y, dep_on (adeps st) root n -> value_object st n -> denotes ind s n y ->
          same_array y (Nd (shape_of (aname st n)) (fin ind s (aname st n))))
       /\ (forall ind s, within call st (fin ind s) ->
             forall n, dep_on (adeps st) root n -> value_object st n ->
               denotes ind s n (Nd (shape_of (aname st n)) (fin ind s (aname st n))))
       /\ (forall s ind t0 ds dind T n val e i,
             given_rates sub_writes shape_of st s ind t0 ds dind ->
             within call st (fin (ind t0) (s t0)) ->
             (forall n k g c, dep_on (adeps st) root n -> abuild st n = BSub k g -> In c (subs k) ->
                exists dom, chain_rule dom c /\ dom (args (map (fin (ind t0) (s t0)) (sub_reads k)))) ->
             solves table asm part subs sub_reads sub_writes shape_of st (fin (ind t0) (s t0)) ds dind T ->
             dep_on (adeps st) root n -> value_object st n ->
             (0 < e)%R -> (forall t, (Rabs (t - t0) < e)%R -> denotes (ind t) (s t) n (val t)) ->
             i < size (shape_of (aname st n)) ->
             derivable_pt_lim (fun t => dat (val t) i) t0 (T (aname st n) i)).
Proof. exact model_means. Qed.
Print Assumptions C102_formulas.
