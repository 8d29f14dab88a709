(** C107 - C108.  Specification: SpecInternal.v, SpecDeriv.v, SpecTotals.v.
    Concrete cases: linearize_case and repeat_case in InternalExample.v. *)
From Coq Require Import Reals Arith List Bool.
From Verif Require Import PyBase PySet SpecGraph Graph SpecSetup GroupApi SpecApi Run SpecRun ApiWitness.
From Verif Require Import RSum NdArray Component Implicit SpecDeriv SpecAdjoint SpecTotals InternalProblem SpecInternal
  InternalProofs InternalExample.
Import ListNotations.

(** C107.  linearize does not run the internal model, so that the derivatives it
    stores can be wrong even where the residual is differentiable: it takes them at
    the values computed by the last call that did run it. *)
Theorem C107_refuted :
  exists h st rs added table asm part subs sub_reads sub_writes shape_of y r,
    (run_ops O 60 api0 h = Some (st, rs) /\ throughout O no_self_reference 60 api0 h /\
     all_tidy st /\ uid_distinct root (fun n => n) (adeps st) /\
     (forall out, created_output h rs out -> exists i, given_value h rs i out) /\
     labels_distinct st /\ SpecRun.names_ok sub_reads sub_writes st /\
     (forall k, length (subs k) = length (sub_writes k)) /\
     sizes_agree table asm part subs sub_reads sub_writes shape_of st /\
     (forall fin, chained table asm part subs sub_reads shape_of st fin) /\ ~ written sub_writes st y) /\
    eventually (fun f => group_setup O set_list (fun n => n) f false st) (Ok added) /\
    forall immediate ind s0,
      let s := held table asm part subs sub_reads sub_writes st added ind [y] immediate s0 [CApply (at_y 0)] in
      let linearized := linearized table asm part subs sub_reads sub_writes st added ind [y] immediate shape_of in
      let residual t := pass table asm part subs sub_reads sub_writes st added ind (set_values [y] (at_y t) s0) r 0 in
      (exists l, derivable_pt_lim residual 1 l) /\
      (exists tot, linearized s (at_y 1) tot) /\
      forall tot, linearized s (at_y 1) tot -> ~ derivable_pt_lim residual 1 (tot y 0 r 0).
Proof. exact linearize_stale. Qed.
Print Assumptions C107_refuted.

Theorem C107_actual :
  forall table asm part subs sub_reads sub_writes O uid reverse fuel h st rs,
  run_ops O fuel api0 h = Some (st, rs) ->
  throughout O no_self_reference fuel api0 h ->
  all_tidy st -> uid_distinct root uid (adeps st) ->
  (forall out, created_output h rs out -> exists i, given_value h rs i out) ->
  labels_distinct st -> SpecRun.names_ok sub_reads sub_writes st ->
  (forall k, length (subs k) = length (sub_writes k)) ->
  exists added, eventually (fun f => group_setup O set_list uid f reverse st) (Ok added)
    /\ forall immediate ind ns s0 cs g,
       (forall x, In x ns -> ~ written sub_writes st x) -> Forall (moves_known ns) cs ->
       let held := held table asm part subs sub_reads sub_writes st added ind ns immediate in
       let pass := pass table asm part subs sub_reads sub_writes st added ind in
       let s := after table asm part subs sub_reads sub_writes st added ind ns immediate (held s0 cs) (CLinearize g) in
       (forall x, In x ns -> s x = if immediate then g x
                                   else match last_point cs with Some p => p x | None => s0 x end)
       /\ (forall x, written sub_writes st x ->
             s x = match last_point cs with Some p => pass (set_values ns p s0) x | None => s0 x end)
       /\ (forall x, ~ In x ns -> ~ written sub_writes st x -> s x = s0 x).
Proof. exact linearize_point. Qed.
Print Assumptions C107_actual.

Theorem C107_after_run :
  forall table asm part subs sub_reads sub_writes shape_of O uid reverse fuel h st rs,
  run_ops O fuel api0 h = Some (st, rs) ->
  throughout O no_self_reference fuel api0 h ->
  all_tidy st -> uid_distinct root uid (adeps st) ->
  (forall out, created_output h rs out -> exists i, given_value h rs i out) ->
  labels_distinct st -> SpecRun.names_ok sub_reads sub_writes st ->
  (forall k, length (subs k) = length (sub_writes k)) ->
  sizes_agree table asm part subs sub_reads sub_writes shape_of st ->
  exists added, eventually (fun f => group_setup O set_list uid f reverse st) (Ok added)
    /\ forall immediate ind ns s0 cs g p,
       (forall x, In x ns -> ~ written sub_writes st x) -> NoDup ns -> Forall (moves_known ns) cs ->
       last_point cs = Some p -> (forall x, In x ns -> g x = p x) ->
       let s := held table asm part subs sub_reads sub_writes st added ind ns immediate s0 cs in
       let pass := pass table asm part subs sub_reads sub_writes st added ind in
       let linearized := linearized table asm part subs sub_reads sub_writes st added ind ns immediate shape_of in
       (exists tot, linearized s g tot)
       /\ forall tot, linearized s g tot ->
          chained table asm part subs sub_reads shape_of st (pass (set_values ns g s0)) ->
          forall (m : R -> store values) t0 d, m t0 = g ->
          (forall x i, In x ns -> i < size (shape_of x) -> derivable_pt_lim (fun t => m t x i) t0 (d x i)) ->
          forall x i, i < size (shape_of x) ->
            derivable_pt_lim (fun t => pass (set_values ns (m t) s0) x i) t0
              (total ns (fun v => rsum (size (shape_of v)) (fun j => (tot v j x i * d v j)%R))).
Proof. exact linearize_right. Qed.
Print Assumptions C107_after_run.

(** C108.  The residuals depend on the inputs and outputs given, and not on the
    calls made before; those of the search are the ones apply_nonlinear gives. *)
Theorem C108 :
  forall table asm part subs sub_reads sub_writes O uid reverse fuel h st rs,
  run_ops O fuel api0 h = Some (st, rs) ->
  throughout O no_self_reference fuel api0 h ->
  all_tidy st -> uid_distinct root uid (adeps st) ->
  (forall out, created_output h rs out -> exists i, given_value h rs i out) ->
  labels_distinct st -> SpecRun.names_ok sub_reads sub_writes st ->
  (forall k, length (subs k) = length (sub_writes k)) ->
  exists added, eventually (fun f => group_setup O set_list uid f reverse st) (Ok added)
    /\ forall immediate ind ns s0 cs,
       (forall x, In x ns -> ~ written sub_writes st x) -> Forall (moves_known ns) cs ->
       let after := after table asm part subs sub_reads sub_writes st added ind ns immediate in
       let s := held table asm part subs sub_reads sub_writes st added ind ns immediate s0 cs in
       (forall g x, after s (CApply g) x = after s0 (CApply g) x)
       /\ (forall g o y x, In o ns -> after s (CRun g o y) x = after s0 (CRun g o y) x
             /\ after s (CRun g o y) x = after s (CApply (fun z => if name_eqb z o then y else g z)) x).
Proof. exact residuals_repeat. Qed.
Print Assumptions C108.

(** The variables set are exactly those of the component, once each. *)
Theorem C108_variables : forall O fuel G rs c vs, build_problem O fuel G = Some (Ok (rs, c, vs)) ->
  NoDup (ic_ins c ++ map fst (ic_outs c)) /\
  forall x, In x (set_names (ig_api G) c) <-> In x (ic_ins c ++ map fst (ic_outs c)).
Proof. exact set_names_built. Qed.
Print Assumptions C108_variables.
