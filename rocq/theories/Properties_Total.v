(** C87 - C89.  Specification: SpecTotal.v, SpecStd.v, SpecDeriv.v, SpecAdjoint.v.
    Concrete cases: documented_case, ex_part_chain, ex_asm_chain and
    derivatives_case in DerivExample.v, adjoint_case in AdjointMain.v. *)
From Coq Require Import Reals Arith List Bool ZArith.
From Verif Require Import PyBase PySet SpecGraph Graph SpecSetup GroupApi SpecApi Run SpecRun.
From Verif Require Import NdArray NdIndex Component JacSpec JacOpen SpecNorm SpecTotal CompElem CompCond StdCalls
  Indexing SpecIndex Setitem SpecSetitem SpecShapes SpecStd SpecDeriv SpecAdjoint TotalMain DerivMain DerivExample AdjointMain.
Import ListNotations.
Local Open Scope nat_scope.

(** every documented call *)
Theorem C87_documented : forall k dom m, documented k dom m ->
  exists c, std k = Some (c_out c, Some c) /\
    c_ins c = firstn (length (c_ins c)) (map snd (call_operands k)) /\
    correct_within dom c m /\ chain_rule dom c /\ determined dom c m.
Proof. exact documented_chain. Qed.
Print Assumptions C87_documented.

Theorem C87_parts : forall s ks k x rs x' e, plain_key k ->
  getitems (fresh_var s s) ks = (x, rs) -> getitem x k = (x', Some e) ->
  exists p c, piece_of x' e = Some p /\ decompose_comp s p = Some c /\
    c_ins c = [s] /\ c_out c = pc_shape p /\ correct c (selects k) /\ chain_rule everywhere c /\ determined everywhere c (selects k).
Proof. exact part_chain. Qed.
Print Assumptions C87_parts.

Theorem C87_assembled : forall s hs o rs y0, Forall (fun a => fitting s (as_key a)) hs ->
  setitems (fresh_out s) hs = (o, rs) -> ~ In Overlap rs -> In Done rs ->
  exists c, assembled s y0 (ov_tgts o) = Some c /\ c_ins c = map as_shape (done hs rs) /\ c_out c = s /\
    correct c (assembles s y0 (done hs rs)) /\ chain_rule everywhere c /\
    determined everywhere c (assembles s y0 (done hs rs)).
Proof. exact assembled_chain. Qed.
Print Assumptions C87_assembled.

Theorem C87_defined : forall s x, x_shape x = s ->
  correct (snd (define s x)) same_meaning /\ chain_rule everywhere (snd (define s x)) /\
    determined everywhere (snd (define s x)) same_meaning.
Proof. exact defined_chain. Qed.
Print Assumptions C87_defined.

Theorem C88_model_derivatives :
  forall table asm part subs sub_reads sub_writes shape_of O uid reverse fuel h st rs,
  run_ops O fuel api0 h = Some (st, rs) ->
  throughout O no_self_reference fuel api0 h ->
  all_tidy st -> uid_distinct root uid (adeps st) ->
  (forall out, created_output h rs out -> exists i, given_value h rs i out) ->
  labels_distinct st -> SpecRun.names_ok sub_reads sub_writes st ->
  (forall k, length (subs k) = length (sub_writes k)) ->
  sizes_agree table asm part subs sub_reads sub_writes shape_of st ->
  exists added, eventually (fun f => group_setup O set_list uid f reverse st) (Ok added)
    /\ forall s ind t0 ds dind,
       let fin t := pass table asm part subs sub_reads sub_writes st added (ind t) (s t) in
       let solves := solves table asm part subs sub_reads sub_writes shape_of st (fin t0) ds dind in
       given_rates sub_writes shape_of st s ind t0 ds dind ->
       chained table asm part subs sub_reads shape_of st (fin t0) ->
       (forall n c q, dep_on (adeps st) root n -> In c (parts_of table asm part subs shape_of st n) ->
          q < length (c_ins c) ->
          c_partials c (inputs_of (c_ins c) (args (map (fin t0) (comp_reads sub_reads st n)))) q <> None)
       /\ (exists T, solves T)
       /\ (forall T T' x i, solves T -> solves T' -> i < size (shape_of x) -> T x i = T' x i)
       /\ (forall T x i, solves T -> i < size (shape_of x) ->
             derivable_pt_lim (fun t => fin t x i) t0 (T x i))
       /\ (forall T n val i, solves T -> dep_on (adeps st) root n -> value_object st n ->
             (forall t, tree_value values (fun f => computed (table f)) (ind t) (fun n => computed (asm n))
                (fun k v => computed (part k) [v]) st (fun i => fin t (aname st i)) n (val t)) ->
             i < size (shape_of (aname st n)) ->
             derivable_pt_lim (fun t => val t i) t0 (T (aname st n) i)).
Proof. exact model_derivatives. Qed.
Print Assumptions C88_model_derivatives.

Theorem C89_reverse :
  forall table asm part subs sub_reads sub_writes shape_of O uid reverse fuel h st rs,
  run_ops O fuel api0 h = Some (st, rs) ->
  throughout O no_self_reference fuel api0 h ->
  all_tidy st -> uid_distinct root uid (adeps st) ->
  (forall out, created_output h rs out -> exists i, given_value h rs i out) ->
  labels_distinct st -> SpecRun.names_ok sub_reads sub_writes st ->
  (forall k, length (subs k) = length (sub_writes k)) ->
  sizes_agree table asm part subs sub_reads sub_writes shape_of st ->
  exists added, eventually (fun f => group_setup O set_list uid f reverse st) (Ok added)
    /\ forall s ind t0 ds dind outer w,
       let fin t := pass table asm part subs sub_reads sub_writes st added (ind t) (s t) in
       let adjoint := adjoint table asm part subs sub_reads sub_writes shape_of st added (fin t0) w in
       given_rates sub_writes shape_of st s ind t0 ds dind ->
       chained table asm part subs sub_reads shape_of st (fin t0) ->
       given sub_reads sub_writes st outer added ->
       (exists A, adjoint A)
       /\ (forall A, adjoint A ->
             derivable_pt_lim (fun t => weighted shape_of (variables sub_writes st outer added) w (fin t)) t0
               (collected shape_of st outer added A ds dind)).
Proof. exact model_adjoint. Qed.
Print Assumptions C89_reverse.
