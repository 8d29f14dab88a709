(** C109.  Specification: SpecNested.v, SpecDeriv.v, SpecTotal.v.
    Concrete case: nested_case in NestedExample.v. *)
From Coq Require Import Reals Arith List Bool.
From Verif Require Import PyBase PySet SpecGraph Graph SpecSetup GroupApi SpecApi Run SpecRun.
From Verif Require Import RSum NdArray Component JacSpec SpecNorm SpecExtremum SpecTotal SpecDeriv SpecAdjoint SpecTotals
  Nested SpecNested NestedProofs NestedExample.
Import ListNotations.

(** C109.  A group used as a subsystem behaves as components whose partials are its own
    total derivatives: they obey the chain rule wherever all its components do. *)
Theorem C109_chain : forall m x c, inner_ok m -> stands_for_output m x c ->
  chain_rule (inner_chained m) c.
Proof. exact (fun m x c OK => output_chain m OK x c). Qed.
Print Assumptions C109_chain.

Theorem C109_exists : forall m x, inner_ok m -> exists c, stands_for_output m x c.
Proof. exact (fun m x OK => output_exists m OK x). Qed.
Print Assumptions C109_exists.

(** The outputs of the group after a pass over the outer model are those of a pass over
    the inner one from the values its inputs have in the outer one. *)
Theorem C109_values :
  forall table asm part subs sub_reads sub_writes shape_of st added groups,
  described sub_reads sub_writes st added ->
  (forall k, length (subs k) = length (sub_writes k)) ->
  sizes_agree table asm part subs sub_reads sub_writes shape_of st ->
  (forall n k g, dep_on (adeps st) root n -> abuild st n = BSub k g ->
     inner_ok (groups k) /\ sub_reads k = in_inputs (groups k) /\
     (forall x, In x (sub_reads k) -> in_shape (groups k) x = shape_of x) /\
     Forall2 (stands_for_output (groups k)) (sub_writes k) (subs k)) ->
  forall ind s,
  let fin := pass table asm part subs sub_reads sub_writes st added ind s in
  forall n k g x i, dep_on (adeps st) root n -> abuild st n = BSub k g -> In x (sub_writes k) -> i < size (shape_of x) ->
    fin x i = inner_pass (groups k) (args (map fin (sub_reads k))) x i.
Proof. exact group_values. Qed.
Print Assumptions C109_values.

(** The linear equations of the components of all groups together determine the
    derivatives of every variable of every group. *)
Theorem C109 :
  forall table asm part subs sub_reads sub_writes shape_of st added groups,
  described sub_reads sub_writes st added ->
  (forall k, length (subs k) = length (sub_writes k)) ->
  sizes_agree table asm part subs sub_reads sub_writes shape_of st ->
  (forall n k g, dep_on (adeps st) root n -> abuild st n = BSub k g ->
     inner_ok (groups k) /\ sub_reads k = in_inputs (groups k) /\
     (forall x, In x (sub_reads k) -> in_shape (groups k) x = shape_of x) /\
     Forall2 (stands_for_output (groups k)) (sub_writes k) (subs k)) ->
  forall (s : R -> store values) ind t0 ds dind,
  let fin t := pass table asm part subs sub_reads sub_writes st added (ind t) (s t) in
  given_rates sub_writes shape_of st s ind t0 ds dind ->
  chained table asm part (fun _ => []) sub_reads shape_of st (fin t0) ->
  (forall n k g, dep_on (adeps st) root n -> abuild st n = BSub k g ->
     inner_chained (groups k) (args (map (fin t0) (sub_reads k)))) ->
  (exists T Ti, all_rates table asm part sub_reads sub_writes shape_of st groups (fin t0) ds dind T Ti) /\
  forall T Ti, all_rates table asm part sub_reads sub_writes shape_of st groups (fin t0) ds dind T Ti ->
    (forall x i, i < size (shape_of x) -> derivable_pt_lim (fun t => fin t x i) t0 (T x i)) /\
    (forall n k g x i, dep_on (adeps st) root n -> abuild st n = BSub k g -> i < size (in_shape (groups k) x) ->
       derivable_pt_lim (fun t => inner_pass (groups k) (args (map (fin t) (sub_reads k))) x i) t0 (Ti k x i)).
Proof. exact nested_derivatives. Qed.
Print Assumptions C109.
