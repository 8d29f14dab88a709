(** C111.  Specification: SpecImplicitModel.v, SpecNested.v, SpecRoot.v, SpecDeriv.v, SpecTotal.v.
    Concrete case: implicit_case in ImplicitModelExample.v. *)
From Coq Require Import Reals Arith List Bool.
From Verif Require Import PyBase PySet SpecGraph Graph SpecSetup GroupApi SpecApi Run SpecRun.
From Verif Require Import RSum NdArray Component JacSpec SpecNorm SpecExtremum SpecTotal SpecDeriv SpecAdjoint SpecTotals
  Implicit SpecImplicit SpecRoot Nested SpecNested ImplicitModel SpecImplicitModel ImplicitModelProofs ImplicitModelExample.
Import ListNotations.

(** C111.  The component that computes the solution of the internal model's equation, with
    minus the derivative of the residual in the input divided by that in the output as
    partials, obeys the chain rule. *)
Theorem C111_chain : forall m c, implicit_ok m -> stands_for_root m c -> chain_rule (regular_at m) c.
Proof. exact (fun m c OK => root_chain m OK c). Qed.
Print Assumptions C111_chain.

Theorem C111_exists : forall m, implicit_ok m -> exists c, stands_for_root m c.
Proof. exact root_exists. Qed.
Print Assumptions C111_exists.

(** After a pass over the outer model the output of an implicit component solves its
    equation for the values its inputs have in the outer model. *)
Theorem C111_values :
  forall table asm part subs sub_reads sub_writes shape_of st added kinds,
  described sub_reads sub_writes st added ->
  (forall k, length (subs k) = length (sub_writes k)) ->
  (forall n k g, dep_on (adeps st) root n -> abuild st n = BSub k g ->
     subsystem_ok sub_reads sub_writes shape_of kinds subs k) ->
  forall ind s,
  let fin := pass table asm part subs sub_reads sub_writes st added ind s in
  forall n k g m, dep_on (adeps st) root n -> abuild st n = BSub k g -> kinds k = SImplicit m ->
    one_solution m (args (map fin (sub_reads k))) ->
    is_solution m (args (map fin (sub_reads k))) (fin (im_out m)).
Proof. exact system_solution. Qed.
Print Assumptions C111_values.

(** The linear equations of the components of the model, of its groups and of the internal
    models of its implicit components, with residuals that do not move, determine the
    derivatives of every variable. *)
Theorem C111 :
  forall table asm part subs sub_reads sub_writes shape_of st added kinds,
  described sub_reads sub_writes st added ->
  (forall k, length (subs k) = length (sub_writes k)) ->
  sizes_agree table asm part subs sub_reads sub_writes shape_of st ->
  (forall n k g, dep_on (adeps st) root n -> abuild st n = BSub k g ->
     subsystem_ok sub_reads sub_writes shape_of kinds subs k) ->
  forall (s : R -> store values) ind t0 ds dind,
  let fin t := pass table asm part subs sub_reads sub_writes st added (ind t) (s t) in
  given_rates sub_writes shape_of st s ind t0 ds dind ->
  chained table asm part (fun _ => []) sub_reads shape_of st (fin t0) ->
  (forall n k g, dep_on (adeps st) root n -> abuild st n = BSub k g ->
     subsystem_regular kinds k (args (map (fin t0) (sub_reads k)))) ->
  (exists T Ti, system_rates table asm part sub_reads sub_writes shape_of st kinds (fin t0) ds dind T Ti) /\
  forall T Ti, system_rates table asm part sub_reads sub_writes shape_of st kinds (fin t0) ds dind T Ti ->
    (forall x i, i < size (shape_of x) -> derivable_pt_lim (fun t => fin t x i) t0 (T x i)) /\
    (forall n k g m x i, dep_on (adeps st) root n -> abuild st n = BSub k g -> kinds k = SGroup m -> i < size (in_shape m x) ->
       derivable_pt_lim (fun t => inner_pass m (args (map (fin t) (sub_reads k))) x i) t0 (Ti k x i)) /\
    (forall n k g m x i, dep_on (adeps st) root n -> abuild st n = BSub k g -> kinds k = SImplicit m ->
       i < size (in_shape (im_model m) x) ->
       derivable_pt_lim (fun t => inner_pass (im_model m) (with_out m (args (map (fin t) (sub_reads k))) (fin t (im_out m))) x i)
         t0 (Ti k x i)).
Proof. exact system_derivatives. Qed.
Print Assumptions C111.
