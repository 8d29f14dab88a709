(** What it means that a component stands for an output of an inner group, and the
    equations of a model with inner groups taken as one system of equations. *)
From Coq Require Import Reals Arith List Bool.
From Verif Require Import PyBase PySet SpecGraph Graph SpecSetup GroupApi SpecApi Run SpecRun.
From Verif Require Import RSum NdArray Component JacSpec SpecNorm SpecExtremum SpecTotal SpecDeriv SpecAdjoint SpecTotals Nested.
Import ListNotations.
Local Open Scope R_scope.

(** [st] is made by calls the theorems about setup allow, and setup adds [added] *)
Definition described (sub_reads sub_writes : nat -> list name) (st : api) (added : list nat) : Prop :=
  exists O uid reverse fuel h rs,
    run_ops O fuel api0 h = Some (st, rs) /\
    throughout O no_self_reference fuel api0 h /\
    all_tidy st /\ uid_distinct root uid (adeps st) /\
    (forall out, created_output h rs out -> exists i, given_value h rs i out) /\
    labels_distinct st /\ SpecRun.names_ok sub_reads sub_writes st /\
    eventually (fun f => group_setup O set_list uid f reverse st) (Ok added).

Record inner_ok (m : inner) : Prop := {
  io_made : described (in_reads m) (in_writes m) (in_state m) (in_added m);
  io_len : forall k, length (in_subs m k) = length (in_writes m k);
  io_sizes : sizes_agree (in_table m) (in_asm m) (in_part m) (in_subs m) (in_reads m) (in_writes m) (in_shape m) (in_state m);
  io_once : NoDup (in_inputs m);
  (* an input that is promoted is not an output of the group *)
  io_given : forall x, In x (in_inputs m) -> ~ written (in_writes m) (in_state m) x }.

(** the equations of the derivatives of the inner group's variables, when its inputs
    have the values [v] and the rates [d] *)
Definition inner_rates (m : inner) (v : nat -> values) (d : nat -> values) (T : name -> values) : Prop :=
  solves (in_table m) (in_asm m) (in_part m) (in_subs m) (in_reads m) (in_writes m) (in_shape m) (in_state m)
    (inner_pass m v) (fun x => match position x (in_inputs m) with Some q => d q | None => still x end) still T.

Definition inner_chained (m : inner) (v : nat -> values) : Prop :=
  chained (in_table m) (in_asm m) (in_part m) (in_subs m) (in_reads m) (in_shape m) (in_state m) (inner_pass m v).

(** [c] computes the variable [x] of the inner group from its inputs, and its partials
    are the columns of total derivatives *)
Record stands_for_output (m : inner) (x : name) (c : component) : Prop := {
  sf_ins : c_ins c = map (in_shape m) (in_inputs m);
  sf_out : c_out c = in_shape m x;
  sf_value : forall v o, (o < size (in_shape m x))%nat -> value_of c v o = inner_pass m v x o;
  sf_partial : forall v q y, nth_error (in_inputs m) q = Some y ->
    exists j, c_partials c (inputs_of (c_ins c) v) q = Some j /\
      forall i, (i < size (in_shape m y))%nat -> exists T,
        inner_rates m v (fun q' i' => if Nat.eqb q' q && Nat.eqb i' i then 1 else 0) T /\
        forall o, (o < size (in_shape m x))%nat -> jac_entry (size (in_shape m y)) j o i = T x o }.

(** ---- a model whose [k]-th subsystem is the inner group [groups k] ---- *)
Section Outer.
Variables (table asm part : nat -> component).
Variables (sub_reads sub_writes : nat -> list name).
Variable shape_of : name -> list nat.
Variable st : api.
Variable groups : nat -> inner.
Local Notation extent x := (size (shape_of x)).
Local Notation reads := (comp_reads sub_reads st).
Local Notation writes := (comp_writes sub_writes st).

(** The linear equations of all variables of all groups, at the values [fin] of the
    outer variables: [T] are the rates of the outer ones, [Ti k] those of group [k]. *)
Record all_rates (fin : store values) (ds : name -> values) (dind : nat -> values)
       (T : name -> values) (Ti : nat -> name -> values) : Prop := {
  ar_given : forall x i, ~ written sub_writes st x -> (i < extent x)%nat -> T x i = ds x i;
  ar_indep : forall n nm i, dep_on (adeps st) root n -> abuild st n = BIndep nm ->
    (i < extent nm)%nat -> T nm i = dind n i;
  ar_comp : forall n j x c o, dep_on (adeps st) root n -> (forall k g, abuild st n <> BSub k g) ->
    nth_error (writes n) j = Some x ->
    nth_error (parts_of table asm part (fun _ => []) shape_of st n) j = Some c -> (o < extent x)%nat ->
    T x o = applied c (args (map fin (reads n))) (args (map T (reads n))) o;
  ar_group : forall n k g, dep_on (adeps st) root n -> abuild st n = BSub k g ->
    inner_rates (groups k) (args (map fin (sub_reads k))) (args (map T (sub_reads k))) (Ti k) /\
    forall x o, In x (sub_writes k) -> (o < extent x)%nat -> T x o = Ti k x o }.
End Outer.
