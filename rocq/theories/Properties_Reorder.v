(** C36-C38: reshape, transpose, reorder_axes, expand.  The specification is in
    SpecReorder.v and JacSpec.v ([correct c m]: for all input values compute
    succeeds with the declared shape and meaning [m], and the declared partials
    are the Jacobian).  Concrete cases: reorder_instance, expand_instance,
    expand_permuted_instance in ReorderProofs.v. *)
From Coq Require Import Reals Arith List Permutation String.
From Verif Require Import NdArray NdEinsum Component JacSpec CompReorder SpecReorder
  ReorderProofs.
Import ListNotations.
Local Open Scope nat_scope.

Theorem C36_reshape : forall s s',
  size s = size s' -> correct (reshape_comp s s') reshape_meaning.
Proof. exact reshape_correct. Qed.
Print Assumptions C36_reshape.

Theorem C36_reshape_size_mismatch_raises : forall s s' ins y,
  size s <> size s' -> ins = [y] -> shp y = s ->
  c_compute (reshape_comp s s') ins = None.
Proof. exact reshape_rejects. Qed.
Print Assumptions C36_reshape_size_mismatch_raises.

Theorem C36_transpose : forall s, correct (transpose_comp s) transpose_meaning.
Proof. exact transpose_correct. Qed.
Print Assumptions C36_transpose.

Theorem C36_reorder_axes : forall s op ins outs,
  spells op ins outs -> letters ins -> NoDup ins -> List.length ins = List.length s ->
  Permutation ins outs ->
  exists c, reorder_comp s op = Some c /\ c_ins c = [s] /\
            correct c (letters_meaning ins outs).
Proof. exact reorder_correct. Qed.
Print Assumptions C36_reorder_axes.

Theorem C36_reorder_axes_rejects : forall s op ins outs,
  spells op ins outs -> letters ins -> letters outs -> NoDup ins ->
  List.length ins = List.length s -> ~ Permutation ins outs -> reorder_comp s op = None.
Proof. exact reorder_rejects. Qed.
Print Assumptions C36_reorder_axes_rejects.

Theorem C37_expand_scalar : forall s indices c,
  expand_comp [1] s indices = Some c -> c_out c = s /\ correct c fill_meaning.
Proof. exact scalar_expand_correct. Qed.
Print Assumptions C37_expand_scalar.

Theorem C37_expand_array : forall xs s ins outs,
  letters ins -> letters outs -> xs <> [1] -> List.length s <= 10 ->
  List.length outs = List.length s -> NoDup outs ->
  filter (fun l => mem l ins) outs = ins ->
  shape_at s (map (find_pos outs) ins) = xs ->
  exists c, expand_comp xs s (Some (ins ++ [45; 62] ++ outs)) = Some c /\
            c_ins c = [xs] /\ c_out c = s /\ correct c (expand_meaning ins outs).
Proof. exact expand_letters_correct. Qed.
Print Assumptions C37_expand_array.

(** The general claim C38 is false: whenever the output string lists the
    input's letters in another order (all extents at least two), an accepted
    expand computes something else. *)
Theorem C38_expand_permuted_letters_wrong : forall xs s ins outs c,
  letters ins -> letters outs -> xs <> [1] -> List.length outs = List.length s ->
  NoDup outs -> NoDup ins -> incl ins outs ->
  (forall n, In n s -> 2 <= n) ->
  ins <> filter (fun l => mem l ins) outs ->
  expand_comp xs s (Some (ins ++ [45; 62] ++ outs)) = Some c ->
  ~ correct c (expand_meaning ins outs).
Proof. exact expand_permuted_wrong. Qed.
Print Assumptions C38_expand_permuted_letters_wrong.

Theorem C38_expand_letters_refuted :
  exists c, expand_comp [3; 2] [3; 2; 2] (Some (codes "ij->jik"%string)) = Some c /\
            ~ correct c (expand_meaning (codes "ij"%string) (codes "jik"%string)).
Proof. exact expand_permuted_instance. Qed.
Print Assumptions C38_expand_letters_refuted.

(** What it computes instead: the letters are taken in output order. *)
Theorem C38_expand_actual_meaning : forall xs s ins outs c,
  letters ins -> letters outs -> xs <> [1] -> List.length outs = List.length s ->
  NoDup outs ->
  expand_comp xs s (Some (ins ++ [45; 62] ++ outs)) = Some c ->
  correct c (expand_meaning (filter (fun l => mem l ins) outs) outs).
Proof. exact expand_actual. Qed.
Print Assumptions C38_expand_actual_meaning.
