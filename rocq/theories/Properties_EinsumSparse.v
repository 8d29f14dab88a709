(** C50: einsum with sparse derivatives.  Specification: SpecEinsum.v and
    JacSpec.v.  Concrete cases: sparse_instance, sparse_pattern_instance and
    sparse_order_instance in EinsumSparseMain.v. *)
From Coq Require Import Reals Lra Arith List Lia.
From Verif Require Import PyBase RSum NdArray NdEinsum Component JacSpec CompEinsum SpecEinsum
  CompEinsumSparse EinsumSparseMain EinsumOrder.
Import ListNotations.
Local Open Scope nat_scope.

(** Distinct operands, those without a letter of the output last. *)
Theorem C50_sparse_distinct : forall op subs out ext names,
  np_subscripts op = Some (subs, out) ->
  length subs = length names -> NoDup names ->
  NoDup out -> incl out (concat subs) ->
  (forall r, In r subs -> length r <= length (unused_chars op)) ->
  (forall l, In l (concat subs) -> 0 < ext l) ->
  (forall q q', q < q' -> q' < length subs ->
     (exists l, In l (nth q' subs []) /\ In l out) -> exists l, In l (nth q subs []) /\ In l out) ->
  exists c, einsum_sparse_comp op names (map (map ext) subs) = Some c /\
    c_ins c = map (map ext) subs /\
    c_out c = (match out with [] => [1] | _ => map ext out end) /\
    correct c (einsum_meaning subs out ext names names).
Proof. exact sparse_distinct. Qed.
Print Assumptions C50_sparse_distinct.

(** [ds] are the distinct operands, [rs] the repetitions after them. *)
Theorem C50_sparse_repetitions_last : forall op subs out ext ds rs,
  np_subscripts op = Some (subs, out) ->
  length subs = length (ds ++ rs) -> NoDup ds -> incl rs ds ->
  (forall j j', j < length (ds ++ rs) -> j' < length (ds ++ rs) ->
     nth j (ds ++ rs) 0 = nth j' (ds ++ rs) 0 ->
     map ext (nth j subs []) = map ext (nth j' subs [])) ->
  NoDup out -> incl out (concat subs) ->
  (forall r, In r subs -> length r <= length (unused_chars op)) ->
  (forall l, In l (concat subs) -> 0 < ext l) ->
  (forall q q', q < q' -> q' < length ds ->
     keeps subs out (ds ++ rs) (nth q' ds 0) -> keeps subs out (ds ++ rs) (nth q ds 0)) ->
  exists c, einsum_sparse_comp op (ds ++ rs) (map (map ext) subs) = Some c /\
    c_ins c = firstn (length ds) (map (map ext) subs) /\
    c_out c = (match out with [] => [1] | _ => map ext out end) /\
    correct c (einsum_meaning subs out ext ds (ds ++ rs)).
Proof. exact sparse_repeated_last. Qed.
Print Assumptions C50_sparse_repetitions_last.

(** The order is needed: an operand [a] that somewhere has no letter of the
    output, followed by a new operand [b] that always has one: no derivative. *)
Theorem C50_dense_before_sparse_raises : forall op subs out l1 a l2 b l3 shapes c ins p,
  np_subscripts op = Some (subs, out) -> length subs = length (l1 ++ a :: l2 ++ b :: l3) ->
  ~ In b (l1 ++ a :: l2) ->
  ~ keeps subs out (l1 ++ a :: l2 ++ b :: l3) a -> keeps subs out (l1 ++ a :: l2 ++ b :: l3) b ->
  einsum_sparse_comp op (l1 ++ a :: l2 ++ b :: l3) shapes = Some c ->
  c_partials c ins p = None.
Proof. exact sparse_order_raises. Qed.
Print Assumptions C50_dense_before_sparse_raises.

Theorem C50_new_after_repeated_raises : forall op l1 a l2 b l3 shapes c ins p,
  In a l1 -> ~ In b (l1 ++ a :: l2) ->
  einsum_sparse_comp op (l1 ++ a :: l2 ++ b :: l3) shapes = Some c ->
  c_partials c ins p = None.
Proof. exact sparse_repeated_raises. Qed.
Print Assumptions C50_new_after_repeated_raises.

(** So the order decides: derivatives for all inputs, or none.  Concrete case: order_cases in EinsumOrder.v. *)
Theorem C50_actual : forall op subs out ext names,
  np_subscripts op = Some (subs, out) -> length subs = length names ->
  (forall j j', j < length names -> j' < length names -> nth j names 0 = nth j' names 0 ->
     map ext (nth j subs []) = map ext (nth j' subs [])) ->
  NoDup out -> incl out (concat subs) ->
  (forall r, In r subs -> length r <= length (unused_chars op)) ->
  (forall l, In l (concat subs) -> 0 < ext l) ->
  (kept_first subs out names -> exists args c, NoDup args /\ incl names args /\
     einsum_sparse_comp op names (map (map ext) subs) = Some c /\ correct c (einsum_meaning subs out ext args names)) /\
  (~ kept_first subs out names -> forall c ins p, einsum_sparse_comp op names (map (map ext) subs) = Some c ->
     c_partials c ins p = None).
Proof. exact sparse_order. Qed.
Print Assumptions C50_actual.

Theorem C50_sparse_refuted : forall n m, 0 < n -> 0 < m -> exists c,
  einsum_sparse_comp summed_first_op [0; 1] [[n]; [m]] = Some c /\
  forall meaning, ~ correct c meaning.
Proof. exact sparse_wrong. Qed.
Print Assumptions C50_sparse_refuted.
