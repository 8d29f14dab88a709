(** C49, C51 and C52: einsum with dense derivatives, repeated operands, and the
    tuple form.  Specification: SpecEinsum.v and JacSpec.v.  Concrete cases:
    einsum_instance and tuples_instance in EinsumNew.v. *)
From Coq Require Import Reals Lra Arith List Lia.
From Verif Require Import PyBase RSum NdArray NdEinsum Component JacSpec CompEinsum SpecEinsum
  EinsumStrings EinsumCalc EinsumProofs EinsumNew EinsumOrder.
Import ListNotations.
Local Open Scope nat_scope.

(** [subs] and [out] are the subscripts as NumPy reads them; [ext] gives every
    letter its extent. *)
Theorem C49_einsum_dense : forall op subs out ext names,
  np_subscripts op = Some (subs, out) ->
  length subs = length names -> NoDup names ->
  NoDup out -> incl out (concat subs) ->
  (forall r, In r subs -> length r <= length (unused_chars op)) ->
  exists c, einsum_comp op names (map (map ext) subs) = Some c /\
    c_ins c = map (map ext) subs /\
    c_out c = (match out with [] => [1] | _ => map ext out end) /\
    correct c (einsum_meaning subs out ext names names).
Proof. exact einsum_distinct. Qed.
Print Assumptions C49_einsum_dense.

(** [ds] are the distinct operands, [rs] the repetitions after them. *)
Theorem C51_repetitions_last : forall op subs out ext ds rs,
  np_subscripts op = Some (subs, out) ->
  length subs = length (ds ++ rs) -> NoDup ds -> incl rs ds ->
  (forall j j', j < length (ds ++ rs) -> j' < length (ds ++ rs) ->
     nth j (ds ++ rs) 0 = nth j' (ds ++ rs) 0 ->
     map ext (nth j subs []) = map ext (nth j' subs [])) ->
  NoDup out -> incl out (concat subs) ->
  (forall r, In r subs -> length r <= length (unused_chars op)) ->
  exists c, einsum_comp op (ds ++ rs) (map (map ext) subs) = Some c /\
    c_ins c = firstn (length ds) (map (map ext) subs) /\
    c_out c = (match out with [] => [1] | _ => map ext out end) /\
    correct c (einsum_meaning subs out ext ds (ds ++ rs)).
Proof. exact einsum_repeated_last. Qed.
Print Assumptions C51_repetitions_last.

(** A new operand [b] after a repeated one [a]: no derivative at all. *)
Theorem C51_new_after_repeated_raises : forall op l1 a l2 b l3 shapes c ins p,
  In a l1 -> ~ In b (l1 ++ a :: l2) ->
  einsum_comp op (l1 ++ a :: l2 ++ b :: l3) shapes = Some c ->
  c_partials c ins p = None.
Proof. exact einsum_repeated_raises. Qed.
Print Assumptions C51_new_after_repeated_raises.

(** So the order decides: derivatives for all inputs, or none.  Concrete case: order_cases in EinsumOrder.v. *)
Theorem C51_actual : forall op subs out ext names,
  np_subscripts op = Some (subs, out) -> length subs = length names ->
  (forall j j', j < length names -> j' < length names -> nth j names 0 = nth j' names 0 ->
     map ext (nth j subs []) = map ext (nth j' subs [])) ->
  NoDup out -> incl out (concat subs) ->
  (forall r, In r subs -> length r <= length (unused_chars op)) ->
  (repetitions_last names -> exists args c, NoDup args /\ incl names args /\
     einsum_comp op names (map (map ext) subs) = Some c /\ correct c (einsum_meaning subs out ext args names)) /\
  (~ repetitions_last names -> forall c ins p, einsum_comp op names (map (map ext) subs) = Some c ->
     c_partials c ins p = None).
Proof. exact einsum_order. Qed.
Print Assumptions C51_actual.

Theorem C51_repeated_operands_refuted : forall n, exists c,
  einsum_comp repeated_op [0; 0; 1] [[n]; [n]; [n]] = Some c /\
  forall meaning, ~ correct c meaning.
Proof. exact einsum_repeated_wrong. Qed.
Print Assumptions C51_repeated_operands_refuted.

Theorem C52_tuples_to_string : forall ins out (scalar : bool),
  ins <> [] -> length (dedup (concat ins)) <= 26 -> incl out (concat ins) ->
  (scalar = true -> out = []) ->
  exists g aslist str,
    new_subscripts (if scalar then ins else ins ++ [out]) scalar = Some (aslist, str) /\
    (forall a b, In a (concat ins) -> In b (concat ins) -> g a = g b -> a = b) /\
    np_subscripts str = Some (map (map g) ins, map g out) /\
    subscripts_tolist str = aslist.
Proof. exact tuples_to_string. Qed.
Print Assumptions C52_tuples_to_string.

Theorem C52_einsum_new_api : forall ins out ext names (scalar : bool),
  ins <> [] -> length ins = length names -> NoDup names ->
  NoDup out -> incl out (concat ins) -> (scalar = true -> out = []) ->
  (forall t, In t ins -> length t + length (dedup (concat ins)) <= 26) ->
  exists c, einsum_new_comp (if scalar then ins else ins ++ [out]) names (map (map ext) ins) = Some c /\
    c_ins c = map (map ext) ins /\
    c_out c = (match out with [] => [1] | _ => map ext out end) /\
    correct c (einsum_meaning ins out ext names names).
Proof. exact einsum_new_correct. Qed.
Print Assumptions C52_einsum_new_api.
