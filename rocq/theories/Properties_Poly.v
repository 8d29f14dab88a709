(** Theorems about linear combinations of products of powers. *)
From Coq Require Import Reals Arith List.
From Verif Require Import RSum NdArray Component JacSpec JacOpen CompElem CompPoly SpecElem SpecPoly PolyProofs.
Import ListNotations.
Local Open Scope R_scope.

(** C86: the inputs are the names listed, the output is the constant plus the
    terms, and the partials are its derivatives, where every power that a term
    gives to an input, zero if it is not listed, is smooth at that input. *)
Theorem C86_combination_within : forall s terms a k,
  terms <> [] -> dicts terms -> constant_of s a k ->
  exists names c, poly_comp s terms a = Some (names, c) /\
    NoDup names /\ (forall nm, In nm names <-> exists t, In t terms /\ In nm (map fst (snd t))) /\
    c_ins c = repeat s (length names) /\ c_out c = s /\
    correct_within (smooth s names terms) c (poly_meaning s names k terms).
Proof. exact poly_correct. Qed.
Print Assumptions C86_combination_within.

(** C86: with natural powers the output is right for all inputs. *)
Theorem C86_polynomial_value : forall s terms a k names c,
  polynomial terms -> dicts terms -> constant_of s a k ->
  poly_comp s terms a = Some (names, c) ->
  forall v, exists y, c_compute c (inputs_of (c_ins c) v) = Some y /\
    poly_meaning s names k terms (inputs_of (c_ins c) v) y.
Proof. exact poly_value. Qed.
Print Assumptions C86_polynomial_value.

(** C86, what the code does: an input that some term does not list has no
    derivative as soon as one of its entries is zero. *)
Theorem C86_missing_input_actual : forall s terms a names c v q o t,
  dicts terms -> poly_comp s terms a = Some (names, c) ->
  (q < length names)%nat -> (o < size s)%nat -> In t terms -> has_power t (nth q names 0%nat) 0 ->
  v q o = 0 ->
  c_partials c (inputs_of (c_ins c) v) q = None.
Proof. exact poly_power_zero. Qed.
Print Assumptions C86_missing_input_actual.

(** C86 refuted for polynomials: x + y has a value everywhere and no derivative
    at the origin. *)
Theorem C86_refuted : exists names c,
  poly_comp [1%nat] [(1, [(0%nat, INR 1)]); (1, [(1%nat, INR 1)])] (Nd [] (fun _ => 0)) = Some (names, c) /\
  (forall v y, c_compute c (inputs_of (c_ins c) v) = Some y -> dat y 0%nat = v 0%nat 0%nat + v 1%nat 0%nat) /\
  (forall v, c_compute c (inputs_of (c_ins c) v) <> None) /\
  c_partials c (inputs_of (c_ins c) (fun _ _ => 0)) 0 = None /\
  c_partials c (inputs_of (c_ins c) (fun _ _ => 0)) 1 = None.
Proof. exact poly_sum_at_zero. Qed.
Print Assumptions C86_refuted.
