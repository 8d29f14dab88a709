(** Theorems about the combination components added directly with their options. *)
From Coq Require Import Reals Arith List.
From Verif Require Import RSum NdArray Component JacSpec JacOpen CompElem CompPoly SpecElem SpecExtremum
  SpecPoly CompDirect SpecDirect DirectProofs DirectMore.
Import ListNotations.
Local Open Scope R_scope.

(** C90: the output is the constant plus coefficient times input, for any number
    of inputs and however the coefficients are given, with exact partials. *)
Theorem C90_linear : forall s names coeffs dict l n a k,
  given names coeffs dict l -> NoDup (map fst l) -> constant_of s a k -> (length l <= n)%nat ->
  exists c, linear_direct s names coeffs dict (Some n) a = Some c /\
    c_ins c = repeat s (length l) /\ c_out c = s /\
    correct c (linear_meaning s k (map snd l)).
Proof. exact linear_direct_correct. Qed.
Print Assumptions C90_linear.

(** C90: without in_vals setup raises, and with fewer values than names compute
    raises for all inputs. *)
Theorem C90_values_needed : forall s names coeffs dict l n a,
  given names coeffs dict l -> NoDup (map fst l) -> (n < length l)%nat ->
  linear_direct s names coeffs dict None a = None /\
  exists c, linear_direct s names coeffs dict (Some n) a = Some c /\
    c_ins c = repeat s n /\ forall ins, c_compute c ins = None.
Proof. exact linear_direct_few. Qed.
Print Assumptions C90_values_needed.

(** C90, C91: setup raises when the options name no input, and when they name one
    twice. *)
Theorem C90_names_needed : forall s numbers vals a c,
  linear_direct s NNone numbers [] vals a = None /\ power_direct s NNone numbers [] vals c = None.
Proof. exact direct_names_needed. Qed.
Print Assumptions C90_names_needed.

Theorem C90_names_distinct : forall s names numbers dict l n a c,
  given names numbers dict l -> ~ NoDup (map fst l) -> (length l <= n)%nat ->
  linear_direct s names numbers dict (Some n) a = None /\ power_direct s names numbers dict (Some n) c = None.
Proof. exact direct_names_distinct. Qed.
Print Assumptions C90_names_distinct.

(** C91: the output is the coefficient times the powers of the inputs, for any
    number of inputs and however the powers are given, with exact partials
    wherever the powers are smooth. *)
Theorem C91_power : forall s names powers dict l n c0,
  given names powers dict l -> NoDup (map fst l) -> (length l <= n)%nat ->
  exists c, power_direct s names powers dict (Some n) c0 = Some c /\
    c_ins c = repeat s (length l) /\ c_out c = s /\
    correct_within (powers_smooth s (map snd l)) c (power_meaning s c0 (map snd l)).
Proof. exact power_direct_correct. Qed.
Print Assumptions C91_power.

(** C92, what the code does: in a linear combination names without a coefficient
    are left out. *)
Theorem C92_linear_actual : forall s l cs vals a, (length cs <= length l)%nat ->
  linear_direct s (NList l) (SList cs) [] vals a =
  linear_direct s (NList (firstn (length cs) l)) (SList cs) [] vals a.
Proof. exact linear_direct_short. Qed.
Print Assumptions C92_linear_actual.

(** C92, what the code does: a name without a power becomes an input that does not
    change the output and whose partial is the output itself. *)
Theorem C92_power_actual : forall s l ps n c0,
  NoDup l -> (length ps < length l <= n)%nat ->
  exists c, power_direct s (NList l) (SList ps) [] (Some n) c0 = Some c /\
    c_ins c = repeat s (length l) /\ c_out c = s /\
    forall v, powers_smooth s ps v ->
    exists y, c_compute c (inputs_of (c_ins c) v) = Some y /\
      power_meaning s c0 ps (firstn (length ps) (inputs_of (c_ins c) v)) y /\
      forall q, (length ps <= q < length l)%nat ->
      exists j, c_partials c (inputs_of (c_ins c) v) q = Some j /\
        forall o i, (o < size s)%nat -> (i < size s)%nat ->
          jac_entry (size s) j o i = if Nat.eqb o i then dat y o else 0.
Proof. exact power_direct_short. Qed.
Print Assumptions C92_power_actual.

(** C92 refuted: the output is the first input, and its partial with respect to the
    second is not zero. *)
Theorem C92_refuted : exists c,
  power_direct [1%nat] (NList [0; 1]%nat) (SList [1]) [] (Some 2%nat) 1 = Some c /\
  c_ins c = [[1]; [1]]%nat /\
  forall v : nat -> nat -> R,
    (exists y, c_compute c (inputs_of (c_ins c) v) = Some y /\ dat y 0%nat = v 0%nat 0%nat) /\
    exists j, c_partials c (inputs_of (c_ins c) v) 1%nat = Some j /\
      jac_entry 1 j 0 0 = v 0%nat 0%nat /\
      (v 0%nat 0%nat <> 0 ->
       ~ derivable_pt_lim (fun _ => v 0%nat 0%nat) (v 1%nat 0%nat) (jac_entry 1 j 0 0)).
Proof. exact power_short_refuted. Qed.
Print Assumptions C92_refuted.

(** C93: a matrix of powers, one row for each term and one column for each input,
    with one coefficient for each term. *)
Theorem C93_matrix : forall s names m powers coeffs a k, NoDup names ->
  Forall (fun row => length row = m) powers -> (length names <= m)%nat ->
  (length powers <= length coeffs)%nat -> powers <> [] -> constant_of s a k ->
  exists c, poly_direct s (IList names) m powers coeffs a = Some (names, c) /\
    c_ins c = repeat s (length names) /\ c_out c = s /\
    correct_within (matrix_smooth s (length names) powers) c
      (poly_meaning s names k (matrix_terms names powers coeffs)).
Proof. exact poly_direct_correct. Qed.
Print Assumptions C93_matrix.

(** C93: with a column or a coefficient missing, compute raises for all inputs. *)
Theorem C93_missing : forall s names m powers coeffs a nms c, powers <> [] ->
  (m < length (iterated names) \/ length coeffs < length powers)%nat ->
  poly_direct s names m powers coeffs a = Some (nms, c) ->
  forall ins, c_compute c ins = None.
Proof. exact poly_direct_missing. Qed.
Print Assumptions C93_missing.

(** C94 refuted: one name of several characters, given as a string, never works
    with its one column of powers: setup raises, or there is one input for each
    character and compute raises for all inputs. *)
Theorem C94_refuted : forall s cs powers coeffs a, (1 < length cs)%nat -> powers <> [] ->
  poly_direct s (IStr cs) 1 powers coeffs a = None \/
  exists c, poly_direct s (IStr cs) 1 powers coeffs a = Some (cs, c) /\
    length (c_ins c) = length cs /\ forall ins, c_compute c ins = None.
Proof. exact poly_string. Qed.
Print Assumptions C94_refuted.

(** C94, where it works: a name of one character. *)
Theorem C94_one_character : forall s x m powers coeffs a k,
  Forall (fun row => length row = m) powers -> (1 <= m)%nat ->
  (length powers <= length coeffs)%nat -> powers <> [] -> constant_of s a k ->
  exists c, poly_direct s (IStr [x]) m powers coeffs a = Some ([x], c) /\
    c_ins c = [s] /\ c_out c = s /\
    correct_within (matrix_smooth s 1 powers) c
      (poly_meaning s [x] k (matrix_terms [x] powers coeffs)).
Proof. exact poly_one_character. Qed.
Print Assumptions C94_one_character.
