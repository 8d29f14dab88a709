(** How axes may be written down (C118). *)
From Coq Require Import Reals Arith List Bool ZArith.
From Verif Require Import PyBase RSum NdArray Component JacSpec JacOpen SpecReduce SpecExtremum SpecNorm SpecProduct
  CompExtremum CompNorm CompCond StdCalls AxisForms SpecAxisForms AxisFormsProofs.
Import ListNotations.
Local Open Scope nat_scope.

(** C118 is false: sum takes tuples only, ... *)
Theorem C118_sum_refuted : forall xs s z a,
  xs <> [] -> NoDup (map x_name xs) -> (forall x, In x xs -> x_shape x = s) ->
  1 < length s -> axis_named (length s) z a ->
  built (sum_axes_call xs (ATuple [z])) (drop_axes [a] s)
        (fun c => c_ins c = repeat s (length xs) /\ c_out c = drop_axes [a] s /\ correct c (sum_axes_meaning [a])) /\
  sum_axes_call xs (AInt z) = Some (drop_axes [a] s, None) /\
  ~ follows_numpy (sum_axes_call xs).
Proof. exact forms_sum. Qed.
Print Assumptions C118_sum_refuted.

(** ... average as well, ... *)
Theorem C118_average_refuted : forall xs s z a,
  xs <> [] -> NoDup (map x_name xs) -> (forall x, In x xs -> x_shape x = s) ->
  1 < length s -> 0 < size s -> axis_named (length s) z a ->
  built (average_axes_call xs (ATuple [z])) (drop_axes [a] s)
        (fun c => c_ins c = repeat s (length xs) /\ c_out c = drop_axes [a] s /\ correct c (average_axes_meaning [a])) /\
  average_axes_call xs (AInt z) = Some (drop_axes [a] s, None) /\
  ~ follows_numpy (average_axes_call xs).
Proof. exact forms_average. Qed.
Print Assumptions C118_average_refuted.

(** ... max and min take numbers only, ... *)
Theorem C118_extremum_refuted : forall neg x z a rho,
  axis_named (length (x_shape x)) z a -> 0 < nth a (x_shape x) 0 ->
  length (x_shape x) <= 12 -> (0 < rho)%R ->
  built (extremum_call neg [x] (AInt z) rho) (drop_axes [a] (x_shape x))
        (fun c => c_ins c = [x_shape x] /\ c_out c = drop_axes [a] (x_shape x) /\
                  correct c (ext_axis neg rho a) /\ convex_weights c) /\
  extremum_call neg [x] (ATuple [z]) rho = Some (drop_axes [a] (x_shape x), None) /\
  ~ follows_numpy (fun arg => extremum_call neg [x] arg rho).
Proof. exact forms_extremum. Qed.
Print Assumptions C118_extremum_refuted.

(** ... and so does dot, except for vectors, where anything will do. *)
Theorem C118_dot_refuted : forall x y z a,
  x_name x <> x_name y -> x_shape x = x_shape y -> 2 <= length (x_shape x) ->
  axis_named (length (x_shape x)) z a -> nth a (x_shape x) 0 = 3 ->
  built (dot_call x y (AInt z)) (drop_axes [a] (x_shape x))
        (fun c => c_ins c = [x_shape x; x_shape y] /\ c_out c = drop_axes [a] (x_shape x) /\ correct c (dot_meaning a)) /\
  (forall arg, (exists z', arg = AInt z') \/ dot_call x y arg = None) /\
  ~ follows_numpy (dot_call x y).
Proof. exact forms_dot. Qed.
Print Assumptions C118_dot_refuted.

Theorem C118_dot_vectors : forall x y arg n,
  x_name x <> x_name y -> x_shape x = [n] -> x_shape y = [n] ->
  built (dot_call x y arg) [1] (fun c => c_ins c = [[n]; [n]] /\ correct c (vector_inner_meaning n)).
Proof. exact forms_dot_vectors. Qed.
Print Assumptions C118_dot_vectors.

(** pnorm takes both. *)
Theorem C118_norm : forall s p, follows_numpy (norm_call s p).
Proof. exact forms_norm. Qed.
Print Assumptions C118_norm.

Theorem C118_norm_works : forall s m z a, 1 <= m -> axis_named (length s) z a -> 1 < length s <= 26 ->
  built (norm_call s (Z.of_nat (2 * m)) (AInt z)) (drop_axes [a] s)
        (fun c => c_ins c = [s] /\ c_out c = drop_axes [a] s /\ computes c (axis_norm_meaning m [a]) /\
                  correct_within (axis_norm_nonzero s [a]) c (axis_norm_meaning m [a])).
Proof. exact forms_norm_works. Qed.
Print Assumptions C118_norm_works.

(** inner takes both in either place of a tuple of two ... *)
Theorem C118_inner : forall x y b,
  follows_numpy (fun a => inner_call x y true a b) /\ follows_numpy (inner_call x y true b).
Proof. exact forms_inner. Qed.
Print Assumptions C118_inner.

(** ... and no list of two. *)
Theorem C118_inner_list : forall x y a b,
  (forall n m, x_shape x = [n] -> x_shape y = [m] -> False) ->
  (forall s c, inner_call x y false a b <> Some (s, Some c)) /\
  ((exists s, inner_call x y false a b = Some (s, None)) <->
   (exists l, Forall2 (axis_named (length (x_shape x))) (axes_listed a) l) /\
   (exists l, Forall2 (axis_named (length (x_shape y))) (axes_listed b) l)).
Proof. exact forms_inner_list. Qed.
Print Assumptions C118_inner_list.

(** Lists of axes: pnorm rejects them; the others return, and cannot be built. *)
Theorem C118_lists : forall xs s l, xs <> [] -> (forall x, In x xs -> x_shape x = s) ->
  let r f := (forall t c, f (AList l) <> Some (t, Some c)) /\
             ((exists t, f (AList l) = Some (t, None)) <-> exists axes, Forall2 (axis_named (length s)) l axes) in
  r (sum_axes_call xs) /\ r (average_axes_call xs) /\
  (forall neg rho, length xs = 1 -> r (fun a => extremum_call neg xs a rho)) /\
  (forall p, norm_call s p (AList l) = None).
Proof. exact forms_lists. Qed.
Print Assumptions C118_lists.

(** The only form that can be built. *)
Theorem C118_built : forall xs a,
  (forall s c, sum_axes_call xs a = Some (s, Some c) -> exists zs, a = ATuple zs) /\
  (forall s c, average_axes_call xs a = Some (s, Some c) -> exists zs, a = ATuple zs) /\
  (forall neg rho s c, extremum_call neg xs a rho = Some (s, Some c) -> exists z, a = AInt z).
Proof. exact forms_built. Qed.
Print Assumptions C118_built.

(** In the form each function is documented with, the calls are those the other
    properties are about. *)
Theorem C118_documented : forall xs zs,
  sum_axes_call xs (ATuple zs) = std (KSum xs (Some zs)) /\
  average_axes_call xs (ATuple zs) = std (KAverage xs (Some zs)) /\
  (forall x p, norm_call (x_shape x) p (ATuple zs) = std (KNorm x p (NormAxes zs))) /\
  (forall neg z rho, extremum_call neg xs (AInt z) rho = std (KExtremum neg xs (Some z) rho)) /\
  (forall x y z, dot_call x y (AInt z) = std (KDot x y (Some z))) /\
  (forall x y zs', inner_call x y true (ATuple zs) (ATuple zs') = std (KInner x y (Some (zs, zs')))).
Proof. exact forms_documented. Qed.
Print Assumptions C118_documented.
