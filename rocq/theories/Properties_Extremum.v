(** Smooth maximum and minimum (C45, C46), p-norms (C47), kept values (C48). *)
From Coq Require Import Reals Arith List Bool ZArith.
From Verif Require Import PyBase RSum NdArray Component JacSpec JacOpen SpecReduce SpecExtremum SpecNorm
  CompExtremum CompNorm ExtremumProofs NormProofs KeptProofs.
Import ListNotations.
Local Open Scope R_scope.

Theorem C45_C46_elementwise : forall neg exprs s rho,
  (2 <= length exprs)%nat -> NoDup (map fst exprs) -> Forall (fun e => snd e = s) exprs -> 0 < rho ->
  exists c, extremum neg exprs None rho = Some (s, Some c) /\
    c_ins c = repeat s (length exprs) /\ c_out c = s /\
    correct c (ext_elementwise neg rho) /\ convex_weights c.
Proof. exact extremum_elementwise. Qed.
Print Assumptions C45_C46_elementwise.

Theorem C45_C46_axis : forall neg n s z a rho,
  axis_named (length s) z a -> (0 < nth a s 0)%nat -> (length s <= 12)%nat -> 0 < rho ->
  exists c, extremum neg [(n, s)] (Some z) rho = Some (drop_axes [a] s, Some c) /\
    c_ins c = [s] /\ c_out c = drop_axes [a] s /\
    correct c (ext_axis neg rho a) /\ convex_weights c.
Proof. exact extremum_axis. Qed.
Print Assumptions C45_C46_axis.

Theorem C45_C46_all_entries : forall neg n s rho, (0 < size s)%nat -> 0 < rho ->
  exists c, extremum neg [(n, s)] None rho = Some ([1%nat], Some c) /\
    c_ins c = [s] /\ c_out c = [1%nat] /\
    correct c (ext_all neg rho) /\ convex_weights c.
Proof. exact extremum_all. Qed.
Print Assumptions C45_C46_all_entries.

Theorem C45_rejected : forall neg exprs axis rho,
  (2 <= length exprs)%nat ->
  axis <> None \/ (exists e e', In e exprs /\ In e' exprs /\ snd e <> snd e') ->
  extremum neg exprs axis rho = None.
Proof. exact extremum_rejects. Qed.
Print Assumptions C45_rejected.

Theorem C67_extremum_repeated_refuted : forall neg n s rho l,
  In n (map fst l) -> Forall (fun e => snd e = s) l ->
  extremum neg ((n, s) :: l) None rho = Some (s, None).
Proof. exact extremum_repeated. Qed.
Print Assumptions C67_extremum_repeated_refuted.

Theorem C47_orders : forall s p axis,
  pnorm s p axis <> None <->
  (exists m, (1 <= m)%nat /\ p = Z.of_nat (2 * m)) /\
  match axis with
  | NormAll => True
  | NormAxes zs => exists axes, Forall2 (axis_named (length s)) zs axes
  | NormAxisOther => False
  end.
Proof. exact pnorm_accepts. Qed.
Print Assumptions C47_orders.

Theorem C47_all_entries : forall s m, (1 <= m)%nat ->
  exists c, pnorm s (Z.of_nat (2 * m)) NormAll = Some ([1%nat], Some c) /\
    c_ins c = [s] /\ c_out c = [1%nat] /\ computes c (norm_meaning m) /\
    correct_within (norm_nonzero s) c (norm_meaning m).
Proof. exact pnorm_all. Qed.
Print Assumptions C47_all_entries.

Theorem C47_along_axes : forall s m zs axes, (1 <= m)%nat ->
  Forall2 (axis_named (length s)) zs axes -> NoDup axes -> (length axes < length s <= 26)%nat ->
  exists c, pnorm s (Z.of_nat (2 * m)) (NormAxes zs) = Some (drop_axes axes s, Some c) /\
    c_ins c = [s] /\ c_out c = drop_axes axes s /\ computes c (axis_norm_meaning m axes) /\
    correct_within (axis_norm_nonzero s axes) c (axis_norm_meaning m axes).
Proof. exact pnorm_axes. Qed.
Print Assumptions C47_along_axes.

(** What is returned is the Jacobian at the point computed last. *)
Theorem C48_axis_actual : forall neg rho s a old now,
  (length s <= 12)%nat -> (a < length s)%nat -> (0 < nth a s 0)%nat -> 0 < rho ->
  exists c j, axis_ext neg rho s a = Some c /\
    axis_ext_partials_after neg rho s a (Some (Nd s old)) now = Some j /\ right_at c old j.
Proof. exact axis_ext_kept. Qed.
Print Assumptions C48_axis_actual.

Theorem C48_all_entries_actual : forall neg rho s old now, (0 < size s)%nat -> 0 < rho ->
  exists j, scalar_ext_partials_after neg rho (Some (Nd s old)) now = Some j /\
    right_at (scalar_ext neg rho s) old j.
Proof. exact scalar_ext_kept. Qed.
Print Assumptions C48_all_entries_actual.

Theorem C48_axis_refuted : forall rho, 0 < rho ->
  exists c old now j, axis_ext false rho [2; 1]%nat 0 = Some c /\
    axis_ext_partials_after false rho [2; 1]%nat 0 (Some (Nd [2; 1]%nat old)) (Nd [2; 1]%nat now) = Some j /\
    ~ right_at c now j.
Proof. exact axis_ext_stale. Qed.
Print Assumptions C48_axis_refuted.

Theorem C48_all_entries_refuted : forall rho, 0 < rho ->
  exists old now j,
    scalar_ext_partials_after false rho (Some (Nd [2%nat] old)) (Nd [2%nat] now) = Some j /\
    ~ right_at (scalar_ext false rho [2%nat]) now j.
Proof. exact scalar_ext_stale. Qed.
Print Assumptions C48_all_entries_refuted.

(** The p-norm's derivatives are right exactly when the norm did not change. *)
Theorem C48_norm_refuted : forall m s old now no nn, (1 <= m)%nat ->
  norm_of m (size s) (fun _ => true) old no -> norm_of m (size s) (fun _ => true) now nn ->
  no <> 0 -> nn <> 0 ->
  exists j, norm_partials_after (Z.of_nat (2 * m)) (Some (Nd s old)) (Nd s now) = Some j /\
    (right_at (norm_comp (Z.of_nat (2 * m)) s) now j <-> no = nn).
Proof. exact norm_kept. Qed.
Print Assumptions C48_norm_refuted.

Theorem C48_axis_norm_actual : forall s m zs axes old now no nn, (1 <= m)%nat ->
  Forall2 (axis_named (length s)) zs axes -> NoDup axes -> (length axes < length s <= 26)%nat ->
  (forall idx, inb (drop_axes axes s) idx ->
     norm_of m (size s) (belongs axes (Nd s old) idx) old (no idx) /\ no idx <> 0 /\
     norm_of m (size s) (belongs axes (Nd s now) idx) now (nn idx) /\ nn idx <> 0) ->
  exists c j, pnorm s (Z.of_nat (2 * m)) (NormAxes zs) = Some (drop_axes axes s, Some c) /\
    axis_norm_partials_after (Z.of_nat (2 * m)) s axes (Some (Nd s old)) (Nd s now) = Some j /\
    (right_at c now j <-> forall idx, inb (drop_axes axes s) idx -> no idx = nn idx).
Proof. exact axis_norm_kept. Qed.
Print Assumptions C48_axis_norm_actual.

Theorem C48_not_computed_yet : forall neg rho p s a axes now,
  norm_partials_after p None now = None /\ axis_norm_partials_after p s axes None now = None /\
  axis_ext_partials_after neg rho s a None now = None /\ scalar_ext_partials_after neg rho None now = None.
Proof. exact nothing_kept. Qed.
Print Assumptions C48_not_computed_yet.
