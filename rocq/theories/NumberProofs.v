(** C115: which kinds of numbers can stand beside an expression. *)
From Coq Require Import Reals Lra Lia ZArith QArith Qreals List Bool.
From Verif Require Import PyBase RSum NdArray Component CompElem PyNumbers SpecNumbers.
Import ListNotations.
Local Open Scope R_scope.

Lemma zero_iff x c : stands x c -> (is_zero x = true <-> c = 0).
Proof.
  assert (T : forall r : R, (if Req_EM_T r 0 then true else false) = true <-> r = 0)
    by (intros r; destruct (Req_EM_T r 0); split; congruence).
  assert (Z : forall z, Z.eqb z 0 = true <-> IZR z = 0).
  { intros z. rewrite Z.eqb_eq. split; [now intros ->|apply eq_IZR]. }
  intros H. destruct H as [b ->|z [->| ->]|r [->|[->| ->]]|q ->|r ->]; cbn [is_zero]; auto.
  - destruct b; cbn; split; try congruence; intros; lra.
  - rewrite Qeq_bool_iff. split.
    + intros E. apply Qeq_eqR in E. rewrite E. unfold Q2R. cbn. lra.
    + intros E. apply eqR_Qeq. rewrite E. unfold Q2R. cbn. lra.
  - rewrite andb_true_iff, !T. split; [tauto|auto].
Qed.

Lemma accepted x c : int_or_float x -> stands x c ->
  option_value x = Some c /\ option_value (py_opp x) = Some (- c) /\ option_value (py_inv x) = Some (1 / c).
Proof.
  intros Hk H. destruct H as [b ->|z [->| ->]|r [->|[->| ->]]|q ->|r ->]; try contradiction; cbn [option_value py_opp py_inv];
    splits; auto.
  - destruct b; f_equal; lra.
  - now rewrite opp_IZR.
Qed.

Theorem numbers_right : forall op n s x c, stands x c ->
  (int_or_float x -> expr_number op n s x = py_binop op (OVar n s) (ONum c)) /\
  (~ int_or_float x -> op <> Div -> expr_number op n s x = Expr s (Some None)) /\
  (~ int_or_float x -> op = Div -> c <> 0 ->
   (of_numpy x -> expr_number op n s x = py_binop op (OVar n s) (ONum c)) /\
   (~ of_numpy x -> expr_number op n s x = Expr s (Some None))) /\
  (c = 0 -> expr_number Div n s x = Raises).
Proof.
  intros op n s x c H. pose proof (zero_iff x c H) as Hz. splits.
  - intros Hk. destruct (accepted x c Hk H) as (V & O & I).
    destruct op; cbn [expr_number py_binop elementwise addition subtraction multiplication division power]; unfold with_option;
      rewrite ?V, ?O, ?I; try reflexivity.
    destruct (Req_EM_T c 0) as [E|E].
    + apply Hz in E. now rewrite E.
    + destruct (is_zero x) eqn:Ez; [exfalso; apply E; now apply Hz|reflexivity].
  - intros Hk Ho. destruct x; cbn in Hk; try tauto; destruct op; try congruence; reflexivity.
  - intros Hk -> Hc. assert (Ez : is_zero x = false) by (destruct (is_zero x) eqn:E; [exfalso; apply Hc; now apply Hz|reflexivity]).
    cbn [expr_number]. rewrite Ez. split.
    + intros Hn. destruct x; cbn in Hk, Hn; try tauto. inversion H as [| z' [E|E] | r' [E|[E|E]] | |]; try discriminate.
      injection E as <-. cbn [py_inv py_binop elementwise division]. unfold with_option. cbn [option_value].
      destruct (Req_EM_T (IZR z) 0); [congruence|reflexivity].
    + intros Hn. destruct x; cbn in Hk, Hn; try tauto; reflexivity.
  - intros E. cbn [expr_number]. apply Hz in E. now rewrite E.
Qed.

Theorem numbers_left : forall op n s x c, stands x c -> ~ of_numpy x ->
  (int_or_float x -> number_expr op n s x = py_binop op (ONum c) (OVar n s)) /\
  (~ int_or_float x -> op <> Pow -> number_expr op n s x = Expr s (Some None)) /\
  number_expr Pow n s x = Raises.
Proof.
  intros op n s x c H _. splits.
  - intros Hk. destruct (accepted x c Hk H) as (V & O & I).
    destruct op; cbn [number_expr py_binop elementwise addition subtraction multiplication division]; unfold with_option;
      rewrite ?V; reflexivity.
  - intros Hk Ho. destruct x; cbn in Hk; try tauto; destruct op; try congruence; reflexivity.
  - reflexivity.
Qed.

(** a complex number proper is never accepted *)
Theorem complex_never : forall op n s a b, b <> 0 ->
  expr_number op n s (PComplex a b) = Expr s (Some None) /\
  (op <> Pow -> number_expr op n s (PComplex a b) = Expr s (Some None)).
Proof.
  intros op n s a b Hb. split.
  - destruct op; try reflexivity. cbn [expr_number is_zero]. destruct (Req_EM_T b 0); [contradiction|].
    rewrite andb_false_r. reflexivity.
  - intros Ho. destruct op; try congruence; reflexivity.
Qed.

(** x * numpy.int64(3) cannot be built, x * 3 can *)
Theorem numbers_refuted : ~ (forall op n s x c, stands x c -> c <> 0 ->
  exists k, expr_number op n s x = Expr s (Some (Some k))).
Proof.
  intros H. destruct (H Mul 0%nat [1%nat] (NInt64 3) 3) as [k Hk]; [|lra|].
  - apply (stands_int _ 3). now right.
  - discriminate.
Qed.

Example number_cases :
  expr_number Mul 0 [2%nat] (NInt64 3) = Expr [2%nat] (Some None) /\
  (exists k, expr_number Div 0 [2%nat] (NInt64 3) = Expr [2%nat] (Some (Some k))) /\
  (exists k, expr_number Mul 0 [2%nat] (PInt 3) = Expr [2%nat] (Some (Some k))) /\
  stands (NInt64 3) 3 /\ stands (PFraction (1 # 2)) (/ 2).
Proof.
  splits; [reflexivity|eexists; reflexivity|eexists; reflexivity|apply (stands_int _ 3); now right|].
  replace (/ 2) with (Q2R (1 # 2)) by (unfold Q2R; cbn; lra). now apply stands_fraction.
Qed.
