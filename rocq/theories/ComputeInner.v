(** C112, inner over axes: the partials exist exactly when the value does. *)
From Coq Require Import Reals Lia Arith List Bool ZArith.
From Verif Require Import PyBase RSum NdArray NdEinsum Component CompReorder CompReduce CompProduct CompEinsum CompTensor
  SpecReduce ReorderProofs ReduceProofs TensorProofs BuildProofs JacSpec SpecBuild SpecCompute.
Import ListNotations.
Local Open Scope nat_scope.

(** the axes of the doubled shape that the same numbers name *)
Definition twin (r x y : nat) : Prop := x < r /\ (y = x \/ y = r + x).

Lemma named_twin r z a b : axis_named r z a -> axis_named (r + r) z b -> twin r a b.
Proof. intros [Ha Hz] [Hb Hz']. split; [assumption|]. lia. Qed.
Lemma named_twice r z a : axis_named r z a -> exists b, axis_named (r + r) z b.
Proof.
  intros [Ha [Hz|[Hz Hn]]]; [exists a|exists (r + a)]; split; try lia.
Qed.
Lemma twins r : forall zs a, Forall2 (axis_named r) zs a ->
  exists b, Forall2 (axis_named (r + r)) zs b /\ Forall2 (twin r) a b.
Proof.
  intros zs a H. induction H as [|z x zs a Hx H (b & Hb & Ht)]; [exists []; split; constructor|].
  destruct (named_twice _ _ _ Hx) as [y Hy]. exists (y :: b). split; constructor; auto.
  now apply (named_twin r z).
Qed.
Lemma twins_once r : forall a b, Forall2 (twin r) a b -> NoDup a -> NoDup b.
Proof.
  intros a b H. induction H as [|x y a b Hx H IH]; intros Hn; [constructor|].
  inversion Hn as [|? ? Hi Hn']; subst. constructor; [|auto]. intros Hy. apply Hi. clear - Hx H Hy.
  induction H as [|x' y' a b Hx' H IH]; [contradiction|].
  destruct Hy as [->|Hy]; [left|right; auto].
  destruct Hx as [Hl [E|E]], Hx' as [Hl' [E'|E']]; lia.
Qed.
Lemma twins_extents (s : list nat) : forall a b, Forall2 (twin (length s)) a b -> extents (s ++ s) b = extents s a.
Proof.
  intros a b H. unfold extents. induction H as [|x y a b [Hx Hy] H IH]; [reflexivity|]. cbn [map]. rewrite IH. f_equal.
  destruct Hy as [->| ->]; [now apply app_nth1|]. rewrite app_nth2 by lia. f_equal. lia.
Qed.
Lemma twins_below r : forall a b, Forall2 (twin r) a b -> below (r + r) b.
Proof.
  intros a b H. induction H as [|x y a b [Hx Hy] H IH]; intros z Hz; [contradiction|].
  destruct Hz as [<-|Hz]; [lia|auto].
Qed.

Lemma twins_length r : forall a b, Forall2 (twin r) a b -> length a = length b.
Proof. intros a b H. induction H; cbn; congruence. Qed.

Lemma tensordot_iff a b z0 z1 ax bx : norm_axes (length (shp a)) z0 = Some ax -> norm_axes (length (shp b)) z1 = Some bx ->
  ((exists t, np_tensordot a b z0 z1 = Some t) <-> NoDup ax /\ NoDup bx /\ extents (shp a) ax = extents (shp b) bx).
Proof.
  intros E0 E1. unfold np_tensordot. rewrite E0, E1. split.
  - intros [t Ht]. destruct (nodupb ax) eqn:N0; [|discriminate]. destruct (nodupb bx) eqn:N1; [|discriminate].
    destruct (list_eq_dec Nat.eq_dec _ _) as [X|]; [|discriminate].
    splits; [now apply nodupb_NoDup|now apply nodupb_NoDup|assumption].
  - intros (N0 & N1 & E). apply nodupb_NoDup in N0. apply nodupb_NoDup in N1. rewrite N0, N1.
    destruct (list_eq_dec Nat.eq_dec _ _) as [X|X]; [|contradiction]. cbn [andb]. eauto.
Qed.

Section Inner.
Variables (s0 s1 : shape) (z0 z1 : list Z) (a0 a1 : list nat).
Hypothesis E0 : norm_axes (length s0) z0 = Some a0.
Hypothesis E1 : norm_axes (length s1) z1 = Some a1.

Lemma inner_slopes (c : component) v : tensor_inner_comp s0 s1 z0 z1 = Some c ->
  (differentiates c v <-> NoDup a0 /\ NoDup a1 /\ extents s0 a0 = extents s1 a1).
Proof.
  unfold tensor_inner_comp. rewrite E0, E1. intros H. inversion H; subst c; clear H.
  pose proof (norm_axes_inv _ _ _ E0) as F0. pose proof (norm_axes_inv _ _ _ E1) as F1.
  destruct (twins _ _ _ F0) as (b0 & B0 & T0). destruct (twins _ _ _ F1) as (b1 & B1 & T1).
  pose proof (norm_axes_named _ _ _ B0) as G0. pose proof (norm_axes_named _ _ _ B1) as G1.
  assert (P0 := tensordot_iff (identity_tensor s0) (Nd s1 (v 1)) z0 z1 b0 a1).
  assert (P1 := tensordot_iff (Nd s0 (v 0)) (identity_tensor s1) z0 z1 a0 b1).
  cbn [identity_tensor of_fun shp] in P0, P1. rewrite app_length in P0, P1.
  specialize (P0 G0 E1). specialize (P1 E0 G1). rewrite (twins_extents s0 a0 b0 T0) in P0. rewrite (twins_extents s1 a1 b1 T1) in P1.
  unfold differentiates. cbn [comp2 c_ins c_partials length].
  change (inputs_of [s0; s1] v) with [Nd s0 (v 0); Nd s1 (v 1)]. split.
  - intros H. destruct (H 0) as [j Hj]; [lia|]. destruct (H 1) as [j' Hj']; [lia|].
    cbn iota in Hj, Hj'.
    destruct (np_tensordot (identity_tensor s0) _ _ _) as [t|] eqn:Et; [|discriminate].
    destruct (np_tensordot _ (identity_tensor s1) _ _) as [t'|] eqn:Et'; [|discriminate].
    destruct (proj1 P0 (ex_intro _ t eq_refl)) as (_ & N1 & E).
    destruct (proj1 P1 (ex_intro _ t' eq_refl)) as (N0 & _ & _). auto.
  - intros (N0 & N1 & E) p Hp. destruct p as [|[|p]]; [| |lia]; cbn iota.
    + destruct (proj2 P0) as [t Et]; [splits; auto; now apply (twins_once _ _ _ T0)|]. rewrite Et.
      unfold transpose_by.
      assert (Es : length (shp t) = length (delete a0 s0) + (length s0 + length (delete a1 s1))).
      { unfold np_tensordot in Et. cbn [identity_tensor of_fun shp] in Et. rewrite app_length, G0, E1 in Et.
        destruct (_ && _); [|discriminate]. inversion Et; subst t; clear Et. unfold tensordot_core. cbn [of_fun shp].
        rewrite app_length. rewrite !free_length.
        cbn [identity_tensor of_fun shp]. rewrite app_length.
        pose proof (free_count _ _ (twins_once _ _ _ T0 N0) (twins_below _ _ _ T0)).
        assert (Bl : below (length s0) a0) by (intros q Hq; exact (named_below _ _ _ F0 q Hq)).
        pose proof (free_count _ _ N0 Bl). pose proof (twins_length _ _ _ T0). lia. }
      assert (El : new_axes_locations (length (delete a0 s0)) (length s0) (length s1) =
                   moved (length (delete a0 s0)) (length s0) (length (delete a1 s1))).
      { unfold new_axes_locations, moved. f_equal. f_equal. f_equal.
        rewrite !free_length. pose proof (free_count _ _ N0 (named_below _ _ _ F0)).
        pose proof (free_count _ _ N1 (named_below _ _ _ F1)).
        assert (length a0 = length a1) by (apply (f_equal (@length nat)) in E; unfold extents in E; now rewrite !map_length in E).
        lia. }
      rewrite El, Es, moved_ok. cbn. eauto.
    + destruct (proj2 P1) as [t Et]; [splits; auto; now apply (twins_once _ _ _ T1)|]. rewrite Et. cbn. eauto.
Qed.
End Inner.
