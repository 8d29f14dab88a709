From Coq Require Import Reals Lia Arith List Bool ZArith.
From Verif Require Import PyBase RSum NdArray Component JacSpec JacOpen SpecReduce SpecExtremum SpecNorm SpecProduct
  CompReorder CompReduce CompProduct CompTensor CompElem CompExtremum CompNorm CompCond StdCalls
  ReduceProofs ExtremumProofs NormProofs KeptProofs ProductProofs DirectProofs AxisForms SpecAxisForms.
Import ListNotations.
Local Open Scope nat_scope.

Lemma norm_axis_of r z a : axis_named r z a -> norm_axis r z = Some a.
Proof.
  intros (Ha & Hz). unfold norm_axis.
  destruct Hz as [Hz|[Hz Hneg]].
  - destruct (Z.leb_spec 0 z); [|lia]. destruct (Z.ltb_spec z (Z.of_nat r)); [|lia]. cbn. f_equal. lia.
  - destruct (Z.leb_spec 0 z); [lia|]. cbn [andb].
    destruct (Z.leb_spec (- Z.of_nat r) z); [|lia]. destruct (Z.ltb_spec z 0); [|lia]. cbn. f_equal. lia.
Qed.

Lemma axes_of_inv r : forall zs axes, norm_axes r zs = Some axes -> Forall2 (axis_named r) zs axes.
Proof.
  induction zs as [|z zs IH]; cbn; intros axes H; [inversion H; constructor|].
  destruct (norm_axis r z) as [a|] eqn:E; [|discriminate]. destruct (norm_axes r zs) as [l|]; [|discriminate].
  inversion H; subst. constructor; [|auto]. clear -E. unfold norm_axis in E. unfold axis_named.
  destruct (Z.leb_spec 0 z); cbn [andb] in E.
  - destruct (Z.ltb_spec z (Z.of_nat r)); [inversion E; subst; lia|].
    destruct (Z.leb_spec (- Z.of_nat r) z); cbn [andb] in E; [|discriminate].
    destruct (Z.ltb_spec z 0); [lia|discriminate].
  - destruct (Z.leb_spec (- Z.of_nat r) z); cbn [andb] in E; [|discriminate].
    destruct (Z.ltb_spec z 0); [inversion E; subst; lia|discriminate].
Qed.

Lemma axes_of r zs axes : Forall2 (axis_named r) zs axes -> norm_axes r zs = Some axes.
Proof. intros H. induction H; cbn; [reflexivity|]. now rewrite (norm_axis_of _ _ _ H), IHForall2. Qed.

Lemma last_shape_of xs s : xs <> [] -> (forall x, In x xs -> x_shape x = s) -> last_shape xs = s.
Proof.
  intros Hne H. unfold last_shape. destruct (rev xs) as [|x l] eqn:E.
  - apply (f_equal (@rev expr_facts)) in E. rewrite rev_involutive in E. contradiction.
  - apply H. apply in_rev. rewrite E. now left.
Qed.

Lemma reduced_of xs s zs : xs <> [] -> (forall x, In x xs -> x_shape x = s) ->
  reduced_shape xs (Some zs) = np_delete_axes s zs.
Proof.
  intros Hne H. unfold reduced_shape. destruct (rev xs) as [|x l] eqn:E.
  - apply (f_equal (@rev expr_facts)) in E. rewrite rev_involutive in E. contradiction.
  - assert (x_shape x = s) as -> by (apply H; apply in_rev; rewrite E; now left). destruct l; reflexivity.
Qed.

Lemma delete_of s zs axes : Forall2 (axis_named (length s)) zs axes -> np_delete_axes s zs = Some (drop_axes axes s).
Proof. intros H. unfold np_delete_axes. rewrite (axes_of _ _ _ H). cbn. now rewrite delete_drop. Qed.

Lemma delete_iff s zs : (exists t, np_delete_axes s zs = Some t) <-> exists axes, Forall2 (axis_named (length s)) zs axes.
Proof.
  split.
  - unfold np_delete_axes. intros [t H]. destruct (norm_axes (length s) zs) as [axes|] eqn:E; [|discriminate].
    exists axes. now apply axes_of_inv.
  - intros [axes H]. rewrite (delete_of _ _ _ H). eauto.
Qed.

Lemma forms_sum xs s z a : xs <> [] -> NoDup (map x_name xs) -> (forall x, In x xs -> x_shape x = s) ->
  1 < length s -> axis_named (length s) z a ->
  built (sum_axes_call xs (ATuple [z])) (drop_axes [a] s)
        (fun c => c_ins c = repeat s (length xs) /\ c_out c = drop_axes [a] s /\ correct c (sum_axes_meaning [a])) /\
  sum_axes_call xs (AInt z) = Some (drop_axes [a] s, None) /\
  ~ follows_numpy (sum_axes_call xs).
Proof.
  intros Hne Hn Hs Hr Hz.
  assert (F : Forall2 (axis_named (length s)) [z] [a]) by (constructor; [exact Hz|constructor]).
  assert (L : 1 <= length xs) by (destruct xs; [contradiction|cbn; lia]).
  destruct (sum_axes_correct s (length xs) [z] [a] L F) as (c & Ec & Hc); [repeat constructor; auto|cbn; lia|].
  assert (A : sum_axes_call xs (ATuple [z]) = Some (drop_axes [a] s, Some c)).
  { unfold sum_axes_call. cbn [axes_listed tuple_only]. rewrite (reduced_of _ s _ Hne Hs), (delete_of _ _ _ F).
    rewrite (last_shape_of _ _ Hne Hs), Ec. unfold distinct_inputs. rewrite (proj2 (names_ok_nodup _) Hn). reflexivity. }
  assert (B : sum_axes_call xs (AInt z) = Some (drop_axes [a] s, None)).
  { unfold sum_axes_call. cbn [axes_listed tuple_only]. now rewrite (reduced_of _ s _ Hne Hs), (delete_of _ _ _ F). }
  splits; [exists c; split; [exact A|exact Hc]|exact B|].
  intros H. specialize (H (AInt z) (ATuple [z]) [z] eq_refl eq_refl). rewrite A, B in H. discriminate.
Qed.

Lemma forms_average xs s z a : xs <> [] -> NoDup (map x_name xs) -> (forall x, In x xs -> x_shape x = s) ->
  1 < length s -> 0 < size s -> axis_named (length s) z a ->
  built (average_axes_call xs (ATuple [z])) (drop_axes [a] s)
        (fun c => c_ins c = repeat s (length xs) /\ c_out c = drop_axes [a] s /\ correct c (average_axes_meaning [a])) /\
  average_axes_call xs (AInt z) = Some (drop_axes [a] s, None) /\
  ~ follows_numpy (average_axes_call xs).
Proof.
  intros Hne Hn Hs Hr Hp Hz.
  assert (F : Forall2 (axis_named (length s)) [z] [a]) by (constructor; [exact Hz|constructor]).
  assert (L : 1 <= length xs) by (destruct xs; [contradiction|cbn; lia]).
  destruct (average_axis_correct s (length xs) z a L Hp Hz Hr) as (c & Ec & Hc).
  assert (A : average_axes_call xs (ATuple [z]) = Some (drop_axes [a] s, Some c)).
  { unfold average_axes_call. cbn [axes_listed tuple_only]. rewrite (reduced_of _ s _ Hne Hs), (delete_of _ _ _ F).
    rewrite (last_shape_of _ _ Hne Hs), Ec. unfold distinct_inputs. rewrite (proj2 (names_ok_nodup _) Hn). reflexivity. }
  assert (B : average_axes_call xs (AInt z) = Some (drop_axes [a] s, None)).
  { unfold average_axes_call. cbn [axes_listed tuple_only]. now rewrite (reduced_of _ s _ Hne Hs), (delete_of _ _ _ F). }
  splits; [exists c; split; [exact A|exact Hc]|exact B|].
  intros H. specialize (H (AInt z) (ATuple [z]) [z] eq_refl eq_refl). rewrite A, B in H. discriminate.
Qed.

Lemma forms_extremum neg x z a rho : axis_named (length (x_shape x)) z a -> 0 < nth a (x_shape x) 0 ->
  length (x_shape x) <= 12 -> (0 < rho)%R ->
  built (extremum_call neg [x] (AInt z) rho) (drop_axes [a] (x_shape x))
        (fun c => c_ins c = [x_shape x] /\ c_out c = drop_axes [a] (x_shape x) /\
                  correct c (ext_axis neg rho a) /\ convex_weights c) /\
  extremum_call neg [x] (ATuple [z]) rho = Some (drop_axes [a] (x_shape x), None) /\
  ~ follows_numpy (fun arg => extremum_call neg [x] arg rho).
Proof.
  intros Hz Hp Hr Hrho.
  destruct (extremum_axis neg (x_name x) (x_shape x) z a rho Hz Hp Hr Hrho) as (c & Ec & Hc).
  assert (B : extremum_call neg [x] (ATuple [z]) rho = Some (drop_axes [a] (x_shape x), None)).
  { unfold extremum_call. cbn [axes_listed]. rewrite (delete_of _ [z] [a]); [reflexivity|constructor; [exact Hz|constructor]]. }
  splits; [exists c; split; [exact Ec|exact Hc]|exact B|].
  intros H. specialize (H (AInt z) (ATuple [z]) [z] eq_refl eq_refl). cbn beta in H. rewrite B in H.
  unfold extremum_call in H. cbn [map] in H. unfold name_shape in H. rewrite Ec in H. discriminate.
Qed.

Lemma forms_norm s p : follows_numpy (norm_call s p).
Proof.
  intros [z|l|l] [z'|l'|l'] zs; cbn [stands_for norm_call]; intros H H'; try contradiction; rewrite H in H'; rewrite ?H'; try reflexivity.
Qed.

Lemma forms_norm_works s m z a : 1 <= m -> axis_named (length s) z a -> 1 < length s <= 26 ->
  built (norm_call s (Z.of_nat (2 * m)) (AInt z)) (drop_axes [a] s)
        (fun c => c_ins c = [s] /\ c_out c = drop_axes [a] s /\ computes c (axis_norm_meaning m [a]) /\
                  correct_within (axis_norm_nonzero s [a]) c (axis_norm_meaning m [a])).
Proof.
  intros Hm Hz Hr. apply (pnorm_axes s m [z] [a] Hm); [constructor; [exact Hz|constructor]|repeat constructor; auto|cbn; lia].
Qed.

Lemma forms_dot x y z a : x_name x <> x_name y -> x_shape x = x_shape y -> 2 <= length (x_shape x) ->
  axis_named (length (x_shape x)) z a -> nth a (x_shape x) 0 = 3 ->
  built (dot_call x y (AInt z)) (drop_axes [a] (x_shape x))
        (fun c => c_ins c = [x_shape x; x_shape y] /\ c_out c = drop_axes [a] (x_shape x) /\ correct c (dot_meaning a)) /\
  (forall arg, (exists z', arg = AInt z') \/ dot_call x y arg = None) /\
  ~ follows_numpy (dot_call x y).
Proof.
  intros Hn Hs Hr Hz H3.
  destruct (dot_tensors_correct (x_shape x) z a Hr Hz H3) as (c & Ec & Hi & Ho & Hc).
  assert (A : dot_call x y (AInt z) = Some (drop_axes [a] (x_shape x), Some c)).
  { unfold dot_call. cbn [std]. rewrite <- Hs, Ec. unfold dot_shape.
    destruct (list_eq_dec _ _ _) as [_|N]; [|contradiction].
    rewrite (norm_axis_of _ _ _ Hz), H3. rewrite (delete_of _ [z] [a]); [|constructor; [exact Hz|constructor]].
    destruct (x_shape x) as [|n [|n' s]]; [cbn in Hr; lia|cbn in Hr; lia|].
    cbn [Nat.eqb returns option_map]. unfold distinct_inputs. cbn [map].
    rewrite (proj2 (names_ok_nodup [x_name x; x_name y])); [reflexivity|].
    constructor; [cbn; intuition congruence|repeat constructor; auto]. }
  assert (B : forall l, dot_call x y (ATuple l) = None).
  { intros l. unfold dot_call. destruct (x_shape x) as [|n [|n' s]]; [reflexivity|cbn in Hr; lia|reflexivity]. }
  splits.
  - exists c. split; [exact A|]. rewrite <- Hs. auto.
  - intros [z'|l|l]; [left; eauto|right; apply B|right]. unfold dot_call.
    destruct (x_shape x) as [|n [|n' s]]; [reflexivity|cbn in Hr; lia|reflexivity].
  - intros H. specialize (H (AInt z) (ATuple [z]) [z] eq_refl eq_refl). rewrite A, B in H. discriminate.
Qed.

Lemma forms_dot_vectors x y arg n : x_name x <> x_name y -> x_shape x = [n] -> x_shape y = [n] ->
  built (dot_call x y arg) [1] (fun c => c_ins c = [[n]; [n]] /\ correct c (vector_inner_meaning n)).
Proof.
  intros Hn Hx Hy.
  assert (D : forall axis, exists c, std (KDot x y axis) = Some ([1], Some c) /\ c_ins c = [[n]; [n]] /\ correct c (vector_inner_meaning n)).
  { intros axis. destruct (dot_vectors_correct n axis) as (c & Ec & Hi & Hc). exists c. split; [|auto].
    cbn [std]. rewrite Hx, Hy, Ec. unfold dot_shape. destruct (list_eq_dec _ _ _) as [_|N]; [|contradiction].
    unfold distinct_inputs. cbn [map]. rewrite (proj2 (names_ok_nodup [x_name x; x_name y])); [reflexivity|].
    constructor; [cbn; intuition congruence|repeat constructor; auto]. }
  unfold built, dot_call. rewrite Hx. destruct arg as [z|l|l]; apply D.
Qed.

Lemma forms_inner x y b : follows_numpy (fun a => inner_call x y true a b) /\ follows_numpy (inner_call x y true b).
Proof.
  assert (E : forall a a' zs, stands_for a zs -> stands_for a' zs -> axes_listed a = axes_listed a').
  { intros [z|l|l] [z'|l'|l'] zs; cbn; intros; subst; try contradiction; congruence. }
  split; intros a a' zs Ha Ha'; unfold inner_call; now rewrite (E a a' zs Ha Ha').
Qed.

Lemma forms_inner_list x y a b : (forall n m, x_shape x = [n] -> x_shape y = [m] -> False) ->
  (forall s c, inner_call x y false a b <> Some (s, Some c)) /\
  ((exists s, inner_call x y false a b = Some (s, None)) <->
   (exists l, Forall2 (axis_named (length (x_shape x))) (axes_listed a) l) /\
   (exists l, Forall2 (axis_named (length (x_shape y))) (axes_listed b) l)).
Proof.
  intros Hv.
  assert (E : inner_call x y false a b =
    returns (match np_delete_axes (x_shape x) (axes_listed a), np_delete_axes (x_shape y) (axes_listed b) with
             | Some r0, Some r1 => Some (r0 ++ r1) | _, _ => None end) None).
  { unfold inner_call, inner_shape.
    destruct (x_shape x) as [|n [|? ?]]; destruct (x_shape y) as [|m [|? ?]]; try reflexivity. destruct (Hv n m eq_refl eq_refl). }
  rewrite E. rewrite <- !delete_iff.
  destruct (np_delete_axes (x_shape x) _) as [r0|]; destruct (np_delete_axes (x_shape y) _) as [r1|]; cbn;
    (split; [intros s c H; congruence|split; [intros [s H]; try discriminate; eauto|intros [[? ?] [? ?]]; try discriminate; eauto]]).
Qed.

Lemma forms_lists xs s l : xs <> [] -> (forall x, In x xs -> x_shape x = s) ->
  let r f := (forall t c, f (AList l) <> Some (t, Some c)) /\
             ((exists t, f (AList l) = Some (t, None)) <-> exists axes, Forall2 (axis_named (length s)) l axes) in
  r (sum_axes_call xs) /\ r (average_axes_call xs) /\
  (forall neg rho, length xs = 1 -> r (fun a => extremum_call neg xs a rho)) /\
  (forall p, norm_call s p (AList l) = None).
Proof.
  intros Hne Hs r.
  assert (G : forall f, f (AList l) = returns (np_delete_axes s l) None -> r f).
  { intros f E. unfold r. rewrite E, <- delete_iff. destruct (np_delete_axes s l) as [t|]; cbn;
      (split; [intros; congruence|split; [intros [t' H]; try discriminate; eauto|intros [t' H]; try discriminate; eauto]]). }
  splits.
  - apply G. unfold sum_axes_call. cbn [axes_listed tuple_only]. now rewrite (reduced_of _ s _ Hne Hs).
  - apply G. unfold average_axes_call. cbn [axes_listed tuple_only]. now rewrite (reduced_of _ s _ Hne Hs).
  - intros neg rho H1. apply G. destruct xs as [|x [|? ?]]; [discriminate| |discriminate].
    unfold extremum_call. cbn [axes_listed]. now rewrite (Hs x (or_introl eq_refl)).
  - intros p. reflexivity.
Qed.

(** a 2 by 3 matrix: the sum along its last axis *)
Example sum_forms_case :
  sum_axes_call [Facts 0 [2; 3] [2; 3]] (AInt (-1)) = Some ([2], None) /\
  exists c, sum_axes_call [Facts 0 [2; 3] [2; 3]] (ATuple [(-1)%Z]) = Some ([2], Some c).
Proof.
  destruct (forms_sum [Facts 0 [2; 3] [2; 3]] [2; 3] (-1)%Z 1) as ((c & E & _) & F & _).
  - discriminate.
  - repeat constructor; auto.
  - intros x [<-|[]]. reflexivity.
  - cbn. lia.
  - split; cbn; lia.
  - split; [exact F|exists c; exact E].
Qed.

(** two 2 by 3 matrices: dot along the last axis, and inner with a list of axes *)
Example dot_forms_case :
  (exists c, dot_call (Facts 0 [2; 3] [2; 3]) (Facts 1 [2; 3] [2; 3]) (AInt 1) = Some ([2], Some c)) /\
  dot_call (Facts 0 [2; 3] [2; 3]) (Facts 1 [2; 3] [2; 3]) (ATuple [1%Z]) = None /\
  inner_call (Facts 0 [2; 3] [2; 3]) (Facts 1 [2; 3] [2; 3]) false (AInt 1) (AInt 1) = Some ([2; 2], None).
Proof.
  destruct (forms_dot (Facts 0 [2; 3] [2; 3]) (Facts 1 [2; 3] [2; 3]) 1%Z 1) as ((c & E & _) & _);
    [discriminate|reflexivity|cbn; lia|split; cbn; lia|reflexivity|].
  splits; [exists c; exact E|reflexivity|reflexivity].
Qed.

Lemma forms_documented xs zs :
  sum_axes_call xs (ATuple zs) = std (KSum xs (Some zs)) /\
  average_axes_call xs (ATuple zs) = std (KAverage xs (Some zs)) /\
  (forall x p, norm_call (x_shape x) p (ATuple zs) = std (KNorm x p (NormAxes zs))) /\
  (forall neg z rho, extremum_call neg xs (AInt z) rho = std (KExtremum neg xs (Some z) rho)) /\
  (forall x y z, dot_call x y (AInt z) = std (KDot x y (Some z))) /\
  (forall x y zs', inner_call x y true (ATuple zs) (ATuple zs') = std (KInner x y (Some (zs, zs')))).
Proof.
  splits; intros; try reflexivity.
  unfold inner_call. cbn [axes_listed]. destruct (x_shape x) as [|? [|? ?]]; destruct (x_shape y) as [|? [|? ?]]; reflexivity.
Qed.

Lemma forms_built xs a : 
  (forall s c, sum_axes_call xs a = Some (s, Some c) -> exists zs, a = ATuple zs) /\
  (forall s c, average_axes_call xs a = Some (s, Some c) -> exists zs, a = ATuple zs) /\
  (forall neg rho s c, extremum_call neg xs a rho = Some (s, Some c) -> exists z, a = AInt z).
Proof.
  splits; intros until c; intros H; destruct a as [z|l|l]; eauto; exfalso.
  1-4: unfold sum_axes_call, average_axes_call in H; cbn [tuple_only] in H; destruct (reduced_shape _ _); discriminate.
  all: unfold extremum_call in H; destruct xs as [|x [|? ?]]; try discriminate;
    destruct (np_delete_axes _ _); discriminate.
Qed.
