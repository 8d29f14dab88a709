(** C55, C80, C81, C82 and C83: proofs. *)
From Coq Require Import Reals Lra Arith List Bool ZArith Lia.
From Verif Require Import PyBase RSum NdArray NdEinsum Component JacSpec CompReorder CompReduce CompProduct
  CompTensor CompRot CompEinsum CompEinsumSparse CompElem CompExtremum CompNorm CompCond
  StdCalls SpecReduce SpecShapes ReorderProofs ReduceProofs KeptProofs ShapeProofs.
Import ListNotations.
Local Open Scope nat_scope.

(** ---- C55 ---- *)

Lemma returns_inv : forall o c s d, returns o c = Some (s, d) -> o = Some s /\ c = d.
Proof. intros [t|] c s d H; inversion H; now split. Qed.

Lemma distinct_inv : forall xs c d, distinct_inputs xs c = Some d ->
  c = Some d /\ NoDup (map x_name xs).
Proof.
  intros xs c d H. unfold distinct_inputs in H. destruct (names_ok (map x_name xs)) eqn:E; [|discriminate].
  split; [assumption|]. revert E. generalize (map x_name xs). clear.
  induction l as [|x l IH]; intros H; [constructor|]. cbn in H. apply andb_prop in H. destruct H as [H1 H2].
  constructor; [|now apply IH]. intros C. apply negb_true_iff in H1.
  assert (T : existsb (Nat.eqb x) l = true); [|congruence].
  apply existsb_exists. exists x. split; [assumption|apply Nat.eqb_refl].
Qed.

Lemma distinct_same : forall xs c, NoDup (map x_name xs) -> distinct_inputs xs c = c.
Proof.
  intros xs c H. unfold distinct_inputs.
  assert (E : names_ok (map x_name xs) = true); [|now rewrite E].
  revert H. generalize (map x_name xs). clear.
  induction l as [|x l IH]; intros H; [reflexivity|]. inversion H as [|? ? Hx Hl]; subst.
  cbn. rewrite IH by assumption. rewrite andb_true_r. apply negb_true_iff.
  destruct (existsb (Nat.eqb x) l) eqn:E; [|reflexivity]. exfalso.
  apply existsb_exists in E. destruct E as (y & Hy & Ey). apply Nat.eqb_eq in Ey. now subst y.
Qed.

Lemma two_names : forall x y, x_name x <> x_name y -> NoDup (map x_name [x; y]).
Proof. intros x y H. cbn. repeat constructor; cbn; intuition congruence. Qed.

Lemma distinct_none : forall xs, distinct_inputs xs None = None.
Proof. intros xs. unfold distinct_inputs. now destruct (names_ok _). Qed.

Lemma distinct_repeated : forall xs c, ~ NoDup (map x_name xs) -> distinct_inputs xs c = None.
Proof.
  intros xs c H. destruct (distinct_inputs xs c) as [d|] eqn:E; [|reflexivity].
  elim H. now apply distinct_inv in E.
Qed.

Theorem std_out : forall k s c, std k = Some (s, Some c) -> ~ by_one_column k -> c_out c = s.
Proof.
  intros k s c H Hk. destruct k; cbn [std] in H.
  - inversion H. reflexivity.
  - apply outcome_expr, binop_shape in H. apply H.
  - apply outcome_expr, neg_shape in H. apply H.
  - apply returns_inv in H as [H1 H2]. apply distinct_inv in H2 as [H2 _]. exact (reduced_out _ _ _ _ _ sum_like H1 H2).
  - apply returns_inv in H as [H1 H2]. apply distinct_inv in H2 as [H2 _]. exact (reduced_out _ _ _ _ _ average_like H1 H2).
  - now apply extremum_shape in H.
  - now apply pnorm_shape in H.
  - apply returns_inv in H as [H1 H2]. apply distinct_inv in H2 as [H2 _]. now apply (inner_case _ _ _ _ _ H1).
  - apply returns_inv in H as [H1 H2]. apply distinct_inv in H2 as [H2 _]. now apply (dot_case _ _ _ _ _ H1).
  - apply returns_inv in H as [H1 H2]. apply distinct_inv in H2 as [H2 _].
    inversion H1; inversion H2; subst. apply outer_case.
  - destruct (matvec_comp _ _) as [d|] eqn:E; [|discriminate]. inversion H as [[H1 H2]].
    apply distinct_inv in H2 as [H2 _]. inversion H2; subst. now apply matvec_case in E.
  - destruct (matmat_comp _ _) as [[d t]|] eqn:E; [|discriminate].
    inversion H as [[H1 H2]]. apply distinct_inv in H2 as [H2 _].
    destruct (reshape_val_ok y); inversion H2; subst.
    apply matmat_case in E. destruct E as (m & n & p & Ex & Ey & -> & -> & _).
    destruct (Nat.eqb_spec p 1) as [->|]; [|reflexivity]. exfalso. apply Hk. cbn.
    destruct Ey as [Ey|[Ey _]]; rewrite Ey; eauto.
  - apply returns_inv in H as [H1 H2]. apply distinct_inv in H2 as [H2 _]. apply cross_case in H2 as [-> _].
    destruct (list_eq_dec Nat.eq_dec (x_shape x) (x_shape y)); [|discriminate].
    destruct (nth_error (x_shape x) axis) as [[|[|[|[|d]]]]|]; congruence.
  - inversion H; subst; reflexivity.
  - inversion H; subst; reflexivity.
  - inversion H; subst; reflexivity.
  - apply returns_inv in H as [H1 H2]. unfold reorder_comp, reorder_out_shape in H2. rewrite H1 in H2.
    destruct (reorder_partials _ _); inversion H2. reflexivity.
  - unfold expand_comp in H. destruct (expand_std (x_shape x) s0 indices) as [e|] eqn:E; [|discriminate].
    inversion H; subst. cbn. unfold expand_std in E.
    destruct e as [|d]; [reflexivity|]. cbn.
    destruct (match indices with Some _ => _ | None => _ end) as [[sel|]|] in E; try discriminate;
      destruct (list_eq_dec Nat.eq_dec (x_shape x) [1]); try discriminate.
    unfold decompose_shape_tuple in E. destruct (Nat.leb (length s) 10); [|discriminate].
    destruct (list_eq_dec Nat.eq_dec _ _) in E; inversion E. reflexivity.
  - apply returns_inv in H as [H1 H2]. apply einsum_any_case in H2 as [H2 _]. congruence.
  - apply returns_inv in H as [H1 H2]. unfold einsum_new_shape in H1. unfold einsum_new_any in H2.
    destruct (new_subscripts _ _) as [[aslist str]|] eqn:E; [|discriminate].
    rewrite (new_subscripts_shape _ _ _ _ _ E) in H1. apply einsum_any_case in H2 as [H2 _]. congruence.
  - unfold if_else in H. destruct (list_eq_dec _ _ _); [|discriminate]. inversion H; subst.
    unfold cond_comp in H2. destruct (_ && _); inversion H2. reflexivity.
Qed.

Theorem one_column_out : forall k s c, std k = Some (s, Some c) -> by_one_column k ->
  exists m, s = [m; 1] /\ c_out c = [m].
Proof.
  intros k s c H Hk. destruct k; try destruct Hk. all: cbn [std] in H.
  all: destruct (matmat_comp _ _) as [[d t]|] eqn:E; [|discriminate].
  all: inversion H as [[H1 H2]]; apply distinct_inv in H2 as [H2 _];
    destruct (reshape_val_ok y); inversion H2; subst.
  all: apply matmat_case in E; destruct E as (m & n & p & Ex & Ey & -> & -> & _).
  all: exists m; destruct H0 as (n' & H0); rewrite H0 in Ey.
  - destruct Ey as [Ey|[Ey ->]]; [discriminate|]. now split.
  - destruct Ey as [Ey|[Ey ->]]; [|discriminate]. inversion Ey; subst. now split.
Qed.

(** ---- C80 ---- *)

Theorem std_ins : forall k s c, std k = Some (s, Some c) ->
  NoDup (map fst (call_operands k)) -> like_shapes k ->
  c_ins c = map snd (call_operands k).
Proof.
  intros k s c H Hn Hk. destruct k; cbn [std] in H; cbn [call_operands like_shapes] in *.
  - inversion H. reflexivity.
  - apply outcome_expr, binop_shape in H. apply H.
  - apply outcome_expr, neg_shape in H. apply H.
  - apply returns_inv in H as [H1 H2]. apply distinct_inv in H2 as [H2 _].
    rewrite names_shapes. exact (reduced_ins _ _ _ _ sum_like H2 Hk).
  - apply returns_inv in H as [H1 H2]. apply distinct_inv in H2 as [H2 _].
    rewrite names_shapes. exact (reduced_ins _ _ _ _ average_like H2 Hk).
  - now apply extremum_shape in H.
  - now apply pnorm_shape in H.
  - apply returns_inv in H as [H1 H2]. apply distinct_inv in H2 as [H2 _]. now apply (inner_case _ _ _ _ _ H1).
  - apply returns_inv in H as [H1 H2]. apply distinct_inv in H2 as [H2 _]. now apply (dot_case _ _ _ _ _ H1).
  - apply returns_inv in H as [H1 H2]. apply distinct_inv in H2 as [H2 _].
    inversion H1; inversion H2; subst. apply outer_case.
  - destruct (matvec_comp _ _) as [d|] eqn:E; [|discriminate]. inversion H as [[H1 H2]].
    apply distinct_inv in H2 as [H2 _]. inversion H2; subst. now apply matvec_case in E.
  - destruct (matmat_comp _ _) as [[d t]|] eqn:E; [|discriminate].
    inversion H as [[H1 H2]]. apply distinct_inv in H2 as [H2 _].
    destruct (reshape_val_ok y); inversion H2; subst.
    apply matmat_case in E. destruct E as (m & n & p & Ex & Ey & -> & _ & ->). cbn. rewrite Ex.
    destruct Ey as [->|[Ey _]]; [reflexivity|]. now rewrite Ey in Hk.
  - apply returns_inv in H as [H1 H2]. apply distinct_inv in H2 as [H2 _]. now apply cross_case in H2.
  - inversion H; subst; reflexivity.
  - inversion H; subst; reflexivity.
  - inversion H; subst; reflexivity.
  - apply returns_inv in H as [H1 H2]. unfold reorder_comp in H2.
    destruct (reorder_out_shape _ _); [|discriminate].
    destruct (reorder_partials _ _); inversion H2. reflexivity.
  - unfold expand_comp in H. destruct (expand_std (x_shape x) s0 indices) as [e|] eqn:E; inversion H.
    reflexivity.
  - apply returns_inv in H as [H1 H2]. apply einsum_any_case in H2 as [_ ->].
    rewrite names_shapes. rewrite names_names in Hn. now apply shape_of_names.
  - apply returns_inv in H as [H1 H2]. unfold einsum_new_any in H2.
    destruct (new_subscripts _ _) as [[aslist str]|] eqn:E; [|discriminate].
    apply einsum_any_case in H2 as [_ ->].
    rewrite names_shapes. rewrite names_names in Hn. now apply shape_of_names.
  - unfold if_else in H. destruct (list_eq_dec _ _ _); [|discriminate]. inversion H; subst.
    unfold cond_comp in H2. destruct (_ && _); inversion H2. cbn.
    destruct Hk as (-> & -> & ->). reflexivity.
Qed.

Theorem unlike_sum : forall x y, x_name x <> x_name y -> exists c d,
  std (KSum [x; y] None) = Some (x_shape y, Some c) /\
  std (KAverage [x; y] None) = Some (x_shape y, Some d) /\
  c_ins c = [x_shape y; x_shape y] /\ c_ins d = [x_shape y; x_shape y].
Proof.
  intros x y H. cbn [std]. rewrite !distinct_same by (apply two_names; assumption).
  cbn. eexists. eexists. splits; reflexivity.
Qed.

Theorem unlike_inner : forall x y n m axes, x_name x <> x_name y -> x_shape x = [n] -> x_shape y = [m] ->
  exists c, std (KInner x y axes) = Some ([1], Some c) /\ c_ins c = [[n]; [n]].
Proof.
  intros x y n m axes H Hx Hy. cbn [std]. rewrite distinct_same by (apply two_names; assumption).
  rewrite Hx, Hy. cbn. eexists. split; reflexivity.
Qed.

Theorem matmat_vector_connects : forall x y m n s c,
  x_shape x = [m; n] -> x_shape y = [n] -> std (KMatmat x y) = Some (s, Some c) ->
  c_ins c = [[m; n]; [n; 1]] /\ connectable [n] [n; 1].
Proof.
  intros x y m n s c Hx Hy H. cbn [std] in H.
  destruct (matmat_comp _ _) as [[d t]|] eqn:E; [|discriminate].
  inversion H as [[H1 H2]]. apply distinct_inv in H2 as [H2 _].
  destruct (reshape_val_ok y); inversion H2; subst.
  apply matmat_case in E. destruct E as (m' & n' & p & Ex & Ey & -> & _ & ->).
  rewrite Hx in Ex. rewrite Hy in Ey. inversion Ex; subst.
  destruct Ey as [Ey|[_ ->]]; [discriminate|]. split; [reflexivity|].
  split; [cbn; lia|]. destruct n' as [|[|n']]; reflexivity.
Qed.

Theorem not_connectable : exists k s c,
  std k = Some (s, Some c) /\ NoDup (map fst (call_operands k)) /\
  ~ connectable (snd (nth 0 (call_operands k) (0, []))) (nth 0 (c_ins c) []).
Proof.
  exists (KSum [Facts 0 [2] [1]; Facts 1 [3] [1]] None).
  destruct (unlike_sum (Facts 0 [2] [1]) (Facts 1 [3] [1]) ltac:(discriminate)) as (c & d & H & _ & Hc & _).
  exists [3], c. split; [exact H|]. split; [|rewrite Hc; intros [E _]; discriminate].
  repeat constructor; cbn; intuition discriminate.
Qed.

(** ---- C82 ---- *)

Theorem matmat_needs_val : forall x y m n,
  x_shape x = [m; n] -> x_shape y = [n] -> size (x_val y) <> n ->
  std (KMatmat x y) = Some ([m; 1], None).
Proof.
  intros x y m n Hx Hy Hv. cbn [std]. rewrite Hx, Hy. unfold matmat_comp. rewrite Nat.eqb_refl.
  unfold reshape_val_ok. rewrite Hy.
  destruct (Nat.eqb_spec (size (x_val y)) (size [n; 1])) as [E|].
  - cbn in E. lia.
  - now rewrite distinct_none.
Qed.

Theorem matmat_with_val : forall x y m n, x_name x <> x_name y ->
  x_shape x = [m; n] -> x_shape y = [n] -> size (x_val y) = n ->
  exists c s, matmat_comp [m; n] [n] = Some (c, s) /\ std (KMatmat x y) = Some (s, Some c).
Proof.
  intros x y m n Hn Hx Hy Hv. cbn [std]. rewrite Hx, Hy. unfold matmat_comp. rewrite Nat.eqb_refl.
  rewrite distinct_same by (apply two_names; assumption). do 2 eexists. split; [reflexivity|]. unfold reshape_val_ok. rewrite Hy.
  replace (size (x_val y)) with (size [n; 1]) by (cbn; lia). now rewrite Nat.eqb_refl.
Qed.

Theorem computed_vector_refuted : exists x y, x_shape x = [2; 3] /\ x_shape y = [3] /\ x_val y = [1] /\
  std (KMatmat x y) = Some ([2; 1], None).
Proof.
  exists (Facts 0 [2; 3] [2; 3]), (Facts 1 [3] [1]). splits; reflexivity.
Qed.

(** ---- C81 ---- *)

Theorem defined_shape : forall s x, fst (define s x) = s /\ c_out (snd (define s x)) = x_shape x.
Proof. intros. split; reflexivity. Qed.

Theorem defined_wrong : exists s x, ~ connectable (c_out (snd (define s x))) (fst (define s x)).
Proof. exists [2], (Facts 0 [3] [1]). intros [E _]. discriminate. Qed.

Theorem pass_through_correct : forall s, correct (pass_through_comp s) same_meaning.
Proof.
  intros s. unfold pass_through_comp.
  apply correct_gather with (g := fun k => k) (c := Coo (size s) (fun k => k) (fun k => k) (fun _ => 1%R)).
  - intros x. unfold assign_output. cbn [shp]. rewrite Nat.eqb_refl. reflexivity.
  - intros _. unfold sparse_partials, np_arange, scalar. cbn [shp dat size]. rewrite Nat.mul_1_r.
    destruct (list_eq_dec Nat.eq_dec [size s] [size s]); [|congruence].
    destruct (list_eq_dec Nat.eq_dec [] [size s]); [discriminate|]. reflexivity.
  - reflexivity.
  - intros k _. cbn. auto.
  - auto.
  - intros x. split; reflexivity.
Qed.

Theorem defined_value : forall s x, x_shape x = s ->
  let c := snd (define s x) in
  c_ins c = [x_shape x] /\ c_out c = s /\ correct c same_meaning.
Proof. intros s x <- c. splits; [reflexivity|reflexivity|apply pass_through_correct]. Qed.

(** ---- C83 ---- *)

Lemma all_deleted : forall (s : shape) axes, (forall i, i < length s -> In i axes) -> delete axes s = [].
Proof.
  intros s axes H. pose proof (axis_left_none s axes H) as E. unfold axis_left in E.
  apply Nat.ltb_ge in E. destruct (delete axes s); [reflexivity|cbn in E; lia].
Qed.

Theorem every_axis_raises : forall xs s zs axes, xs <> [] -> (forall x, In x xs -> x_shape x = s) ->
  Forall2 (axis_named (length s)) zs axes -> (forall i, i < length s -> In i axes) ->
  std (KSum xs (Some zs)) = Some ([], None) /\
  std (KAverage xs (Some zs)) = Some ([], None).
Proof.
  intros xs s zs axes Hx Hs Hz Ha.
  assert (El : last_shape xs = s).
  { destruct (last_shape_in xs Hx) as (x & Hin & ->). now apply Hs. }
  assert (Er : reduced_shape xs (Some zs) = Some []).
  { unfold reduced_shape. unfold last_shape in El.
    destruct (rev xs) as [|x r] eqn:E.
    { apply (f_equal (@length _)) in E. rewrite rev_length in E. destruct xs; [congruence|discriminate]. }
    unfold np_delete_axes. rewrite El, (norm_axes_named _ _ _ Hz). cbn [option_map].
    rewrite all_deleted by assumption. now destruct r. }
  cbn [std]. rewrite Er, El. unfold sum_comp, average_comp, returns.
  rewrite (norm_axes_named _ _ _ Hz), axis_left_none by assumption. cbn [option_map].
  split; destruct (length xs) as [|[|n]]; try (now rewrite distinct_none);
    destruct (entries_averaged s axes); now rewrite distinct_none.
Qed.

Theorem every_axis_norm : forall x m zs axes, 1 <= m ->
  Forall2 (axis_named (length (x_shape x))) zs axes -> (forall i, i < length (x_shape x) -> In i axes) ->
  std (KNorm x (Z.of_nat (2 * m)) (NormAxes zs)) = Some ([], None).
Proof.
  intros x m zs axes Hm Hz Ha. cbn [std]. unfold pnorm.
  rewrite (proj2 (order_test (Z.of_nat (2 * m)))) by now exists m.
  rewrite (norm_axes_named _ _ _ Hz), all_deleted, axis_left_none, andb_false_r by assumption. reflexivity.
Qed.

Theorem without_axes : forall x, exists c d,
  std (KSum [x] None) = Some ([1], Some c) /\ std (KAverage [x] None) = Some ([1], Some d) /\
  c_out c = [1] /\ c_out d = [1].
Proof. intros x. cbn. do 2 eexists. splits; reflexivity. Qed.

Theorem elementary_shape : forall e x, std (KElem e x) = Some (x_shape x, Some (elem_comp e (x_shape x))) /\
  c_out (elem_comp e (x_shape x)) = x_shape x /\ c_ins (elem_comp e (x_shape x)) = [x_shape x].
Proof. intros e x. splits; reflexivity. Qed.

(** Concrete cases. *)
Definition ea := Facts 0 [2; 3] [1].
Definition eb := Facts 1 [2; 3] [1].
Definition ec := Facts 2 [3; 4] [1].
Definition ev := Facts 3 [3] [3].

(** a sum over axis 1 of two arrays; a product of matrices; an outer product *)
Example shapes_instance :
  (exists c, std (KSum [ea; eb] (Some [1%Z])) = Some ([2], Some c) /\ c_out c = [2] /\ c_ins c = [[2; 3]; [2; 3]]) /\
  (exists c, std (KMatmat ea ec) = Some ([2; 4], Some c) /\ c_out c = [2; 4] /\ c_ins c = [[2; 3]; [3; 4]]) /\
  (exists c, std (KOuter ea ev) = Some ([2; 3; 3], Some c) /\ c_out c = [2; 3; 3] /\ c_ins c = [[2; 3]; [3]]) /\
  ~ by_one_column (KMatmat ea ec) /\ like_shapes (KSum [ea; eb] (Some [1%Z])) /\
  like_shapes (KMatmat ea ec).
Proof.
  splits.
  - eexists. splits; reflexivity.
  - eexists. splits; reflexivity.
  - eexists. splits; reflexivity.
  - cbn. intros [[n E]|[n E]]; discriminate.
  - cbn. intros x y [<-|[<-|[]]] [<-|[<-|[]]]; reflexivity.
  - cbn. discriminate.
Qed.

Example one_column_instance :
  exists c, std (KMatmat ea ev) = Some ([2; 1], Some c) /\ c_out c = [2] /\ by_one_column (KMatmat ea ev).
Proof. eexists. splits; try reflexivity. left. now exists 3. Qed.

(** both axes of a matrix, one of them counted from the end *)
Example every_axis_instance :
  Forall2 (axis_named 2) [1; -2]%Z [1; 0] /\ (forall i, i < 2 -> In i [1; 0]) /\
  std (KSum [ea; eb] (Some [1; -2]%Z)) = Some ([], None).
Proof.
  splits; [|intros i Hi; cbn; lia|reflexivity].
  repeat constructor; cbn; lia.
Qed.
